(** Model of the classical cost functions and phase separators of the QAOA problems
    (/repo/src/qrisp/algorithms/qaoa/problems/). A measurement result is a list of (bit string, weight);
    weights, matrix entries and angles are rationals (the code computes with doubles). Indices beyond the
    bit string (IndexError in the code) read as 0. *)
From Coq Require Import ZArith QArith List Bool.
Import ListNotations.
Local Open Scope Z_scope.

Definition state := list bool.
Definition counts := list (state * Q).
Definition b2z (b : bool) : Z := if b then 1 else 0.
Definition bit (x : state) (i : nat) : bool := nth i x false.

(** * maxCut.py *)
(** maxCut.py:42, 97, 101: int(s[::-1], 2), the first character is the lowest bit *)
Definition to_int (x : state) : Z := fold_right (fun b acc => b2z b + 2 * acc) 0 x.
(** maxCut.py:45-54 *)
Definition maxcut_obj (x : Z) (edges : list (nat * nat)) : Z :=
  fold_left (fun cut '(i, j) =>
    if Z.eqb (Z.land (Z.lxor (Z.shiftr x (Z.of_nat i)) (Z.shiftr x (Z.of_nat j))) 1) 0 then cut else cut - 1) edges 0.
(** maxCut.py:57-109. None: no outcome (line 95, IndexError), no edge (the array of line 90 is one-dimensional and
    the loop of line 49 does not type check), or an outcome that does not fit in uint32 (line 105,
    OverflowError). The order in which the parallel loop adds is not modelled. *)
Definition maxcut_cost (edges : list (nat * nat)) (c : counts) : option Q :=
  if negb (Nat.eqb (length c) 0) && negb (Nat.eqb (length edges) 0) && forallb (fun '(x, _) => to_int x <? 2 ^ 32) c
  then Some (fold_left (fun acc '(x, w) => acc + inject_Z (maxcut_obj (to_int x) edges) * w) c 0)%Q
  else None.

(** * maxSat.py *)
(** maxSat.py:76: the factor of one literal; literals are non-zero integers, variables count from 1 *)
Definition lit_factor (x : state) (l : Z) : Z :=
  if 0 <? l then 1 - b2z (bit x (Z.to_nat (l - 1))) else b2z (bit x (Z.to_nat (- l - 1))).
Definition clause_value (x : state) (clause : list Z) : Z := 1 - fold_left Z.mul (map (lit_factor x) clause) 1.
(** maxSat.py:68-82 *)
Definition maxsat_cost (clauses : list (list Z)) (c : counts) : Q :=
  fold_left (fun acc '(x, w) => fold_left (fun acc cl => acc + inject_Z (- clause_value x cl) * w)%Q clauses acc) c 0%Q.

(** * QUBO.py *)
Definition qsum (l : list Q) : Q := fold_left Qplus l 0%Q.
Definition b2q (b : bool) : Q := if b then 1%Q else 0%Q.
Definition entry (m : list (list Q)) (i j : nat) : Q := nth j (nth i m []) 0%Q.
(** QUBO.py:25-28, 48-51: (x.T @ Q) @ x *)
Definition qubo_obj (m : list (list Q)) (x : state) : Q :=
  qsum (map (fun j => qsum (map (fun i => b2q (bit x i) * entry m i j) (seq 0 (length x))) * b2q (bit x j)) (seq 0 (length x)))%Q.
(** QUBO.py:53-57 *)
Definition qubo_cost (m : list (list Q)) (c : counts) : Q := fold_left (fun acc '(x, w) => acc + qubo_obj m x * w)%Q c 0%Q.

(** * eThrLinTwo.py:71-78 *)
Definition e3lin2_cost (clauses : list (nat * nat * nat * bool)) (c : counts) : Q :=
  fold_left (fun acc '(x, w) => fold_left (fun acc '(i, j, k, r) =>
    if Z.eqb ((b2z (bit x i) + b2z (bit x j) + b2z (bit x k)) mod 2) (b2z r) then acc - w else acc)%Q clauses acc) c 0%Q.

(** * maxIndepSet.py:75-88, maxClique.py:44-57 *)
Definition indices (x : state) : list nat := filter (bit x) (seq 0 (length x)).
Fixpoint combinations (l : list nat) : list (nat * nat) :=
  match l with [] => [] | a :: l => map (fun b => (a, b)) l ++ combinations l end.
(** membership in the edges of an undirected networkx graph *)
Definition has_edge (edges : list (nat * nat)) (p : nat * nat) : bool :=
  existsb (fun '(a, b) => (Nat.eqb a (fst p) && Nat.eqb b (snd p)) || (Nat.eqb a (snd p) && Nat.eqb b (fst p))) edges.
Definition indep_cost (edges : list (nat * nat)) (c : counts) : Q :=
  fold_left (fun acc '(x, w) => if forallb (fun p => negb (has_edge edges p)) (combinations (indices x))
    then acc + inject_Z (- Z.of_nat (length (indices x))) * w else acc)%Q c 0%Q.
Definition clique_cost (edges : list (nat * nat)) (c : counts) : Q :=
  fold_left (fun acc '(x, w) => if forallb (has_edge edges) (combinations (indices x))
    then acc + inject_Z (- Z.of_nat (length (indices x))) * w else acc)%Q c 0%Q.
(** maxClique.py:79: networkx.complement of a graph with nodes 0 .. n-1 *)
Definition complement (n : nat) (edges : list (nat * nat)) : list (nat * nat) :=
  filter (fun p => negb (has_edge edges p)) (combinations (seq 0 n)).

(** * maxSetPacking.py:46-57: the constraint graph, then the cost function of independent sets *)
Definition meets (a b : list nat) : bool := existsb (fun e => existsb (Nat.eqb e) b) a.
Definition packing_edges (sets : list (list nat)) : list (nat * nat) :=
  filter (fun '(i, j) => meets (nth i sets []) (nth j sets [])) (combinations (seq 0 (length sets))).
Definition packing_cost (sets : list (list nat)) (c : counts) : Q := indep_cost (packing_edges sets) c.

(** * minSetCover.py:79-89. Infeasible outcomes are not weighted (minSetCover.py:87). *)
Definition subset (a b : list nat) : bool := forallb (fun e => existsb (Nat.eqb e) b) a.
Definition covers (sets : list (list nat)) (universe : list nat) (x : state) : bool :=
  let chosen := map (fun i => nth i sets []) (indices x) in
  (0 <? Z.of_nat (length chosen)) && subset (concat chosen) universe && subset universe (concat chosen).
Definition cover_cost (sets : list (list nat)) (universe : list nat) (c : counts) : Q :=
  fold_left (fun acc '(x, w) => if covers sets universe x
    then acc + inject_Z (Z.of_nat (length (indices x))) * w else acc + inject_Z (Z.of_nat (length sets)))%Q c 0%Q.

(** * maxKColorableSubgraph.py:213-255; an outcome assigns a colour to every node *)
Definition mkcs_obj (col : list nat) (edges : list (nat * nat)) : Z :=
  - fold_left (fun cost '(i, j) => if Nat.eqb (nth i col 0%nat) (nth j col 0%nat) then cost else cost * 4) edges 1.
Definition coloring_cost (edges : list (nat * nat)) (c : list (list nat * Q)) : Q :=
  fold_left (fun acc '(col, w) => acc + inject_Z (mkcs_obj col edges) * w)%Q c 0%Q.

(** * phase separators: circuits of diagonal gates and cx on basis states *)
Inductive pgate := Gphase (phi : Q) | Rz (phi : Q) (i : nat) | Rzz (phi : Q) (i j : nat) | Mcp (phi : Q) (ctrl : list nat) | Mcp0 (phi : Q) (ctrl : list nat) | Cx (i j : nat).

(** maxCut.py:208-209 *)
Definition maxcut_operator (edges : list (nat * nat)) (gamma : Q) : list pgate := map (fun '(i, j) => Rzz (2 * gamma) i j) edges.

(** QUBO.py:84-95; gamma after the rescaling of line 87 *)
Definition qubo_operator (n : nat) (m : list (list Q)) (gamma : Q) : list pgate :=
  let all := seq 0 n in
  let total := qsum (map (fun i => qsum (map (fun j => entry m i j) all)) all) in
  let trace := qsum (map (fun i => entry m i i) all) in
  Gphase (- gamma / 4 * (total + trace)) ::
  flat_map (fun i =>
    Rz (- gamma / 2 * (qsum (map (fun j => entry m i j) all) + qsum (map (fun j => entry m j i) all))) i ::
    flat_map (fun j => if negb (Nat.eqb i j) && negb (Qeq_bool (entry m i j) 0) then [Rzz (gamma / 2 * entry m i j) i j] else []) all) all.

(** polynomials in 0/1 variables: coefficients and variables of the monomials *)
Definition poly := list (Q * list nat).
Definition pmul (p q : poly) : poly := flat_map (fun '(a, u) => map (fun '(b, v) => ((a * b)%Q, u ++ v)) q) p.
Definition pconst (a : Q) : poly := [(a, [])].
Definition pscale (a : Q) (p : poly) : poly := map (fun '(b, v) => ((a * b)%Q, v)) p.
(** maxSat.py:45: 1 - prod(1 - x_l or x_l). sympy's expansion may merge and drop monomials, which does not
    change the sum of the phases and is not modelled. *)
Definition lit_poly (l : Z) : poly :=
  if 0 <? l then [(1%Q, []); ((-1)%Q, [Z.to_nat (l - 1)])] else [(1%Q, [Z.to_nat (- l - 1)])].
Definition clause_poly (clause : list Z) : poly := pconst 1 ++ pscale (-1) (fold_left pmul (map lit_poly clause) (pconst 1)).
(** SBP_arithmetic.py:1166-1206 app_sb_phase_polynomial: one multi-controlled phase gate per monomial, on the
    distinct qubits of the monomial *)
Definition app_sb_phase_polynomial (p : poly) (t : Q) : list pgate :=
  map (fun '(a, v) => match nodup Nat.eq_dec v with [] => Gphase (a * t) | c => Mcp (a * t) c end) p.
(** maxSat.py:111-113 *)
Definition maxsat_operator (clauses : list (list Z)) (gamma : Q) : list pgate :=
  flat_map (fun cl => app_sb_phase_polynomial (pscale (-1) (clause_poly cl)) gamma) clauses.

(** eThrLinTwo.py:21-24, 48-51: conjugation with the parity circuit; the right-hand sides are 0 or 1 *)
Definition e3lin2_clause (gamma : Q) (cl : nat * nat * nat * bool) : list pgate :=
  let '(i, j, k, r) := cl in [Cx i j; Cx j k; Rz (if r then (- gamma)%Q else gamma) k; Cx j k; Cx i j].
Definition e3lin2_operator (clauses : list (nat * nat * nat * bool)) (gamma : Q) : list pgate :=
  flat_map (e3lin2_clause gamma) clauses.

(** maxKColorableSubgraph.py:175-185: the colours start at the qubits a and b and have s qubits each *)
Definition phase_if_eq_onehot (a b s : nat) (gamma : Q) : list pgate := map (fun i => Mcp (2 * gamma) [a + i; b + i]%nat) (seq 0 s).
Definition phase_if_eq_binary (a b s : nat) (gamma : Q) : list pgate :=
  let c := map (fun i => Cx (a + i) (b + i)) (seq 0 s) in
  c ++ [Mcp0 (2 * gamma) (seq b s)] ++ c.
(** maxKColorableSubgraph.py:206-208 *)
Definition coloring_operator (onehot : bool) (s : nat) (edges : list (nat * nat)) (gamma : Q) : list pgate :=
  flat_map (fun '(i, j) => (if onehot then phase_if_eq_onehot else phase_if_eq_binary) (i * s)%nat (j * s)%nat s gamma) edges.
