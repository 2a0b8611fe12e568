(** Model of QIRO, the quantum-informed recursive optimisation (/repo/src/qrisp/algorithms/qiro): qiroproblems/qiro_utils.py (QU), qiroproblems/qiroMaxIndepSet.py (QI),
    qiroproblems/qiroMaxClique.py (QC), qiroproblems/qiroMaxSat.py (QS), qiroproblems/qiroMaxSetPack.py (QK), qiro_mixers.py (QM), qiro_problem.py (QP). *)
From Coq Require Import List Arith Bool ZArith Reals.
Import ListNotations.
From Verif.StatePrep Require Import PrepModel.
From Verif.Inverse Require Import InvSpec.
From Verif.Mixers Require Import MixModel.
From Verif.Portfolio Require Import PortModel.

(** A measurement result: bits with counts. The code has counts divided by the number of shots, which changes neither signs nor comparisons; rounding is not modelled. *)
Definition result := list (list bool * Z).
(** pow(-1, int(key[i])) *)
Definition spin (key : list bool) (i : nat) : Z := if getbit key i then -1 else 1.
(** QU 48-52, 62-65 *)
Definition corr2 (res : result) (a b : nat) : Z := fold_left (fun s '(key, val) => (s + val * spin key a * spin key b)%Z) res 0%Z.
Definition corr1 (res : result) (i : nat) : Z := fold_left (fun s '(key, val) => (s + val * spin key i)%Z) res 0%Z.
Inductive item := Single (v : nat) | Pair (a b : nat).
(** QU 41-71; the state is max, and max_item with its sign *)
Definition better (st : Z * option (item * Z)) (summe : Z) (i : item) : Z * option (item * Z) :=
  if (Z.abs (fst st) <? Z.abs summe)%Z then (summe, Some (i, Z.sgn summe)) else st.
Definition member (i : nat) (l : list nat) : bool := existsb (Nat.eqb i) l.
Definition find_max (single_cor : list nat) (double_cor : list (nat * nat)) (res : result) (solutions : list nat) : option (item * Z) :=
  let st := fold_left (fun st '(a, b) => if (a =? b)%nat then st else better st (corr2 res a b) (Pair a b)) double_cor (0%Z, None) in
  snd (fold_left (fun st v => if member v solutions then st else better st (corr1 res v) (Single v)) single_cor st).

(** A graph: nodes and edges in the order of graph.nodes() and graph.edges(). Neighbours are listed in the order of the edges. The copy of the graph (QI 64, QC 63) is a new value: that copy.copy shares its parts with the old graph is not modelled. *)
Record graph := { nodes : list nat; edges : list (nat * nat) }.
Definition adj (g : graph) (i : nat) : list nat := flat_map (fun '(a, b) => (if (a =? i)%nat then [b] else []) ++ (if (b =? i)%nat then [a] else [])) (edges g).
Definition remove_nodes (g : graph) (l : list nat) : graph :=
  {| nodes := filter (fun i => negb (member i l)) (nodes g); edges := filter (fun '(a, b) => negb (member a l) && negb (member b l)) (edges g) |}.
(** the updated problem with the solutions and exclusions *)
Definition progress (A : Type) := (A * list nat * list nat)%type.
(** QI 49-93; the set in QI 89 is a list without repetitions *)
Definition indep_replace (res : result) (p : progress graph) : progress graph :=
  let '(g, solutions, exclusions) := p in
  match find_max (nodes g) (edges g) res solutions with
  | None => p
  | Some (Single v, sign) =>
      if (sign <? 0)%Z then (remove_nodes g (adj g v), solutions ++ [v], exclusions ++ adj g v)
      else (remove_nodes g [v], solutions, exclusions ++ [v])
  | Some (Pair a b, sign) =>
      if (0 <? sign)%Z then (remove_nodes g [a; b], solutions, exclusions ++ [a; b])
      else let intersect := nodup Nat.eq_dec (adj g a) in (remove_nodes g intersect, solutions, exclusions ++ intersect)
  end.
(** QC 50-103 *)
Definition clique_replace (res : result) (p : progress graph) : progress graph :=
  let '(g, solutions, exclusions) := p in
  let others keep := filter (fun i => negb (member i keep)) (nodes g) in
  match find_max (nodes g) (edges g) res solutions with
  | None => p
  | Some (Single v, sign) =>
      if (sign <? 0)%Z then let r := others (adj g v ++ [v]) in (remove_nodes g r, solutions ++ [v], exclusions ++ r)
      else (remove_nodes g [v], solutions, exclusions ++ [v])
  | Some (Pair a b, sign) =>
      if (0 <? sign)%Z then let r := others (adj g a ++ [a; b]) in (remove_nodes g r, solutions ++ [a; b], exclusions ++ r)
      else let r := others (adj g a ++ adj g b ++ [a; b]) in (remove_nodes g r, solutions, exclusions ++ r)
  end.
(** QP 180-190: the recursions, with the measurement results of each *)
Definition rounds {A} (replace : result -> progress A -> progress A) (problem : A) (results : list result) : progress A :=
  fold_left (fun p res => replace res p) results (problem, [], []).
(** QK 39-47 *)
Definition set_packing_graph (sets : list (list nat)) : graph :=
  let n := length sets in
  {| nodes := seq 0 n; edges := flat_map (fun i => map (fun j => (i, j)) (filter (fun j => (i <? j)%nat && intersects (nth i sets []) (nth j sets [])) (seq 0 n))) (seq 0 n) |}.

(** * The circuits, on the qubits 0, ..., n - 1; qubit n holds the predicate *)
Local Open Scope R_scope.
(** QI 115-123 *)
Definition indep_cost (p : progress graph) (gamma : R) : list mgate :=
  let '(g, solutions, _) := p in
  flat_map (fun '(a, b) => rzz (3 * gamma) a b ++ rzg (- gamma) a ++ rzg (- gamma) b) (edges g)
  ++ flat_map (fun i => if member i solutions then [] else rzg gamma i) (nodes g).
(** QI 149-163 with QM 126-131 *)
Definition indep_mixer (n : nat) (p : progress graph) (beta : R) : list mgate :=
  let '(g, solutions, exclusions) := p in
  flat_map (fun i => if member i (solutions ++ exclusions) then [] else mixer_step (indep_predicate (adj g) n) n beta i) (seq 0 n).
(** QI 180-183 *)
Definition indep_init (n : nat) (solutions : list nat) : list mgate := flat_map (fun i => if member i solutions then [Std (Not i)] else []) (seq 0 n).
Definition indep_circuit (n : nat) (p : progress graph) (angles : list (R * R)) : list mgate :=
  let '(g, solutions, exclusions) := p in indep_init n solutions ++ layers (indep_cost p) (indep_mixer n p) angles.
(** QC 125-134; the edges of the complement in the order of the nodes *)
Definition clique_cost (p : progress graph) (gamma : R) : list mgate :=
  let '(g, solutions, _) := p in
  flat_map (fun '(a, b) => if (a <? b)%nat && negb (member b (adj g a)) then rzz (3 * gamma) a b ++ rzg (- gamma) a ++ rzg (- gamma) b else []) (list_prod (nodes g) (nodes g))
  ++ flat_map (fun i => if member i solutions then [] else rzg gamma i) (nodes g).
(** QM 37-45 *)
Definition qiro_rx_mixer {A} (n : nat) (p : progress A) (beta : R) : list mgate :=
  let '(_, solutions, exclusions) := p in flat_map (fun i => if member i (solutions ++ exclusions) then [] else [Std (U (rx (2 * beta)) i)]) (seq 0 n).
(** QM 152-162 *)
Definition qiro_init (n : nat) (solutions exclusions : list nat) : list mgate :=
  flat_map (fun i => if member i (solutions ++ exclusions) then [] else [Std (U (mk_u (PI / 2) 0 PI 0) i)]) (seq 0 n) ++ map (fun i => Std (Not i)) solutions.
Definition clique_circuit (n : nat) (p : progress graph) (angles : list (R * R)) : list mgate :=
  let '(g, solutions, exclusions) := p in qiro_init n solutions exclusions ++ layers (clique_cost p) (qiro_rx_mixer n p) angles.

(** * Satisfiability *)
Local Open Scope Z_scope.
(** a clause: a list of non-zero numbers, negative for negated variables *)
Definition clause := list Z.
Definition has (l : Z) (c : clause) : bool := existsb (Z.eqb l) c.
Fixpoint replace_first (a b : Z) (c : clause) : clause := match c with [] => [] | l :: c => if l =? a then b :: c else l :: replace_first a b c end.
Fixpoint remove_first (a : Z) (c : clause) : clause := match c with [] => [] | l :: c => if l =? a then c else l :: remove_first a c end.
Fixpoint set_nth (i : nat) (c : clause) (cs : list clause) : list clause := match cs, i with [], _ => [] | _ :: cs, O => c :: cs | d :: cs, S i => d :: set_nth i c cs end.
(** list.remove: the first clause that is equal *)
Definition clause_eqb (c d : clause) : bool := if list_eq_dec Z.eq_dec c d then true else false.
Fixpoint remove_clause (c : clause) (cs : list clause) : list clause := match cs with [] => [] | d :: cs => if clause_eqb d c then cs else d :: remove_clause c cs end.
(** QS 71-97: the loop at index i, where [lit] is the literal that is now true; clauses are removed from the list while it is iterated. The second component: the number of passes *)
Fixpoint sat_loop (fuel : nat) (lit : Z) (i : nat) (cs : list clause) : list clause * nat :=
  match fuel with
  | O => (cs, O)
  | S fuel =>
      if (i <? length cs)%nat then
        let c := nth i cs [] in
        let cs' := if has lit c then set_nth i [] cs
                   else if has (- lit) c then if (length c =? 1)%nat then remove_clause c cs else set_nth i (remove_first (- lit) c) cs
                   else cs in
        let '(r, k) := sat_loop fuel lit (S i) cs' in (r, S k)
      else (cs, O)
  end.
(** QS 103-122: [a] and [b] are variables *)
Definition sat_subst (a b sign : Z) (c : clause) : clause :=
  let c := if has b c then replace_first b (if 0 <? sign then a else - a) c else c in
  if has (- b) c then replace_first (- b) (if 0 <? sign then - a else a) c else c.
(** itertools.combinations(l, 2) *)
Fixpoint pairs (l : list nat) : list (nat * nat) := match l with [] => [] | a :: l => map (pair a) l ++ pairs l end.
(** QS 51-125; variables are counted from 1 *)
Definition sat_replace (res : result) (p : progress (nat * list clause)) : progress (nat * list clause) :=
  let '((vars, cs), solutions, exclusions) := p in
  let free := map (fun i => i - 1)%nat (filter (fun i => negb (member i exclusions)) (seq 1 vars)) in
  match find_max free (pairs free) res solutions with
  | None => p
  | Some (Single v, sign) =>
      let '(cs', k) := sat_loop (length cs) (if sign <? 0 then Z.of_nat (v + 1) else - Z.of_nat (v + 1)) 0 cs in
      ((vars, cs'), solutions ++ (if sign <? 0 then repeat (v + 1)%nat k else []), exclusions ++ repeat (v + 1)%nat k)
  | Some (Pair a b, sign) =>
      ((vars, map (sat_subst (Z.of_nat (a + 1)) (Z.of_nat (b + 1)) sign) cs), solutions, exclusions ++ repeat (b + 1)%nat (length cs))
  end.
