(** Objectives of the combinatorial problems, and the phase of a circuit on a basis state. *)
From Verif.Costs Require Import CostsModel.
From Coq Require Import ZArith QArith List Bool.
Import ListNotations.

(** the weighted mean of an objective, and sums *)
Fixpoint total {A} (f : A -> Q) (l : list A) : Q := match l with [] => 0 | a :: l => f a + total f l end.
Definition expectation {A} (obj : A -> Q) (c : list (A * Q)) : Q := total (fun '(x, w) => obj x * w) c.
Definition count {A} (f : A -> bool) (l : list A) : Z := Z.of_nat (length (filter f l)).

(** edges with differently coloured ends *)
Definition cut (x : state) (edges : list (nat * nat)) : Z := count (fun '(i, j) => xorb (bit x i) (bit x j)) edges.
(** literals and clauses *)
Definition holds (x : state) (l : Z) : Prop := (0 < l /\ bit x (Z.to_nat (l - 1)) = true \/ l < 0 /\ bit x (Z.to_nat (- l - 1)) = false)%Z.
Definition satisfied (x : state) (clause : list Z) : Prop := exists l, In l clause /\ holds x l.
Definition literals_ok (clauses : list (list Z)) : Prop := forall cl l, In cl clauses -> In l cl -> l <> 0%Z.
(** [n] clauses are satisfied *)
Inductive nsat (x : state) : list (list Z) -> Z -> Prop :=
| nsat_nil : nsat x [] 0
| nsat_yes cl l n : satisfied x cl -> nsat x l n -> nsat x (cl :: l) (n + 1)
| nsat_no cl l n : ~ satisfied x cl -> nsat x l n -> nsat x (cl :: l) n.
(** x^T M x *)
Definition quadratic (m : list (list Q)) (x : state) : Q :=
  total (fun i => total (fun j => b2q (bit x i) * entry m i j * b2q (bit x j)) (seq 0 (length x))) (seq 0 (length x)).
(** linear equations over GF(2) *)
Definition nlin (x : state) (clauses : list (nat * nat * nat * bool)) : Z :=
  count (fun '(i, j, k, r) => eqb (xorb (xorb (bit x i) (bit x j)) (bit x k)) r) clauses.
(** subsets of nodes *)
Definition chosen (x : state) (i : nat) : Prop := bit x i = true.
Definition adjacent (edges : list (nat * nat)) (i j : nat) : Prop := In (i, j) edges \/ In (j, i) edges.
Definition size (x : state) : Z := count (fun b => b) x.
Definition independent (edges : list (nat * nat)) (x : state) : Prop := forall i j, chosen x i -> chosen x j -> i <> j -> ~ adjacent edges i j.
Definition clique (edges : list (nat * nat)) (x : state) : Prop := forall i j, chosen x i -> chosen x j -> i <> j -> adjacent edges i j.
Definition packing (sets : list (list nat)) (x : state) : Prop :=
  forall i j e, chosen x i -> chosen x j -> i <> j -> In e (nth i sets []) -> In e (nth j sets []) -> False.
(** a selection of sets whose union is the universe *)
Definition cover (sets : list (list nat)) (universe : list nat) (x : state) : Prop :=
  (exists i, chosen x i) /\ forall e, In e universe <-> exists i, chosen x i /\ In e (nth i sets []).
(** the objective -|S| for feasible S, 0 otherwise; decided by the reader, not by the model *)
Inductive reward (feasible : Prop) (value other : Q) : Q -> Prop :=
| reward_yes : feasible -> reward feasible value other value
| reward_no : ~ feasible -> reward feasible value other other.
Definition proper_edges (col : list nat) (edges : list (nat * nat)) : Z := count (fun '(i, j) => negb (Nat.eqb (nth i col 0%nat) (nth j col 0%nat))) edges.

(** one gate on the basis state x: new state and angle. rz: -phi/2 on 0, phi/2 on 1; rzz on the parity *)
Definition sgn (b : bool) : Q := if b then 1 # 2 else - (1 # 2).
Definition setb (x : nat -> bool) (i : nat) (b : bool) : nat -> bool := fun k => if Nat.eqb k i then b else x k.
Definition gate_act (g : pgate) (x : nat -> bool) : (nat -> bool) * Q :=
  match g with
  | Gphase phi => (x, phi)
  | Rz phi i => (x, sgn (x i) * phi)
  | Rzz phi i j => (x, sgn (xorb (x i) (x j)) * phi)
  | Mcp phi c => (x, if forallb x c then phi else 0)
  | Mcp0 phi c => (x, if forallb (fun i => negb (x i)) c then phi else 0)
  | Cx i j => (setb x j (xorb (x j) (x i)), 0)
  end.
Fixpoint circuit_act (l : list pgate) (x : nat -> bool) : (nat -> bool) * Q :=
  match l with
  | [] => (x, 0)
  | g :: l => let '(y, p) := gate_act g x in let '(z, q) := circuit_act l y in (z, p + q)
  end.
(** the circuit is diagonal with the given angle *)
Definition multiplies (l : list pgate) (x : state) (angle : Q) : Prop :=
  (forall k, fst (circuit_act l (bit x)) k = bit x k) /\ snd (circuit_act l (bit x)) == angle.
(** node i has s qubits, from i * s on, holding its colour *)
Definition encodes (onehot : bool) (s : nat) (x : state) (col : list nat) : Prop :=
  forall i, (i < length col)%nat ->
    (nth i col 0%nat < (if onehot then s else 2 ^ s))%nat /\
    forall k, (k < s)%nat -> bit x (i * s + k) = (if onehot then Nat.eqb k (nth i col 0%nat) else Nat.testbit (nth i col 0%nat) k).
(** edges between different nodes among 0 .. n-1 *)
Definition simple (n : nat) (edges : list (nat * nat)) : Prop := forall i j, In (i, j) edges -> (i < n)%nat /\ (j < n)%nat /\ i <> j.
Definition equal_edges (col : list nat) (edges : list (nat * nat)) : Z := count (fun '(i, j) => Nat.eqb (nth i col 0%nat) (nth j col 0%nat)) edges.
