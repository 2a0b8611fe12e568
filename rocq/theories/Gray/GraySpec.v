(** Specification vocabulary for phase synthesis. *)
From Verif.Gray Require Import GrayModel.
Local Open Scope nat_scope.
(** the action of a circuit on the basis state [x] (bit j: qubit j): the phase it picks up, and the state it becomes *)
Fixpoint action (l : list ggate) (x : N) : Qc * N :=
  match l with
  | [] => (0%Qc, x)
  | GCX c t :: l => action l (if tb x c then N.lxor x (bit t) else x)
  | GP a q :: l => let (p, y) := action l x in ((if tb x q then a + p else p)%Qc, y)
  end.
(** the states of [n] qubits *)
Definition state (n : nat) (x : N) : Prop := (x < bit n)%N.
(** a phase list for [n] qubits has one entry per state; qubit 0 is the most significant bit of the index *)
Definition index (n : nat) (x : N) : nat := fold_left (fun a j => 2 * a + if tb x j then 1 else 0) (seq 0 n) 0.
Definition phase_of (n : nat) (phases : list Qc) (x : N) : Qc := nth (index n x) phases 0%Qc.
(** the Walsh coefficient of the phases for the set [p] of qubits: the sum of the phases of the states with an even number of
    ones in [p], minus that of the others *)
Definition odd_in (n : nat) (p x : N) : bool := Nat.odd (length (filter (fun j => tb p j && tb x j) (seq 0 n))).
Definition coefficient (n : nat) (phases : list Qc) (p : N) : Qc :=
  fold_right (fun i s => let x := N.of_nat i in ((if odd_in n p x then - phase_of n phases x else phase_of n phases x) + s)%Qc) 0%Qc (seq 0 (2 ^ n)).
(** among the sets of qubits with highest qubit [b] and nonzero coefficient, the least has at most two qubits *)
Definition least_pair (n : nat) (phases : list Qc) (b : nat) : Prop :=
  forall p, (bit b <= p < bit (S b))%N -> coefficient n phases p <> 0%Qc ->
    (forall q, (bit b <= q < bit (S b))%N -> coefficient n phases q <> 0%Qc -> (p <= q)%N) ->
    p = bit b \/ exists k, k < b /\ p = (bit b + bit k)%N.
(** the qubits of registers of the given [sizes] with values [vs], each from its most significant bit *)
Fixpoint msb_bits (s v : nat) : list bool := match s with O => [] | S s => Nat.testbit v s :: msb_bits s v end.
Definition registers (sizes vs : list nat) : list bool := flat_map (fun sv => msb_bits (fst sv) (snd sv)) (combine sizes vs).
Definition fit (sizes vs : list nat) : Prop := Forall2 (fun s v => v < 2 ^ s) sizes vs.
(** [x] has the bits [l] *)
Definition holds (x : N) (l : list bool) : Prop := state (length l) x /\ forall j, j < length l -> tb x j = nth j l false.
