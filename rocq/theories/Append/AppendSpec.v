(** Specification of append. *)
From Coq Require Import ZArith List Bool.
From Verif.Append Require Import AppendModel.
Import ListNotations.

(** the circuit has pairwise different qubits with pairwise different names *)
Definition good (c : circuit) : Prop := NoDup (map qhash (cqubits c)) /\ NoDup (map qname (cqubits c)).
Definition perm_locked_positions (qs : list qubit) : list nat :=
  filter (fun k => match nth_error qs k with Some q => perm_locked q | None => false end) (seq 0 (length qs)).
(** the gate fits on these qubits and classical bits of the circuit *)
Definition fits (c : circuit) (op : operation) (qs : list qubit) (cs : list clbit) : Prop :=
  length qs = num_qubits op /\ NoDup (map qhash qs) /\ incl qs (cqubits c) /\
  length cs = num_clbits op /\ NoDup cs /\ incl cs (cclbits c) /\
  (forall q, In q qs -> locked q = false) /\
  ((forall q, In q qs -> perm_locked q = false) \/ permeable op (perm_locked_positions qs) = true).
(** a qubit the user may pass: an object of the circuit, or one whose name is unknown to it *)
Definition honest (c : circuit) (q : qubit) : Prop := In q (cqubits c) \/ (~ In (qname q) (map qname (cqubits c)) /\ ~ In (qhash q) (map qhash (cqubits c))).

(** scalars and flat lists of objects *)
Inductive flat_arg (A : Type) := One (a : A) | Some_of (l : list A).
Arguments One {A} _. Arguments Some_of {A} _.
Definition given {A} (f : flat_arg A) : uarg A := match f with One a => UObj a | Some_of l => UIter (map UObj l) end.
(** all the lists have length n *)
Definition lists_have_length {A} (n : nat) (l : list (flat_arg A)) : Prop := forall m, In (Some_of m) l -> length m = n.
(** one of the lists has length k *)
Definition list_length {A} (k : nat) (l : list (flat_arg A)) : Prop := exists m, In (Some_of m) l /\ length m = k.
Definition some_list {A} (l : list (flat_arg A)) : Prop := exists m, In (Some_of m) l.
(** [row i l r]: r consists of the scalars and of the i-th entries of the lists *)
Inductive row {A} (i : nat) : list (flat_arg A) -> list A -> Prop :=
| row_nil : row i [] []
| row_one a l r : row i l r -> row i (One a :: l) (a :: r)
| row_list m a l r : nth_error m i = Some a -> row i l r -> row i (Some_of m :: l) (a :: r).
(** the qubits the user passes, at any depth *)
Inductive passed {A} : uarg A -> A -> Prop :=
| passed_obj a : passed (UObj a) a
| passed_iter l u a : In u l -> passed u a -> passed (UIter l) a.
(** the circuit with further instructions *)
Definition extended (c c' : circuit) (new : list instruction) : Prop := cqubits c' = cqubits c /\ cclbits c' = cclbits c /\ cdata c' = cdata c ++ new.
Definition left_behind (o : outcome) : circuit := match o with Ok c => c | Raise _ c => c end.
