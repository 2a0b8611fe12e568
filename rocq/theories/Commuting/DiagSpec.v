(** Reference semantics of the gates on amplitude functions of n qubits, qubit 0 first. *)
From Verif.Lib Require Export QState.
From Verif.Operators Require Export PauliSpec.
From Verif.Commuting Require Export BasisSpec DiagModel.
Local Open Scope nat_scope.
Notation mat := Gf2Model.mat.

Definition state := list bool -> G.
(** the Hadamard gate is scaled by the square root of two *)
Definition run1 (g : gate) (v : state) : state := fun x =>
  match g with
  | GH q => gadd (v (setb x q false)) (gmul (if bit x q then gneg g1 else g1) (v (setb x q true)))
  | GS q => gmul (if bit x q then gi else g1) (v x)
  | GCZ a b => gmul (if bit x a && bit x b then gneg g1 else g1) (v x)
  end.
Definition run (gs : list gate) (v : state) : state := fold_left (fun v g => run1 g v) gs v.
(** the matrix M applied to v *)
Definition mapply (n : nat) (M : list bool -> list bool -> G) (v : state) : state := fun x => gsum (bitstrings n) (fun y => gmul (M x y) (v y)).
(** with U the unitary of the gates, U M = M' U on n qubits, that is U M U^-1 = M' *)
Definition conjugates (n : nat) (gs : list gate) (M M' : list bool -> list bool -> G) : Prop :=
  forall v x, length x = n -> run gs (mapply n M v) x = mapply n M' (run gs v) x.
(** all factors are Z *)
Definition diagonal (t : term) : Prop := forall k, get t k = FI \/ get t k = FZ.
Definition pauli (t : term) : Prop := forall k, is_pauli (get t k) = true.
(** the terms are Pauli terms on n qubits and commute pairwise *)
Definition commuting_family (n : nat) (ts : list term) : Prop :=
  (forall t, In t ts -> pauli t /\ within n t) /\ (forall a b, In a ts -> In b ts -> commuting n a b).
Definition involution (l : list nat) : Prop := forall i, i < length l -> nth (nth i l 0) l 0 = i.
(** all qubits of a gate are below n and distinct *)
Definition gate_ok (n : nat) (g : gate) : Prop := match g with GH q | GS q => q < n | GCZ a b => a < n /\ b < n /\ a <> b end.
