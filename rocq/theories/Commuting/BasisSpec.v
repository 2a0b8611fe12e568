From Verif.Commuting Require Export Gf2Spec BasisModel.
(** the columns a and b of the 2n-row matrix S represent commuting Pauli operators (Z component in rows 0..n-1, X component
    in rows n..2n-1) *)
Definition symplectic (n : nat) (S : mat) (a b : nat) : bool := xsum n (fun q => xorb (S q a && S (n + q) b) (S (n + q) a && S q b)).
Definition isotropic (n t : nat) (S : mat) : Prop := forall a b, a < t -> b < t -> symplectic n S a b = false.
(** X and Z component of column c at qubit q after Hadamard gates on the qubits of hl *)
Definition x_after (n : nat) (hl : list nat) (S : mat) (q c : nat) : bool := if mem q hl then S q c else S (n + q) c.
Definition z_after (n : nat) (hl : list nat) (S : mat) (q c : nat) : bool := if mem q hl then S (n + q) c else S q c.
