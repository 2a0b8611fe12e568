(** What a switch is. *)
From Coq Require Import List Bool QArith Qcanon ZArith.
Import ListNotations.
From Verif.Inverse Require Import InvModel InvSpec.
From Verif.Fourier Require Import FourierSpec.
Section spec.
Context {R : Type} (rO rI : R) (radd rmul : R -> R -> R) (ropp : R -> R) (expi chalf shalf : Qc -> R) (im : R).
Notation run := (run_circuit Qcplus rO rI radd rmul ropp expi chalf shalf im).
(** the control qubit, if there is one, is 1 *)
Definition enabled (ctrl : option nat) (x : list bool) : bool := match ctrl with None => true | Some q => getbit x q end.
(** sum_i |i><i| (x) U_i: the branch that the index says, nothing if there is none *)
Definition selected (index : list nat) (ctrl : option nat) (amount : nat) (branch : nat -> list (op Qc * list nat)) (psi : list bool -> R) (x : list bool) : R :=
  let i := Z.to_nat (value x index) in
  if enabled ctrl x && (i <? amount)%nat then run (branch i) psi x else psi x.
(** a state in which the qubits qs are 0 *)
Definition zeroed (N : nat) (qs : list nat) (psi : list bool -> R) : Prop := forall x, length x = N -> (exists q, In q qs /\ getbit x q = true) -> psi x = rO.
End spec.
(** the control qubit as a list *)
Definition controls (ctrl : option nat) : list nat := match ctrl with None => [] | Some q => [q] end.
