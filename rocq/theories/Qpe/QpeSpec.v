(** Eigenstates, and circuits that leave qubits alone. *)
From Coq Require Import List ZArith QArith Qcanon.
Import ListNotations.
From Verif.Inverse Require Import InvModel InvSpec.
From Verif.CtrlOps Require Import CtrlModel.
Local Open Scope nat_scope.
(** a circuit on N qubits that does not act on the qubits res *)
Definition acts_off (N : nat) (res : list nat) (c : body) : Prop :=
  wf_circuit N c /\ forall o qs q, In (o, qs) c -> In q qs -> ~ In q res.
(** the circuit multiplies the state with exp(i theta) (unit: pi) *)
Definition eigenstate {R : Type} (rO rI : R) (radd rmul : R -> R -> R) (ropp : R -> R) (expi chalf shalf : Qc -> R) (im : R)
  (N : nat) (c : body) (theta : Qc) (psi : list bool -> R) : Prop :=
  forall x, length x = N -> run_circuit Qcplus rO rI radd rmul ropp expi chalf shalf im c psi x = rmul (expi theta) (psi x).
(** U called without iter, or with every iter = 2 ** i for i < n: the state is multiplied with exp(i theta), or exp(i 2 ** i theta) *)
Definition repeats {R : Type} (rO rI : R) (radd rmul : R -> R -> R) (ropp : R -> R) (expi chalf shalf : Qc -> R) (im : R)
  (N n : nat) (U : option nat -> body) (iter_spec : bool) (theta : Qc) (psi : list bool -> R) : Prop :=
  if iter_spec then forall i, i < n -> eigenstate rO rI radd rmul ropp expi chalf shalf im N (U (Some (2 ^ i))) (Q2Qc (inject_Z (2 ^ Z.of_nat i)) * theta)%Qc psi
  else eigenstate rO rI radd rmul ropp expi chalf shalf im N (U None) theta psi.
(** the fraction k / 2^n *)
Definition fraction (k : Z) (n : nat) : Qc := Q2Qc (inject_Z k / inject_Z (2 ^ Z.of_nat n)).
