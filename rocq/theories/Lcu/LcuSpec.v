(** Linear combinations of unitaries. *)
From Coq Require Import Reals List ZArith Bool QArith Qcanon.
Import ListNotations.
From Verif.Inverse Require Import InvModel InvSpec.
From Verif.CtrlOps Require Import CtrlModel CtrlSpec CtrlComplex.
From Verif.Fourier Require Import FourierSpec.
From Verif.Amplify Require Import AmpSpec Conj AmpComplex.
Local Open Scope nat_scope.
(** the amplitude of the value b of the register in the state that the circuit prepares from 0 *)
Definition prepared (N : nat) (reg : list nat) (c : body) (b : list bool) : cplx :=
  crun c (cbasis (repeat false N)) (write (repeat false N) reg b).
(** sum_i |s_i|^2 U_i psi over the values i of the register, s_i the prepared amplitudes; U_i is the identity for i >= amount *)
Definition combination (N : nat) (reg : list nat) (c : body) (amount : nat) (U : nat -> body) (psi : list bool -> cplx) (x : list bool) : cplx :=
  total c0 cadd (all_bits (length reg)) (fun b =>
    let i := Z.to_nat (number b) in
    cmul (cmul (cconj (prepared N reg c b)) (prepared N reg c b)) (if i <? amount then crun (U i) psi x else psi x)).
