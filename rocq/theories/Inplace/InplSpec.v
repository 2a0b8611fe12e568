(** Registers that grow, and what a circuit may change. *)
From Coq Require Import List ZArith Bool.
Import ListNotations.
From Verif.Inverse Require Import InvSpec.
From Verif.Fourier Require Import FourierSpec.
(** the register and the fresh qubits are all different and lie in the basis state; the fresh ones are 0 *)
Definition supply (q fresh : list nat) (x : list bool) : Prop :=
  register (q ++ fresh) x /\ forall p, In p fresh -> getbit x p = false.
(** the register q has grown to q' by qubits taken from the fresh ones *)
Definition grown (q q' fresh : list nat) : Prop :=
  NoDup q' /\ incl q q' /\ forall p, In p q' -> In p q \/ In p fresh.
(** two basis states differ on the register at most *)
Definition agree_outside (q : list nat) (x y : list bool) : Prop :=
  length y = length x /\ forall p, ~ In p q -> getbit y p = getbit x p.
