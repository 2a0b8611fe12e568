(** States in which some qubits are 0, and the placement of the registers of a multiplication. *)
From Coq Require Import List Bool Arith.
Import ListNotations.
From Verif.Inverse Require Import InvSpec.
From Verif.QFloat Require Import QFModel.
Local Open Scope nat_scope.
(** every basis state in which one of the qubits is 1 has amplitude 0 *)
Definition blank {R : Type} (rO : R) (psi : list bool -> R) (qs : list nat) : Prop := forall y q, In q qs -> getbit y q = true -> psi y = rO.
(** the factors a and b on the registers qa and qb, the result o on out, two further qubits: all different, within the basis states *)
Definition layout (N : nat) (a b o : shape) (qa qb out : list nat) (anc h : nat) : Prop :=
  length qa = size a /\ length qb = size b /\ length out = size o /\
  NoDup (qa ++ qb ++ out ++ [anc; h]) /\ forall q, In q (qa ++ qb ++ out ++ [anc; h]) -> q < N.
