(** Specification of the products outside tracing. *)
From Coq Require Import List ZArith Bool.
Import ListNotations.
From Verif.Inverse Require Import InvSpec.
From Verif.CtrlOps Require Import CtrlSpec.
From Verif.Fourier Require Import FourierSpec.
From Verif.ModTools Require Import ModToolsModel.
From Verif.Modular Require Import ModModel ModSpec.
Local Open Scope Z_scope.
(** the allocator hands out, for the shift m that the code chooses for the factor b, m qubits and one sign: different from each other, from the
    output register and from the given registers, and 0 *)
Definition workspace (x : list bool) (b N : Z) (out away : list nat) (fresh : nat -> list nat * nat) : Prop :=
  forall m, find_best_montgomery_shift b N = Some m ->
  length (fst (fresh m)) = m /\ register (fst (fresh m) ++ out ++ [snd (fresh m)]) x /\ apart away (fst (fresh m) ++ [snd (fresh m)]) /\ value x (fst (fresh m)) = 0 /\ getbit x (snd (fresh m)) = false.
