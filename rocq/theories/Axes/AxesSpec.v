(** Specification of a permutation of tensor axes. *)
From Coq Require Import ZArith List Permutation.
Import ListNotations.
Local Open Scope Z_scope.

(** the coordinate of axis a in a flat index of a tensor of shape (2, ..., 2) with n axes (row-major order:
    axis 0 varies slowest) *)
Definition coordinate (n : nat) (idx : Z) (a : nat) : bool := Z.testbit idx (Z.of_nat n - 1 - Z.of_nat a).

(** p is a permutation of 0 .. n-1 *)
Definition permutation (p : list nat) : Prop := Permutation (seq 0 (length p)) p.

(** new is the flat index of the entry at idx after numpy.transpose(tensor, p): its axis a is the former axis p[a] *)
Definition transposed (p : list nat) (idx new : Z) : Prop :=
  0 <= new < 2 ^ Z.of_nat (length p) /\
  forall a, (a < length p)%nat -> coordinate (length p) new a = coordinate (length p) idx (nth a p 0%nat).

(** the word size leaves room for the n index bits (None: Python integers) *)
Definition fits (w : option nat) (n : nat) : Prop := match w with None => True | Some w => (n + 1 < w)%nat end.
