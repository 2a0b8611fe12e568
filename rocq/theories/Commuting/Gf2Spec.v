(** Linear algebra over GF(2), independent of the code. *)
From Verif.Commuting Require Import Gf2Model.

(** f 0 + ... + f (n-1) modulo 2 *)
Fixpoint xsum (n : nat) (f : nat -> bool) : bool := match n with O => false | S n => xorb (xsum n f) (f n) end.
(** matrix product with inner dimension k, equality of r x c matrices, transpose *)
Definition mmul (k : nat) (A B : mat) : mat := fun i j => xsum k (fun t => A i t && B t j).
Definition eqm (r c : nat) (A B : mat) : Prop := forall i j, i < r -> j < c -> A i j = B i j.
Definition flip (A : mat) : mat := fun i j => A j i.
(** B is the inverse of the n x n matrix A *)
Definition is_inverse (n : nat) (A B : mat) : Prop := eqm n n (mmul n A B) eye /\ eqm n n (mmul n B A) eye.
(** the vector v with c entries is a sum of rows of the r x c matrix A *)
Definition in_row_space (r c : nat) (A : mat) (v : nat -> bool) : Prop := exists x : nat -> bool, forall j, j < c -> v j = xsum r (fun i => x i && A i j).
(** row echelon form with pivot columns piv: row i (below the number of pivots) starts with zeros up to its pivot column,
    where it has a one; pivot columns increase; all further rows are zero *)
Definition echelon (r c : nat) (A : mat) (piv : list nat) : Prop :=
  length piv <= r /\ (forall i, i < length piv -> nth i piv 0 < c) /\ (forall i j, i < j < length piv -> nth i piv 0 < nth j piv 0) /\
  (forall i, i < length piv -> A i (nth i piv 0) = true /\ forall j, j < nth i piv 0 -> A i j = false) /\
  (forall i j, length piv <= i < r -> j < c -> A i j = false).
(** reduced: a pivot column has no further one *)
Definition reduced_at (r : nat) (A : mat) (piv : list nat) : Prop := forall i t, i < length piv -> t < r -> t <> i -> A t (nth i piv 0) = false.
