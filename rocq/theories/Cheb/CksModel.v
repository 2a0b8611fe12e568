(** Model of the coefficients of the CKS algorithm (/repo/src/qrisp/algorithms/cks.py, CK 42-137). Real arithmetic, no rounding. *)
From Coq Require Import Reals List Arith ZArith.
Import ListNotations.
Local Open Scope R_scope.
(** CK 122-128: binomial coefficients, by Pascal's rule *)
Fixpoint binom (n m : nat) : R := match n, m with _, O => 1 | O, S _ => 0 | S n, S m => binom n m + binom n (S m) end.
(** CK 122-128: sum of f 0, ..., f (N - 1) *)
Fixpoint sum (N : nat) (f : nat -> R) : R := match N with O => 0 | S N => sum N f + f N end.
(** CK 133-135: binom.sf(k, n, 0.5) of scipy, the probability of more than k heads in n fair coins (for k >= 0) *)
Definition sf (k n : nat) : R := sum (n - k) (fun i => binom n (S k + i)) / 2 ^ n.
(** CK 86-137: cks_coeffs *)
Definition cks_coeffs (j0 b : nat) : list R := map (fun j => 4 * sf (b + j) (2 * b)) (seq 0 (S j0)).
(** CK 83: int(.) of a float that is not negative *)
Definition int (r : R) : nat := Z.to_nat (Int_part r).
(** CK 42-83: cks_params without max_beta, (j0, beta); for eps <= kappa *)
Definition cks_params (eps kappa : R) : nat * nat :=
  let beta := kappa ^ 2 * ln (kappa / eps) in (int (sqrt (beta * ln (4 * beta / eps))), int beta).
