(** Specification of amplitude estimation. *)
From Coq Require Import Reals List ZArith.
Local Open Scope R_scope.
(** the probability of the good states after k steps of amplitude amplification, if it is a before *)
Definition amplified (a : R) (k : nat) : R := (sin ((2 * INR k + 1) * asin (sqrt a))) ^ 2.
(** Hoeffding's bound for the probability that the share of ones in N shots is further than tol from the probability of a one *)
Definition hoeffding (tol : R) (N : Z) : R := 2 * exp (- 2 * IZR N * tol ^ 2).
(** the measured shares are probabilities *)
Definition shares (measure : nat -> nat -> R) : Prop := forall i k, 0 <= measure i k <= 1.
(** and not further than [tol] from the probability that is estimated *)
Definition accurate (tol a : R) (measure : nat -> nat -> R) : Prop := forall i k, Rabs (measure i k - amplified a k) <= tol.
Fixpoint rsum (l : list R) : R := match l with nil => 0 | cons x l => x + rsum l end.
