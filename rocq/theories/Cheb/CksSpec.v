(** Specification of series with odd orders. *)
From Coq Require Import Reals List Arith.
Import ListNotations.
From Verif.Cheb Require Import ChebSpec.
Local Open Scope R_scope.
(** the series with odd orders and alternating signs, from the order 2 n + 1 on: (-1)^n c_0 T_(2n+1) + (-1)^(n+1) c_1 T_(2n+3) + ... *)
Fixpoint odd_series (n : nat) (c : list R) (x : R) : R := match c with [] => 0 | a :: c => (-1) ^ n * a * T (2 * n + 1) x + odd_series (S n) c x end.
