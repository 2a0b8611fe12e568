(** Specification of series. *)
From Coq Require Import Reals List Arith.
Import ListNotations.
Local Open Scope R_scope.
(** the value of a polynomial *)
Fixpoint eval (p : list R) (x : R) : R := match p with [] => 0 | a :: p => a + x * eval p x end.
(** Chebyshev polynomials: T_n and T_(n+1) at x *)
Fixpoint T2 (n : nat) (x : R) : R * R := match n with O => (1, x) | S n => let '(a, b) := T2 n x in (b, 2 * x * b - a) end.
Definition T (n : nat) (x : R) : R := fst (T2 n x).
(** the value of a Chebyshev series, from the order n on *)
Fixpoint series (n : nat) (c : list R) (x : R) : R := match c with [] => 0 | a :: c => a * T n x + series (S n) c x end.
(** k ones, then zeros *)
Definition unary (n k : nat) : list bool := repeat true k ++ repeat false (n - k).
Fixpoint total (l : list R) : R := match l with [] => 0 | x :: l => x + total l end.
