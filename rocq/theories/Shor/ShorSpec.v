(** Specification vocabulary for orders and factors. *)
From Coq Require Import ZArith.
Local Open Scope Z_scope.

(** r is the multiplicative order of a modulo N *)
Definition order_of (a N r : Z) : Prop :=
  0 < r /\ a ^ r mod N = 1 /\ forall k, 0 < k < r -> a ^ k mod N <> 1.

(** g is a proper divisor of N *)
Definition proper_divisor (g N : Z) : Prop := (g | N) /\ 1 < g < N.
