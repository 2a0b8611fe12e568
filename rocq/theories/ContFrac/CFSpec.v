(** Specification vocabulary for continued fractions, independent of the model. *)
From Coq Require Import ZArith List Lia.
Import ListNotations.
Local Open Scope Z_scope.

(** [cf_digits a b l]: l is the list of partial quotients of the (finite, regular)
    continued fraction of a / b, i.e. a/b = l0 + 1/(l1 + 1/(l2 + ...)), by Euclid's algorithm. *)
Inductive cf_digits : Z -> Z -> list Z -> Prop :=
| cf_last a b : 0 < b -> a mod b = 0 -> cf_digits a b [a / b]
| cf_next a b l : 0 < b -> a mod b <> 0 -> cf_digits b (a mod b) l -> cf_digits a b (a / b :: l).

(** Numerator and denominator of l0 + 1/(l1 + 1/(... + 1/lk)); the empty continued fraction
    is 1/0, so that [x] denotes x/1. *)
Fixpoint cf_value (l : list Z) : Z * Z :=
  match l with
  | [] => (1, 0)
  | x :: t => let '(n, d) := cf_value t in (x * n + d, n)
  end.

(** The k-th convergent: the value of the first k+1 partial quotients. *)
Definition convergent (l : list Z) (k : nat) : Z * Z := cf_value (firstn (S k) l).
