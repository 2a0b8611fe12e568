(** The number a QuantumFloat basis state stands for: (sum of mantissa bits - sign * 2^size) * 2^exponent.
    To stay within the integers it is given relative to a unit 2^base, base <= exponent. *)
From Verif.Compare Require Import CompareModel.
Local Open Scope Z_scope.
(** when sizes and constants stay within what the number type represents *)
Definition fits (traced : bool) (o : operand) : Prop :=
  match o with
  | Q n v => 0 <= n /\ 0 <= v < 2 ^ n /\ (traced = true -> n <= 62)
  | C v => traced = true -> - 2 ^ 63 <= v < 2 ^ 63
  end.
Definition value (o : operand) : Z := match o with Q _ v => v | C v => v end.

Fixpoint bits2z (l : list bool) : Z := match l with [] => 0 | b :: t => (if b then 1 else 0) + 2 * bits2z t end.
Definition mantissa_value (q : qf) : Z :=
  bits2z (mant q) - (match sgn q with Some true => 2 ^ zlen (mant q) | _ => 0 end).
Definition value_at (base : Z) (q : qf) : Z := mantissa_value q * 2 ^ (expo q - base).
Definition same_number (x y : qf) : Prop :=
  value_at (Z.min (expo x) (expo y)) x = value_at (Z.min (expo x) (expo y)) y.
