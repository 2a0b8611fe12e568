(** What a QuantumFloat stands for: fixed point numbers. *)
From Coq Require Import ZArith QArith.
From Verif.QFloat Require Import QFModel.
Local Open Scope Z_scope.

(** the integers the mantissa can hold *)
Definition in_range (f : shape) (k : Z) : Prop :=
  (if signed f then - 2 ^ Z.of_nat (msize f) else 0) <= k < 2 ^ Z.of_nat (msize f).
(** the numbers it represents: k * 2^exponent *)
Definition representable (f : shape) (v : Q) : Prop := exists k, in_range f k /\ (v == inject_Z k * pw (expo f))%Q.
(** basis states *)
Definition basis (f : shape) (c : Z) : Prop := 0 <= c < 2 ^ Z.of_nat (size f).
(** the number a basis state stands for: two's complement if signed *)
Definition mantissa (f : shape) (c : Z) : Z :=
  if signed f then if c <? 2 ^ Z.of_nat (msize f) then c else c - 2 ^ Z.of_nat (size f) else c.
Definition value (f : shape) (c : Z) : Q := (inject_Z (mantissa f c) * pw (expo f))%Q.
