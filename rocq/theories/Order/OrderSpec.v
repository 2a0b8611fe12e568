(** What the comparison operators promise. *)
From Coq Require Import List ZArith QArith Bool.
Import ListNotations.
From Verif.QFloat Require Import QFModel QFSpec.
From Verif.Order Require Import OrderModel.
Local Open Scope Z_scope.
(** a QuantumFloat with mantissa size, exponent and sign as in QFSpec, in the basis state c *)
Definition float (f : shape) (c : Z) : operand := QF (mkqf (map (fun i => Z.testbit c (Z.of_nat i)) (seq 0 (size f))) (expo f) (signed f)).
(** the outcome is the truth value of P, both operands are as before, and every qubit that is given back is 0 *)
Definition decides (P : Prop) (a b : operand) (o : option (bool * operand * operand * list bool)) : Prop :=
  exists r gone, o = Some (r, a, b, gone) /\ (r = true <-> P) /\ Forall (fun q => q = false) gone.
(** float64 numbers (53 significant bits; bounds on the exponent are ignored) *)
Definition double (q : Q) : Prop := exists k j, Z.abs k <= 2 ^ 53 /\ (q == inject_Z k * pw j)%Q.
(** rationals written with a power of two as denominator *)
Definition dyadic (q : Q) : Prop := exists p, 0 <= p /\ Zpos (Qden q) = 2 ^ p.
(** a number compared from the left with a QuantumFloat of exponent e: -x - 2^e is an integer or a float64 *)
Definition exact_below (x : num) (e : Z) : Prop :=
  match x with
  | Int z => 0 <= e \/ double (inject_Z z) /\ double (- inject_Z z - pw e)
  | Flt q => dyadic q /\ double (- q - pw e)
  end.
