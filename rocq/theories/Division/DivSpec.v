(** What in-place addition and division promise. *)
From Coq Require Import List ZArith QArith Bool.
Import ListNotations.
From Verif.QFloat Require Import QFModel QFSpec.
From Verif.Order Require Import OrderModel.
Local Open Scope Z_scope.
(** a QuantumFloat with mantissa size, exponent and sign as in QFSpec, in the basis state c *)
Definition qvar (f : shape) (c : Z) : qf := mkqf (map (fun i => Z.testbit c (Z.of_nat i)) (seq 0 (size f))) (expo f) (signed f).
(** the qubits that are given back are 0 *)
Definition zeros (l : list bool) : Prop := Forall (fun b => b = false) l.
(** the first significance above the mantissa: mshape[1] *)
Definition upto (f : shape) : Z := expo f + Z.of_nat (msize f).
(** the formats of quotient and remainder of a division with precision prec *)
Definition quotient_shape (f g : shape) (prec : Z) : shape := mk (Z.to_nat (upto f + prec - expo g + 1)) (- prec) true.
Definition remainder_shape (f g : shape) (prec : Z) : shape :=
  mk (msize g + Z.to_nat (Z.max (expo g - expo f - prec) 1)) (Z.min (expo f) (expo g - prec - 1)) true.
