(** Comparisons: property theorems (C17 unsigned comparisons, C54 QuantumFloat equality). *)
From Verif.Compare Require Import CompareModel CompareSpec CompareProofs.
Local Open Scope Z_scope.

(** C17. <, >, <=, >= between unsigned quantum registers and/or classical integers give the integer
    comparison for every size and value, leave both operands as they were and every ancilla clean.
    In traced (int64) mode register sizes are limited to 62, see the refutation below. *)
Theorem C17_comparisons_partial (traced : bool) (a b : operand) :
  fits traced a -> fits traced b ->
  uint_lt traced a b = Some (value a <? value b, value a, value b) /\
  uint_gt traced a b = Some (value a >? value b, value a, value b) /\
  uint_le traced a b = Some (value a <=? value b, value a, value b) /\
  uint_ge traced a b = Some (value a >=? value b, value a, value b).
Proof. exact (comparisons_ok traced a b). Qed.
Print Assumptions C17_comparisons_partial.
Example C17_ex : fits true (Q 3 5) /\ fits true (C (-7)) /\ fits true (C 9) /\ fits false (Q 100 (2 ^ 99)) /\
  uint_lt true (Q 3 5) (Q 5 20) = Some (true, 5, 20) /\ uint_lt true (Q 3 5) (C (-7)) = Some (false, 5, -7) /\
  uint_ge true (C 9) (Q 3 5) = Some (true, 9, 5).
Proof. vm_compute. intuition congruence. Qed.

(** ... and in traced mode a 63-qubit register compares wrongly with a classical operand: 2**63 is -2^63 in int64. *)
Theorem C17_traced_size_refuted :
  exists a b, 0 <= a < 2 ^ 63 /\ 0 <= b < 2 ^ 63 /\ a >= b /\ uint_lt true (Q 63 a) (C b) = Some (true, a, b).
Proof. exists 5, 3. vm_compute. intuition congruence. Qed.
Print Assumptions C17_traced_size_refuted.

(** C54. == between QuantumFloats: correct when at most one operand is signed and the two bit ranges
    overlap or touch, and when both are signed with the same shape. *)
Theorem C54_equality_partial (x y : qf) :
  (sgn x = None \/ sgn y = None) /\ expo y <= expo x + zlen (mant x) /\ expo x <= expo y + zlen (mant y) \/
  (exists s t, sgn x = Some s /\ sgn y = Some t) /\ expo x = expo y /\ length (mant x) = length (mant y) ->
  equal x y = true <-> same_number x y.
Proof.
  intros [(Hs & H1 & H2)|((s & t & Hx & Hy) & H1 & H2)]; [exact (equal_mixed x y Hs H1 H2)|exact (equal_signed x y s t Hx Hy H1 H2)].
Qed.
Print Assumptions C54_equality_partial.
Example C54_ex : let x := {| mant := [true; false; true]; expo := -1; sgn := Some false |} in
  let y := {| mant := [false; true; false; true]; expo := -2; sgn := None |} in
  sgn y = None /\ expo y <= expo x + zlen (mant x) /\ expo x <= expo y + zlen (mant y) /\ equal x y = true /\ value_at (-2) x = 10 /\ value_at (-2) y = 10.
Proof. vm_compute. intuition congruence. Qed.

(** ... two signed floats of different sizes: -1 == -1 comes out false *)
Theorem C54_signed_sizes_refuted : exists x y, expo x = expo y /\ same_number x y /\ equal x y = false.
Proof.
  exists {| mant := [true]; expo := 0; sgn := Some true |}, {| mant := [true; true]; expo := 0; sgn := Some true |}.
  vm_compute. intuition congruence.
Qed.
Print Assumptions C54_signed_sizes_refuted.
(** ... and with a gap between the bit ranges 0 == 4 comes out true *)
Theorem C54_gap_refuted : exists x y, sgn x = None /\ sgn y = None /\ ~ same_number x y /\ equal x y = true.
Proof.
  exists {| mant := [false]; expo := 0; sgn := None |}, {| mant := [true; false]; expo := 2; sgn := None |}.
  vm_compute. intuition congruence.
Qed.
Print Assumptions C54_gap_refuted.
