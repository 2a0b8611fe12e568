(** C85: comparisons of QuantumFloats with <, >, <=, >=. *)
From Coq Require Import List ZArith QArith Bool Lia Lqa.
Import ListNotations.
From Verif.QFloat Require Import QFModel QFSpec QFProofs.
From Verif.Compare Require CompareModel CompareSpec CompareProofs.
From Verif.Order Require Import OrderModel OrderSpec OrderProofs.
Local Open Scope Z_scope.

(** Two QuantumFloats of any sizes, exponents and signs compare like the numbers they stand for; both are left as they were and every
    additional qubit is 0 again. [n]: rounds of the loops of less_than_gate *)
Theorem C85_floats : forall f c g d, basis f c -> basis g d -> let x := value f c in let y := value g d in exists n, forall fuel, (n <= fuel)%nat ->
  decides (x < y)%Q (float f c) (float g d) (lt fuel (float f c) (float g d)) /\
  decides (x > y)%Q (float f c) (float g d) (gt fuel (float f c) (float g d)) /\
  decides (x <= y)%Q (float f c) (float g d) (leq fuel (float f c) (float g d)) /\
  decides (x >= y)%Q (float f c) (float g d) (geq fuel (float f c) (float g d)).
Proof.
  intros f c g d B B' x y. destruct (float_float f c g d B B') as (n & L). destruct (float_float g d f c B' B) as (k & G). exists (Nat.max n k). intros fuel F. specialize (L fuel ltac:(lia)). specialize (G fuel ltac:(lia)).
  split; [exact L|]. split; [exact (decides_swap _ _ _ _ G)|]. split; [exact (decides_flip _ _ _ _ _ (decides_swap _ _ _ _ G))|exact (decides_flip _ _ _ _ _ L)].
Qed.
Print Assumptions C85_floats.
(** -1.5 on 1 + 3 qubits and 4 on 2 qubits *)
Example C85_floats_ex : let f := mk 3 (-1) true in let g := mk 2 1 false in basis f 13 /\ basis g 2 /\ (value f 13 == - (3 # 2))%Q /\ (value g 2 == 4)%Q /\
  (exists w, lt 10 (float f 13) (float g 2) = Some (true, float f 13, float g 2, w)) /\ (exists w, leq 10 (float g 2) (float f 13) = Some (false, float g 2, float f 13, w)).
Proof. cbv zeta. split; [vm_compute; split; congruence|]. split; [vm_compute; split; congruence|]. split; [reflexivity|]. split; [reflexivity|]. split; eexists; vm_compute; reflexivity. Qed.

(** A QuantumFloat on the left of < or >= and a number. Mantissas of more than 53 bits do not have exact labels (C18). *)
Theorem C85_number : forall f c x, basis f c -> (msize f <= 53)%nat -> let v := value f c in exists n, forall fuel, (n <= fuel)%nat ->
  decides (v < value_of x)%Q (float f c) (NU x) (lt fuel (float f c) (NU x)) /\
  decides (v >= value_of x)%Q (float f c) (NU x) (geq fuel (float f c) (NU x)).
Proof.
  intros f c x B M v. destruct (float_number f c x B M) as (n & L). exists n. intros fuel F. specialize (L fuel F). split; [exact L|exact (decides_flip _ _ _ _ _ L)].
Qed.
Print Assumptions C85_number.
(** 2.5 compared with 2.3 and with 1000 *)
Example C85_number_ex : let f := mk 3 (-1) false in basis f 5 /\ (msize f <= 53)%nat /\ (value f 5 == 5 # 2)%Q /\
  (exists w, lt 10 (float f 5) (NU (Flt (23 # 10))) = Some (false, float f 5, NU (Flt (23 # 10)), w)) /\
  (exists w, lt 10 (float f 4) (NU (Flt (23 # 10))) = Some (true, float f 4, NU (Flt (23 # 10)), w)) /\
  geq 10 (float f 5) (NU (Int 1000)) = Some (false, float f 5, NU (Int 1000), []).
Proof. cbv zeta. split; [vm_compute; split; congruence|]. split; [cbn; lia|]. split; [reflexivity|]. split; [eexists; vm_compute; reflexivity|]. split; [eexists; vm_compute; reflexivity|]. vm_compute. reflexivity. Qed.

(** > and <= (and a number on the left of <) compute -x - 2^exponent first, exact if that is an integer or a float64 *)
Theorem C85_number_above : forall f c x, basis f c -> (msize f <= 53)%nat -> exact_below x (expo f) -> let v := value f c in exists n, forall fuel, (n <= fuel)%nat ->
  decides (v > value_of x)%Q (float f c) (NU x) (gt fuel (float f c) (NU x)) /\
  decides (v <= value_of x)%Q (float f c) (NU x) (leq fuel (float f c) (NU x)) /\
  decides (value_of x < v)%Q (NU x) (float f c) (lt fuel (NU x) (float f c)) /\
  decides (value_of x >= v)%Q (NU x) (float f c) (geq fuel (NU x) (float f c)).
Proof.
  intros f c x B M X v. destruct (number_float f c x B M X) as (n & L). exists n. intros fuel F. specialize (L fuel F).
  split; [exact (decides_swap _ _ _ _ L)|]. split; [exact (decides_flip _ _ _ _ _ (decides_swap _ _ _ _ L))|]. split; [exact L|exact (decides_flip _ _ _ _ _ L)].
Qed.
Print Assumptions C85_number_above.
Example C85_number_above_ex : let f := mk 3 (-1) false in basis f 5 /\ (msize f <= 53)%nat /\ exact_below (Flt (9 # 4)) (expo f) /\ exact_below (Int 7) (expo f) /\
  (exists w, gt 10 (float f 5) (NU (Flt (9 # 4))) = Some (true, float f 5, NU (Flt (9 # 4)), w)) /\
  (exists w, gt 10 (float f 4) (NU (Flt (9 # 4))) = Some (false, float f 4, NU (Flt (9 # 4)), w)) /\
  (exists w, leq 10 (float f 5) (NU (Int 7)) = Some (true, float f 5, NU (Int 7), w)).
Proof.
  cbv zeta. split; [vm_compute; split; congruence|]. split; [cbn; lia|].
  split; [split; [exists 2; split; [lia|reflexivity]|exists (-11), (-2); split; [cbn; lia|reflexivity]]|].
  split; [right; split; [exists 7, 0; split; [cbn; lia|reflexivity]|exists (-15), (-1); split; [cbn; lia|reflexivity]]|].
  split; [eexists; vm_compute; reflexivity|]. split; eexists; vm_compute; reflexivity.
Qed.
(** Otherwise it can go wrong: 0 > -2^-60 comes out false on a QuantumFloat(3). *)
Theorem C85_rounding_refuted : exists f c x, basis f c /\ (msize f <= 53)%nat /\ dyadic (value_of x) /\ double (value_of x) /\ (value f c > value_of x)%Q /\
  exists n w, forall fuel, (n <= fuel)%nat -> gt fuel (float f c) (NU x) = Some (false, float f c, NU x, w).
Proof.
  exists (mk 3 0 false), 0, (Flt (-1 # 2 ^ 60)). split; [vm_compute; split; congruence|]. split; [cbn; lia|]. split; [exists 60; split; [lia|reflexivity]|].
  split; [exists (-1), (-60); split; [cbn; lia|reflexivity]|]. split; [reflexivity|]. exists 1%nat. eexists. intros [|fuel] F; [lia|]. vm_compute. reflexivity.
Qed.
Print Assumptions C85_rounding_refuted.

(** While tracing the comparison is right for unsigned operands with the same exponent *)
Theorem C85_traced_partial : forall f c g d, basis f c -> basis g d -> signed f = false -> signed g = false -> expo f = expo g -> (size f <= 62)%nat -> (size g <= 62)%nat ->
  let x := value f c in let y := value g d in
  exists r s t u, traced_lt f g c d = Some (r, c, d) /\ traced_gt f g c d = Some (s, c, d) /\ traced_le f g c d = Some (t, c, d) /\ traced_ge f g c d = Some (u, c, d) /\
  (r = true <-> (x < y)%Q) /\ (s = true <-> (x > y)%Q) /\ (t = true <-> (x <= y)%Q) /\ (u = true <-> (x >= y)%Q).
Proof.
  intros f c g d B B' Sf Sg E Zf Zg x y. unfold traced_lt, traced_gt, traced_le, traced_ge.
  destruct (CompareProofs.comparisons_ok true (traced_operand f c) (traced_operand g d)) as (H1 & H2 & H3 & H4); [split; [lia|split; [exact B|lia]]|split; [lia|split; [exact B'|lia]]|].
  rewrite H1, H2, H3, H4. cbn [CompareSpec.value traced_operand]. do 4 eexists. do 4 (split; [reflexivity|]).
  unfold x, y, value, mantissa. rewrite Sf, Sg, E. rewrite Z.gtb_ltb, Z.geb_leb.
  assert (L : forall a b, (inject_Z a * pw (expo g) < inject_Z b * pw (expo g))%Q <-> a < b) by (intros a b; rewrite Qmult_lt_r by apply pw_pos; rewrite <- Zlt_Qlt; reflexivity).
  rewrite !mul_pw_le, !inj_le, !L, !Z.ltb_lt, !Z.leb_le. repeat split; auto.
Qed.
Print Assumptions C85_traced_partial.
Example C85_traced_ex : let f := mk 3 (-1) false in let g := mk 2 (-1) false in basis f 5 /\ basis g 3 /\ traced_lt f g 5 3 = Some (false, 5, 3) /\ traced_lt g f 3 5 = Some (true, 3, 5).
Proof. vm_compute. repeat split; congruence. Qed.
(** ... but not for signed ones (-1 < 0 is false) nor for different exponents (2 > 1 is false). *)
Theorem C85_traced_refuted :
  (exists f c d, basis f c /\ basis f d /\ signed f = true /\ (value f c < value f d)%Q /\ traced_lt f f c d = Some (false, c, d)) /\
  (exists f g c d, basis f c /\ basis g d /\ signed f = false /\ signed g = false /\ (value f c > value g d)%Q /\ traced_gt f g c d = Some (false, c, d)).
Proof.
  split; [exists (mk 2 0 true), 7, 0|exists (mk 2 1 false), (mk 2 0 false), 1, 1]; vm_compute; repeat split; congruence.
Qed.
Print Assumptions C85_traced_refuted.
