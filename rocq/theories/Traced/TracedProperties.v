(** C88: arithmetic of QuantumFloats while tracing, and powers. *)
From Coq Require Import List ZArith QArith Qround Bool Lia Arith.
Import ListNotations.
From Verif.QFloat Require Import QFModel QFSpec QFProofs.
From Verif.Order Require Import OrderModel OrderProofs.
From Verif.Division Require Import DivModel DivSpec DivProofs DivProofs3.
From Verif.Traced Require Import TracedModel TracedProofs.
Local Open Scope Z_scope.
Local Notation float := QFSpec.value.

(** a += b and a -= b ([neg]) while tracing: if the sum is a number of the format of a, a becomes it and b is unchanged (it is not written). If b is signed it has to
    reach as high as a. *)
Theorem C88_iadd : forall (neg : bool) f c g d, basis f c -> basis g d -> (1 <= size f)%nat -> expo g < expo f + Z.of_nat (size f) ->
  (signed g = true -> expo f + Z.of_nat (size f) <= expo g + Z.of_nat (size g)) ->
  let sum := if neg then (float f c - float g d)%Q else (float f c + float g d)%Q in
  representable f sum -> exists c', traced_iadd neg (qvar f c) (qvar g d) = Some (qvar f c') /\ basis f c' /\ (float f c' == sum)%Q.
Proof.
  intros neg f c g d B B' S1 R S sum P. change sum with (qsum neg (float f c) (float g d)) in *. destruct (wrap_value neg f c _ _ B (on_grid _ _ _ _ P) P) as (c' & B2 & E & V).
  exists c'. split; [|split; assumption]. rewrite iadd_ok by (auto; lia). f_equal. exact E.
Qed.
Print Assumptions C88_iadd.
(** In general b is rounded down to the grid of a, and the sum wraps around. *)
Theorem C88_iadd_wraps : forall (neg : bool) f c g d, basis f c -> basis g d -> (1 <= size f)%nat -> expo g < expo f + Z.of_nat (size f) ->
  (signed g = true -> expo f + Z.of_nat (size f) <= expo g + Z.of_nat (size g)) ->
  let w := Qfloor (float g d / pw (expo f)) in
  traced_iadd neg (qvar f c) (qvar g d) = Some (qvar f ((if neg then c - w else c + w) mod 2 ^ Z.of_nat (size f))).
Proof. intros neg f c g d B B' S1 R S w. rewrite qvar_mod. rewrite iadd_ok by (auto; lia). destruct neg; reflexivity. Qed.
Print Assumptions C88_iadd_wraps.
(** A signed summand with fewer qubits is not sign extended: 0 += -1 gives 3. *)
Theorem C88_iadd_signed_refuted : exists f c g d c', basis f c /\ basis g d /\ traced_iadd false (qvar f c) (qvar g d) = Some (qvar f c') /\ basis f c' /\
  representable f (float f c + float g d) /\ ~ (float f c' == float f c + float g d)%Q.
Proof.
  exists (mk 3 0 true), 0, (mk 1 0 true), 3, 3. split; [split; vm_compute; congruence|]. split; [split; vm_compute; congruence|]. split; [reflexivity|]. split; [split; vm_compute; congruence|]. split; [|vm_compute; congruence].
  exists (-1). split; [split; vm_compute; congruence|reflexivity].
Qed.
Print Assumptions C88_iadd_signed_refuted.

(** a + b and a - b while tracing *)
Theorem C88_add : forall (neg : bool) f c g d, basis f c -> basis g d -> (1 <= size f)%nat -> expo g < expo f + Z.of_nat (size f) ->
  (signed g = true -> expo f + Z.of_nat (size f) <= expo g + Z.of_nat (size g)) ->
  let sum := if neg then (float f c - float g d)%Q else (float f c + float g d)%Q in
  representable f sum -> exists c', traced_add neg (qvar f c) (qvar g d) = Some (qvar f c') /\ basis f c' /\ (float f c' == sum)%Q.
Proof.
  intros neg f c g d B B' S1 R S sum P. unfold traced_add. rewrite duplicate_ok by reflexivity. change (set_reg (qvar f c) (reg (qvar f c))) with (qvar f c). apply C88_iadd; assumption.
Qed.
Print Assumptions C88_add.
(** The result has the format of the first operand, so that a + b can be wrong where it is right outside tracing: 3 + 1 = 0 with two qubits *)
Theorem C88_add_overflow_refuted : exists f c g d c', basis f c /\ basis g d /\ traced_add false (qvar f c) (qvar g d) = Some (qvar f c') /\ basis f c' /\ ~ (float f c' == float f c + float g d)%Q.
Proof. exists (mk 2 0 false), 3, (mk 2 0 false), 1, 0. repeat split; vm_compute; congruence. Qed.
Print Assumptions C88_add_overflow_refuted.

(** a += x and a -= x for a number x of the format of a *)
Theorem C88_number : forall (neg : bool) f c x, basis f c -> (1 <= size f)%nat -> (msize f <= 53)%nat -> representable f (value_of x) ->
  let sum := if neg then (float f c - value_of x)%Q else (float f c + value_of x)%Q in
  representable f sum -> exists c', traced_iadd_number neg (qvar f c) x = Some (qvar f c') /\ basis f c' /\ (float f c' == sum)%Q.
Proof.
  intros neg f c x B S M (k & R & V) sum P. change sum with (qsum neg (float f c) (value_of x)) in *. destruct (encoder_exact f x k M R V) as (v & E & Bv & Mv). pose proof (traced_encoder_ok _ _ _ E) as T.
  destruct (wrap_value neg f c k _ B V P) as (c' & B2 & E2 & V2). exists c'. split; [|split; assumption]. unfold traced_iadd_number. rewrite qvar_form, T, qvar_size, qvar_code by exact B.
  replace (size f =? 0)%nat with false by (symmetry; apply Nat.eqb_neq; lia). replace (v <? 0) with false by (symmetry; apply Z.ltb_ge; apply Bv). cbn [orb]. f_equal. rewrite <- E2.
  unfold set_reg, qvar. cbn [ex sg]. f_equal. apply word_eq. rewrite <- Mv. unfold mantissa, signed_sum. destruct (signed f); [|destruct neg; f_equal; lia]. destruct (_ <? _); [destruct neg; f_equal; lia|]. destruct neg.
  - replace (c - (v - 2 ^ Z.of_nat (size f))) with (c + - v + 1 * 2 ^ Z.of_nat (size f)) by ring. symmetry. apply Z_mod_plus_full.
  - replace (c + (v - 2 ^ Z.of_nat (size f))) with (c + v + (-1) * 2 ^ Z.of_nat (size f)) by ring. symmetry. apply Z_mod_plus_full.
Qed.
Print Assumptions C88_number.
(** Other numbers are rounded silently (outside tracing this is an error): 1 += 1/2 leaves 1. *)
Theorem C88_number_rounds_refuted : exists f c x c', basis f c /\ traced_iadd_number false (qvar f c) x = Some (qvar f c') /\ basis f c' /\ ~ (float f c' == float f c + value_of x)%Q.
Proof. exists (mk 2 0 false), 1, (Flt (1 # 2)), 1. repeat split; vm_compute; congruence. Qed.
Print Assumptions C88_number_rounds_refuted.

(** a * b for two unsigned QuantumFloats. jasp_multiplyer leaves its first factor as it was. *)
Theorem C88_multiplyer : forall f c g d, basis f c -> basis g d -> signed f = false -> signed g = false -> (1 <= msize f)%nat -> (1 <= msize g)%nat ->
  let h := mk (msize f + msize g) (expo f + expo g) false in
  exists e, jasp_multiplyer true (qvar f c) (qvar g d) = Some (qvar f c, qvar h e) /\ basis h e /\ (float h e == float f c * float g d)%Q.
Proof.
  intros f c g d B B' S S' M M' h. exists (c * d). assert (SF : size f = msize f) by (unfold size; rewrite S; reflexivity). assert (SG : size g = msize g) by (unfold size; rewrite S'; reflexivity).
  split; [rewrite multiplyer_ok by (rewrite ?qvar_size; auto; try lia; discriminate); rewrite !qvar_size, !qvar_code, SF, SG by assumption; reflexivity|].
  split; [|unfold float, mantissa, h; rewrite S, S'; cbn [signed expo]; rewrite pw_add, inject_Z_mult; ring].
  unfold basis in *. change (size h) with (msize f + msize g)%nat. rewrite SF in B. rewrite SG in B'. rewrite Nat2Z.inj_add, Z.pow_add_r by lia. nia.
Qed.
Print Assumptions C88_multiplyer.
Theorem C88_mul : forall f c g d, basis f c -> basis g d -> signed f = false -> signed g = false -> (1 <= msize f)%nat -> (1 <= msize g)%nat ->
  let h := mk (msize g + msize f) (expo g + expo f) false in
  exists e, traced_mul false (qvar f c) (qvar g d) = Some (qvar h e) /\ basis h e /\ (float h e == float f c * float g d)%Q.
Proof.
  intros f c g d B B' S S' M M' h. destruct (C88_multiplyer g d f c B' B S' S M' M) as (e & E & Be & V). exists e. unfold traced_mul. rewrite E. split; [reflexivity|]. split; [exact Be|]. unfold h. rewrite V. apply Qmult_comm.
Qed.
Print Assumptions C88_mul.
(** Signs are ignored: -1 * 1 gives 3. *)
Theorem C88_mul_signed_refuted : exists f c g d h e, basis f c /\ basis g d /\ traced_mul false (qvar f c) (qvar g d) = Some (qvar h e) /\ basis h e /\ ~ (float h e == float f c * float g d)%Q.
Proof. exists (mk 1 0 true), 3, (mk 1 0 false), 1, (mk 3 0 false), 3. repeat split; vm_compute; congruence. Qed.
Print Assumptions C88_mul_signed_refuted.
(** a * a, for unsigned integers *)
Theorem C88_square : forall f c, basis f c -> signed f = false -> expo f = 0 ->
  let h := mk (2 * msize f) 0 false in exists e, traced_mul true (qvar f c) (qvar f c) = Some (qvar h e) /\ basis h e /\ (float h e == float f c * float f c)%Q.
Proof.
  intros f c B S E h. exists (c * c). assert (SF : size f = msize f) by (unfold size; rewrite S; reflexivity). unfold traced_mul. rewrite squaring_ok, qvar_size, qvar_code, SF by exact B. split; [reflexivity|].
  split; [|unfold float, mantissa, h; rewrite S, E; cbn [signed expo]; change (pw 0) with 1%Q; rewrite inject_Z_mult; ring].
  unfold basis in *. change (size h) with (2 * msize f)%nat. rewrite SF in B. replace (Z.of_nat (2 * msize f)) with (Z.of_nat (msize f) + Z.of_nat (msize f)) by lia. rewrite Z.pow_add_r by lia. nia.
Qed.
Print Assumptions C88_square.
(** The exponent is forgotten: 1/2 * 1/2 gives 1. *)
Theorem C88_square_exponent_refuted : exists f c h e, basis f c /\ signed f = false /\ traced_mul true (qvar f c) (qvar f c) = Some (qvar h e) /\ basis h e /\ ~ (float h e == float f c * float f c)%Q.
Proof. exists (mk 1 (-1) false), 1, (mk 2 0 false), 1. repeat split; vm_compute; congruence. Qed.
Print Assumptions C88_square_exponent_refuted.
(** the product by controlled additions, for unsigned integers *)
Theorem C88_controlling : forall f c g d, basis f c -> basis g d -> signed f = false -> signed g = false -> expo f = 0 -> expo g = 0 ->
  let h := mk (msize f + msize g) 0 false in exists e, jasp_controlling_multiplyer (qvar f c) (qvar g d) = qvar h e /\ basis h e /\ (float h e == float f c * float g d)%Q.
Proof.
  intros f c g d B B' S S' E E' h. exists (c * d). assert (SF : size f = msize f) by (unfold size; rewrite S; reflexivity). assert (SG : size g = msize g) by (unfold size; rewrite S'; reflexivity).
  rewrite controlling_ok, !qvar_size, !qvar_code, SF, SG by assumption. split; [reflexivity|].
  split; [|unfold float, mantissa, h; rewrite S, S', E, E'; cbn [signed expo]; change (pw 0) with 1%Q; rewrite inject_Z_mult; ring].
  unfold basis in *. change (size h) with (msize f + msize g)%nat. rewrite SF in B. rewrite SG in B'. rewrite Nat2Z.inj_add, Z.pow_add_r by lia. nia.
Qed.
Print Assumptions C88_controlling.

(** a ** p for unsigned integers and p >= 1 ([power] takes p - 1); outside tracing for at least two qubits *)
Theorem C88_pow : forall tracing f c p, basis f c -> signed f = false -> expo f = 0 -> (1 <= msize f)%nat -> (tracing = false -> (2 <= msize f)%nat) -> (1 <= p)%nat ->
  let h := mk (p * msize f) 0 false in exists e, power tracing (qvar f c) (p - 1) = Some (qvar h e) /\ basis h e /\ (float h e == float f c ^ Z.of_nat p)%Q.
Proof.
  intros tracing f c p B S E M T P h. exists (c ^ Z.of_nat p). assert (SF : size f = msize f) by (unfold size; rewrite S; reflexivity). unfold basis in B. rewrite SF in B.
  rewrite power_ok by (rewrite qvar_size, SF; assumption). rewrite qvar_size, qvar_code, SF by (unfold basis; rewrite SF; exact B). replace (Datatypes.S (p - 1)) with p by lia. split; [reflexivity|]. split.
  - unfold basis. change (size h) with (p * msize f)%nat. split; [apply Z.pow_nonneg; lia|]. replace (Z.of_nat (p * msize f)) with (Z.of_nat (msize f) * Z.of_nat p) by lia. rewrite Z.pow_mul_r by lia. apply Z.pow_lt_mono_l; lia.
  - unfold float, mantissa, h. rewrite S, E. cbn [signed expo]. change (pw 0) with 1%Q. rewrite !Qmult_1_r. apply Qpower.Zpower_Qpower. lia.
Qed.
Print Assumptions C88_pow.
(** The exponent and the sign of the base are forgotten: (1/2) ** 2 gives 1 and (-1) ** 2 gives 9; and outside tracing the square of a single qubit is an error. *)
Theorem C88_pow_exponent_refuted : exists f c h e, basis f c /\ signed f = false /\ power false (qvar f c) 1 = Some (qvar h e) /\ basis h e /\ ~ (float h e == float f c ^ 2)%Q.
Proof. exists (mk 2 (-1) false), 1, (mk 4 0 false), 1. repeat split; vm_compute; congruence. Qed.
Print Assumptions C88_pow_exponent_refuted.
Theorem C88_pow_signed_refuted : exists f c h e, basis f c /\ expo f = 0 /\ power false (qvar f c) 1 = Some (qvar h e) /\ basis h e /\ ~ (float h e == float f c ^ 2)%Q.
Proof. exists (mk 1 0 true), 3, (mk 4 0 false), 9. repeat split; vm_compute; congruence. Qed.
Print Assumptions C88_pow_signed_refuted.
Theorem C88_pow_qubit_refuted : exists f c, basis f c /\ signed f = false /\ expo f = 0 /\ size f = 1%nat /\ forall p, (2 <= p)%nat -> power false (qvar f c) (p - 1) = None.
Proof.
  exists (mk 1 0 false), 1. split; [split; vm_compute; congruence|]. do 3 (split; [reflexivity|]). intros p P. assert (X : forall k, chain false (qvar (mk 1 0 false) 1) (S k) = None) by (induction k as [|k IH]; [reflexivity|cbn [chain] in *; rewrite IH; reflexivity]).
  unfold power. replace (p - 1)%nat with (S (p - 2)) by lia. rewrite X. reflexivity.
Qed.
Print Assumptions C88_pow_qubit_refuted.

(** * The hypotheses can be met *)
Example sums : traced_iadd false (qvar (mk 4 (-1) true) 3) (qvar (mk 3 1 true) 15) = Some (qvar (mk 4 (-1) true) 31) /\ (float (mk 4 (-1) true) 3 + float (mk 3 1 true) 15 == - (1 # 2))%Q /\
  (float (mk 4 (-1) true) 31 == - (1 # 2))%Q /\ traced_iadd true (qvar (mk 3 1 false) 7) (qvar (mk 2 0 false) 2) = Some (qvar (mk 3 1 false) 6) /\
  traced_add true (qvar (mk 3 1 false) 7) (qvar (mk 2 0 false) 2) = Some (qvar (mk 3 1 false) 6) /\ traced_iadd_number false (qvar (mk 3 (-1) true) 5) (Flt (- (3 # 2))) = Some (qvar (mk 3 (-1) true) 2).
Proof. repeat split; vm_compute; reflexivity. Qed.
Example products : traced_mul false (qvar (mk 4 (-1) false) 11) (qvar (mk 3 2 false) 6) = Some (qvar (mk 7 1 false) 66) /\ traced_mul true (qvar (mk 3 0 false) 6) (qvar (mk 3 0 false) 6) = Some (qvar (mk 6 0 false) 36) /\
  jasp_controlling_multiplyer (qvar (mk 3 0 false) 6) (qvar (mk 2 0 false) 3) = qvar (mk 5 0 false) 18 /\ power false (qvar (mk 3 0 false) 5) 2 = Some (qvar (mk 9 0 false) 125).
Proof. repeat split; vm_compute; reflexivity. Qed.
