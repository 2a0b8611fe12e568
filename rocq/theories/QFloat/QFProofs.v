(** Proofs about QuantumFloat labels. *)
From Coq Require Import ZArith QArith Qround Qabs Qpower List Bool Lia Lqa.
From Verif.QFloat Require Import QFModel QFSpec.
Import ListNotations.
Local Open Scope Z_scope.

(** * powers of two *)
Lemma pw_pos : forall e, (0 < pw e)%Q.
Proof. intros e. unfold pw. apply Qpower_0_lt. reflexivity. Qed.
Lemma pw_nz : forall e, ~ (pw e == 0)%Q.
Proof. intros e H. pose proof (pw_pos e). rewrite H in H0. discriminate. Qed.
Lemma pw_add : forall a b, (pw (a + b) == pw a * pw b)%Q.
Proof. intros. unfold pw. apply Qpower_plus. discriminate. Qed.
Lemma pw_Z : forall e, 0 <= e -> (pw e == inject_Z (2 ^ e))%Q.
Proof. intros e H. unfold pw. symmetry. apply (Qpower.Zpower_Qpower 2 e H). Qed.
Lemma inj_eq : forall a b : Z, (inject_Z a == inject_Z b)%Q -> a = b.
Proof. intros a b H. unfold inject_Z, Qeq in H. cbn in H. lia. Qed.
Lemma inj_le : forall a b : Z, (inject_Z a <= inject_Z b)%Q <-> a <= b.
Proof. intros. rewrite <- Zle_Qle. reflexivity. Qed.
Lemma mul_pw_inj : forall a b e, (inject_Z a * pw e == inject_Z b * pw e)%Q -> a = b.
Proof.
  intros a b e H. apply inj_eq. pose proof (pw_nz e). assert (X : (inject_Z a * pw e / pw e == inject_Z b * pw e / pw e)%Q) by (rewrite H; reflexivity).
  rewrite !Qdiv_mult_l in X by assumption. exact X.
Qed.
Lemma mul_pw_le : forall a b e, (a * pw e <= b * pw e)%Q <-> (a <= b)%Q.
Proof. intros a b e. apply Qmult_le_r, pw_pos. Qed.
Lemma scale : forall k e d, d <= e -> (inject_Z k * pw e == inject_Z (k * 2 ^ (e - d)) * pw d)%Q.
Proof.
  intros k e d H. replace e with ((e - d) + d) at 1 by lia. rewrite pw_add, pw_Z by lia. rewrite inject_Z_mult. ring.
Qed.

(** * rounding *)
Lemma p2pos : forall n, 0 <= n -> 0 < 2 ^ n. Proof. intros. apply Z.pow_pos_nonneg; lia. Qed.
Lemma rnd53_small : forall z, Z.abs z < 2 ^ 53 -> rnd53 z = z.
Proof. intros z H. unfold rnd53. apply Z.ltb_lt in H. rewrite H. reflexivity. Qed.
Lemma rnd53_exact : forall k j, Z.abs k <= 2 ^ 53 -> 0 <= j -> rnd53 (k * 2 ^ j) = k * 2 ^ j.
Proof.
  intros k j K J. set (z := k * 2 ^ j). unfold rnd53. destruct (Z.ltb_spec (Z.abs z) (2 ^ 53)) as [L|L]; [reflexivity|].
  pose proof (p2pos j J) as PJ. assert (Az : Z.abs z = Z.abs k * 2 ^ j) by (unfold z; rewrite Z.abs_mul, (Z.abs_eq (2 ^ j)); lia).
  assert (K0 : 0 < Z.abs k) by (destruct (Z.eq_dec k 0) as [->|]; [rewrite Az, Z.abs_0, Z.mul_0_l in L; assert (0 < 2 ^ 53) by (apply p2pos; lia); lia|lia]).
  set (s := Z.log2 (Z.abs z) - 52).
  assert (S0 : 0 <= s). { unfold s. assert (53 <= Z.log2 (Z.abs z)) by (apply Z.log2_le_pow2; [assert (0 < 2 ^ 53) by (apply p2pos; lia); lia|exact L]). lia. }
  assert (D : Z.abs z mod 2 ^ s = 0).
  { apply Z.mod_divide; [pose proof (p2pos s S0); lia|]. destruct (Z.eq_dec (Z.abs k) (2 ^ 53)) as [E|N].
    - assert (Ez : Z.abs z = 2 ^ (53 + j)) by (rewrite Az, E, <- Z.pow_add_r by lia; reflexivity).
      assert (Es : s = j + 1) by (unfold s; rewrite Ez, Z.log2_pow2 by lia; lia).
      exists (2 ^ 52). rewrite Ez, Es, <- Z.pow_add_r by lia. f_equal. lia.
    - assert (Es : s <= j). { unfold s. rewrite Az, Z.log2_mul_pow2 by lia. assert (Z.log2 (Z.abs k) < 53) by (apply Z.log2_lt_pow2; lia). lia. }
      exists (Z.abs k * 2 ^ (j - s)). rewrite Az. rewrite <- Z.mul_assoc, <- Z.pow_add_r by lia. do 2 f_equal. lia. }
  rewrite D. pose proof (p2pos s S0) as PS. destruct (Z.ltb_spec (2 * 0) (2 ^ s)); [|lia].
  rewrite (Z.mul_comm (Z.abs z / 2 ^ s)). rewrite <- (Z_div_exact_2 (Z.abs z) (2 ^ s)) by (try lia; exact D). rewrite Z.mul_comm. apply Z.abs_sgn.
Qed.
Lemma rnd53_53 : forall k, Z.abs k <= 2 ^ 53 -> rnd53 k = k.
Proof. intros k H. pose proof (rnd53_exact k 0 H ltac:(lia)) as X. rewrite Z.pow_0_r, Z.mul_1_r in X. exact X. Qed.


Lemma qround_eq : forall a b, (a == b)%Q -> qround a = qround b.
Proof.
  intros a b H. unfold qround. rewrite (Qfloor_comp a b H). assert (E : (a - inject_Z (Qfloor b) == b - inject_Z (Qfloor b))%Q) by (rewrite H; reflexivity).
  rewrite (Qcompare_comp _ _ E (1 # 2) (1 # 2) (Qeq_refl _)). reflexivity.
Qed.
Lemma qround_Z : forall k, qround (inject_Z k) = k.
Proof.
  intros k. unfold qround. rewrite Qfloor_Z. replace (inject_Z k - inject_Z k ?= 1 # 2)%Q with Lt; [reflexivity|].
  symmetry. rewrite <- Qlt_alt. lra.
Qed.
Lemma qround_near : forall q, (inject_Z (qround q) - (1 # 2) <= q <= inject_Z (qround q) + (1 # 2))%Q.
Proof.
  intros q. pose proof (Qfloor_le q) as A. pose proof (Qlt_floor q) as B. rewrite inject_Z_plus in B. change (inject_Z 1) with 1%Q in B. unfold qround.
  destruct (q - inject_Z (Qfloor q) ?= 1 # 2)%Q eqn:E.
  - apply Qeq_alt in E. destruct (Z.even (Qfloor q)); rewrite ?inject_Z_plus; change (inject_Z 1) with 1%Q; lra.
  - apply Qlt_alt in E. lra.
  - apply Qgt_alt in E. rewrite inject_Z_plus. change (inject_Z 1) with 1%Q. lra.
Qed.
Lemma qtrunc_eq : forall a b, (a == b)%Q -> qtrunc a = qtrunc b.
Proof. intros a b H. unfold qtrunc. rewrite (Qfloor_comp a b H), (Qceiling_comp a b H). destruct (Qle_bool 0 a) eqn:E, (Qle_bool 0 b) eqn:F; try reflexivity.
  - apply Qle_bool_iff in E. rewrite H in E. apply Qle_bool_iff in E. congruence.
  - apply Qle_bool_iff in F. rewrite <- H in F. apply Qle_bool_iff in F. congruence.
Qed.
Lemma qtrunc_Z : forall k, qtrunc (inject_Z k) = k.
Proof. intros k. unfold qtrunc. rewrite Qfloor_Z, Qceiling_Z. destruct (Qle_bool _ _); reflexivity. Qed.
Lemma div_pw : forall v k e, (v == inject_Z k * pw e)%Q -> (v / pw e == inject_Z k)%Q.
Proof. intros v k e H. rewrite H. apply Qdiv_mult_l, pw_nz. Qed.
Lemma sat64_id : forall z, - 2 ^ 63 <= z < 2 ^ 63 -> sat64 z = z.
Proof. intros z H. unfold sat64. lia. Qed.
Lemma wrap64_id : forall z, - 2 ^ 63 <= z < 2 ^ 63 -> wrap64 z = z.
Proof. intros z H. unfold wrap64. rewrite Z.mod_small; [lia|]. replace (2 ^ 64) with (2 ^ 63 + 2 ^ 63) by reflexivity. lia. Qed.
Lemma shl64_1 : forall n, 0 <= n <= 62 -> shl64 1 n = 2 ^ n.
Proof.
  intros n H. unfold shl64. destruct (Z.ltb_spec n 64); [|lia]. rewrite Z.mul_1_l. apply wrap64_id. pose proof (p2pos n ltac:(lia)).
  assert (2 ^ n < 2 ^ 63) by (apply Z.pow_lt_mono_r; lia). lia.
Qed.
Lemma mask_ones : forall n, (n <= 61)%nat -> wrap64 (shl64 1 (Z.of_nat n + 1) - 1) = Z.ones (Z.of_nat n + 1).
Proof.
  intros n H. rewrite shl64_1 by lia. rewrite Z.ones_equiv. unfold Z.pred. rewrite wrap64_id; [lia|].
  pose proof (p2pos (Z.of_nat n + 1) ltac:(lia)). assert (2 ^ (Z.of_nat n + 1) < 2 ^ 63) by (apply Z.pow_lt_mono_r; lia). lia.
Qed.
Lemma iso_mod : forall x n, (n <= 61)%nat -> iso x n = x mod 2 ^ (Z.of_nat n + 1).
Proof. intros x n H. unfold iso. rewrite mask_ones by exact H. apply Z.land_ones. lia. Qed.
Lemma land_pow : forall w n, 0 <= n -> 0 <= w < 2 ^ (n + 1) -> (Z.land w (2 ^ n) =? 0) = (w <? 2 ^ n).
Proof.
  intros w n N W. destruct (Z.ltb_spec w (2 ^ n)) as [L|L].
  - apply Z.eqb_eq. apply Z.bits_inj'. intros i I. rewrite Z.land_spec, Z.bits_0. rewrite Z.pow2_bits_eqb by lia.
    destruct (Z.eqb_spec n i) as [<-|]; [|apply andb_false_r]. rewrite andb_true_r.
    destruct (Z.eq_dec w 0) as [->|]; [apply Z.bits_0|]. apply Z.bits_above_log2; [lia|]. apply Z.log2_lt_pow2; lia.
  - apply Z.eqb_neq. intros E. assert (T : Z.testbit (Z.land w (2 ^ n)) n = false) by (rewrite E; apply Z.bits_0).
    rewrite Z.land_spec, Z.pow2_bits_true, andb_true_r in T by lia. pose proof (Z.testbit_true w n N) as [_ X]. rewrite X in T; [discriminate|].
    rewrite Z.pow_add_r, Z.pow_1_r in W by lia. replace (w / 2 ^ n) with 1; [reflexivity|]. apply (Z.div_unique w (2 ^ n) 1 (w - 2 ^ n)); [left; lia|lia].
Qed.
Lemma iso_inv_spec : forall y n, (n <= 61)%nat -> iso_inv y n = let w := y mod 2 ^ (Z.of_nat n + 1) in if w <? 2 ^ Z.of_nat n then w else w - 2 ^ (Z.of_nat n + 1).
Proof.
  intros y n H. unfold iso_inv. rewrite mask_ones by exact H. rewrite Z.land_ones by lia. rewrite !shl64_1 by lia.
  pose proof (p2pos (Z.of_nat n + 1) ltac:(lia)) as P. pose proof (Z.mod_pos_bound y _ P) as B. rewrite land_pow by lia. cbn zeta.
  destruct (_ <? _); [reflexivity|]. apply wrap64_id. assert (2 ^ (Z.of_nat n + 1) < 2 ^ 63) by (apply Z.pow_lt_mono_r; lia). lia.
Qed.

(** * spec facts *)
Lemma size_signed : forall f, signed f = true -> Z.of_nat (size f) = Z.of_nat (msize f) + 1.
Proof. intros f H. unfold size. rewrite H. lia. Qed.
Lemma size_unsigned : forall f, signed f = false -> size f = msize f.
Proof. intros f H. unfold size. rewrite H. reflexivity. Qed.
Lemma two_step : forall n, 0 <= n -> 2 ^ (n + 1) = 2 * 2 ^ n. Proof. intros. rewrite Z.pow_add_r, Z.pow_1_r by lia. lia. Qed.
Lemma mantissa_range : forall f c, basis f c -> in_range f (mantissa f c).
Proof.
  intros f c B. unfold basis, in_range, mantissa in *. destruct (signed f) eqn:S.
  - rewrite (size_signed f S) in *. rewrite two_step in * by lia. destruct (Z.ltb_spec c (2 ^ Z.of_nat (msize f))); lia.
  - rewrite (size_unsigned f S) in B. lia.
Qed.
Lemma code_of : forall f k, in_range f k -> basis f (k mod 2 ^ Z.of_nat (size f)) /\ mantissa f (k mod 2 ^ Z.of_nat (size f)) = k.
Proof.
  intros f k R. pose proof (p2pos (Z.of_nat (size f)) ltac:(lia)) as P. split; [apply Z.mod_pos_bound, P|]. unfold in_range, mantissa in *. destruct (signed f) eqn:S.
  - rewrite (size_signed f S) in *. rewrite two_step in * by lia. destruct (Z.leb_spec 0 k).
    + rewrite Z.mod_small by lia. destruct (Z.ltb_spec k (2 ^ Z.of_nat (msize f))); lia.
    + replace (k mod (2 * 2 ^ Z.of_nat (msize f))) with (k + 2 * 2 ^ Z.of_nat (msize f)) by (apply (Z.mod_unique _ _ (-1)); [left; lia|lia]).
      destruct (Z.ltb_spec (k + 2 * 2 ^ Z.of_nat (msize f)) (2 ^ Z.of_nat (msize f))); lia.
  - rewrite (size_unsigned f S). apply Z.mod_small. lia.
Qed.
Lemma mantissa_inj : forall f c d, basis f c -> basis f d -> mantissa f c = mantissa f d -> c = d.
Proof.
  intros f c d B C. unfold basis, mantissa in *. destruct (signed f) eqn:S; [|auto]. rewrite (size_signed f S) in *. rewrite two_step in * by lia.
  destruct (Z.ltb_spec c (2 ^ Z.of_nat (msize f))), (Z.ltb_spec d (2 ^ Z.of_nat (msize f))); lia.
Qed.
Lemma range_53 : forall f k, (msize f <= 53)%nat -> in_range f k -> Z.abs k <= 2 ^ 53.
Proof.
  intros f k M R. unfold in_range in R. assert (2 ^ Z.of_nat (msize f) <= 2 ^ 53) by (apply Z.pow_le_mono_r; lia). pose proof (p2pos (Z.of_nat (msize f)) ltac:(lia)). destruct (signed f); lia.
Qed.

(** * decoder and encoder *)
Lemma decoder_gen : forall f i, (msize f <= 53)%nat -> (signed f = false -> basis f i) ->
  (decoder f i == value f (i mod 2 ^ Z.of_nat (size f)))%Q.
Proof.
  intros f i M B. unfold decoder, value. destruct (signed f) eqn:S.
  - rewrite iso_inv_spec by lia. cbn zeta. pose proof (size_signed f S) as E.
    assert (X : mantissa f (i mod 2 ^ Z.of_nat (size f)) = let w := i mod 2 ^ (Z.of_nat (msize f) + 1) in if w <? 2 ^ Z.of_nat (msize f) then w else w - 2 ^ (Z.of_nat (msize f) + 1)) by (unfold mantissa; rewrite S, E; reflexivity).
    cbn zeta in X. rewrite <- X. rewrite rnd53_53; [reflexivity|]. apply (range_53 f); [exact M|]. apply mantissa_range. unfold basis. apply Z.mod_pos_bound, p2pos. lia.
  - specialize (B eq_refl). rewrite Z.mod_small by exact B. unfold mantissa. rewrite S. rewrite rnd53_53; [reflexivity|]. apply (range_53 f); [exact M|].
    pose proof (mantissa_range f i B) as R. unfold mantissa in R. rewrite S in R. exact R.
Qed.
Lemma decoder_value : forall f c, (msize f <= 53)%nat -> basis f c -> (decoder f c == value f c)%Q.
Proof. intros f c M B. rewrite decoder_gen by auto. rewrite Z.mod_small by exact B. reflexivity. Qed.
Lemma value_inj : forall f c d, basis f c -> basis f d -> (value f c == value f d)%Q -> c = d.
Proof. intros f c d B C H. apply (mantissa_inj f); auto. apply (mul_pw_inj _ _ (expo f)). exact H. Qed.
Lemma bound_eq : forall f k, Z.abs k <= 2 ^ 53 -> (bound f k == inject_Z k * pw (expo f))%Q.
Proof. intros f k H. unfold bound. destruct (0 <=? expo f); [reflexivity|]. rewrite rnd53_53 by exact H. reflexivity. Qed.
Lemma ltq_spec : forall a b, ltq a b = true <-> (a < b)%Q.
Proof.
  intros a b. unfold ltq. rewrite negb_true_iff. split; intros H.
  - apply Qnot_le_lt. intros X. apply Qle_bool_iff in X. congruence.
  - destruct (Qle_bool b a) eqn:E; [|reflexivity]. apply Qle_bool_iff in E. exfalso. apply (Qlt_not_le _ _ H E).
Qed.
Lemma ltq_false : forall a b, ltq a b = false <-> (b <= a)%Q.
Proof.
  intros a b. destruct (ltq a b) eqn:E; split; intros H; try discriminate; try reflexivity.
  - apply ltq_spec in E. exfalso. apply (Qlt_not_le _ _ E H).
  - apply Qnot_lt_le. intros X. apply ltq_spec in X. congruence.
Qed.
Definition lo (f : shape) : Z := if signed f then - 2 ^ Z.of_nat (msize f) else 0.
Definition hi (f : shape) : Z := 2 ^ Z.of_nat (msize f) - 1.
Lemma lo_hi_53 : forall f, (msize f <= 53)%nat -> Z.abs (lo f) <= 2 ^ 53 /\ Z.abs (hi f) <= 2 ^ 53 /\ lo f <= 0 <= hi f.
Proof.
  intros f M. unfold lo, hi. assert (2 ^ Z.of_nat (msize f) <= 2 ^ 53) by (apply Z.pow_le_mono_r; lia). pose proof (p2pos (Z.of_nat (msize f)) ltac:(lia)). destruct (signed f); lia.
Qed.
Lemma in_range_lo : forall f k, in_range f k <-> lo f <= k <= hi f.
Proof. intros f k. unfold in_range, lo, hi. lia. Qed.
Definition in_bounds (f : shape) (v : Q) : Prop := (inject_Z (lo f) * pw (expo f) <= v <= inject_Z (hi f) * pw (expo f))%Q.
Lemma encoder_out : forall f i, (msize f <= 53)%nat -> ~ in_bounds f (value_of i) -> encoder f i = None.
Proof.
  intros f i M N. destruct (lo_hi_53 f M) as (L & H & _). unfold encoder. destruct (negb (signed f) && ltq (value_of i) 0); [reflexivity|].
  destruct (ltq (bound f (2 ^ Z.of_nat (msize f) - 1)) (value_of i) || ltq (value_of i) (bound f (if signed f then - 2 ^ Z.of_nat (msize f) else 0))) eqn:E; [reflexivity|].
  exfalso. apply orb_false_elim in E as [E1 E2]. apply ltq_false in E1, E2. fold (lo f) in E2. fold (hi f) in E1. rewrite bound_eq in E1, E2 by assumption. apply N. split; assumption.
Qed.
Lemma encoder_in : forall f i, (msize f <= 53)%nat -> in_bounds f (value_of i) ->
  encoder f i = Some (let x := (to_f64 i / pw (expo f))%Q in if signed f then iso (sat64 (qtrunc x)) (msize f) else sat64 (qtrunc x)).
Proof.
  intros f i M [N1 N2]. destruct (lo_hi_53 f M) as (L & H & _). unfold encoder.
  replace (negb (signed f) && ltq (value_of i) 0) with false.
  2:{ symmetry. destruct (signed f) eqn:S; [reflexivity|]. cbn [negb andb]. apply ltq_false. unfold lo in N1. rewrite S in N1. change (inject_Z 0) with 0%Q in N1. rewrite Qmult_0_l in N1. exact N1. }
  fold (lo f). fold (hi f).
  replace (ltq (bound f (hi f)) (value_of i)) with false by (symmetry; apply ltq_false; rewrite bound_eq by assumption; exact N2).
  replace (ltq (value_of i) (bound f (lo f))) with false by (symmetry; apply ltq_false; rewrite bound_eq by assumption; exact N1).
  reflexivity.
Qed.
Lemma qtrunc_between : forall q a b, (inject_Z a <= q <= inject_Z b)%Q -> a <= 0 <= b -> a <= qtrunc q <= b.
Proof.
  intros q a b [A B] Z0. unfold qtrunc. destruct (Qle_bool 0 q) eqn:E.
  - apply Qle_bool_iff in E. split.
    + pose proof (Qfloor_resp_le _ _ E) as X. cbn in X. lia.
    + pose proof (Qfloor_resp_le _ _ B) as X. rewrite Qfloor_Z in X. exact X.
  - split; [pose proof (Qceiling_resp_le _ _ A) as X; rewrite Qceiling_Z in X; exact X|].
    assert (q <= inject_Z 0)%Q. { apply Qlt_le_weak, Qnot_le_lt. intros X. change (inject_Z 0) with 0%Q in X. apply Qle_bool_iff in X. congruence. }
    pose proof (Qceiling_resp_le _ _ H) as X. rewrite Qceiling_Z in X. lia.
Qed.
Lemma div_bounds : forall v e a b, (inject_Z a * pw e <= v <= inject_Z b * pw e)%Q -> (inject_Z a <= v / pw e <= inject_Z b)%Q.
Proof.
  intros v e a b [A B]. pose proof (pw_pos e). split; [apply Qle_shift_div_l|apply Qle_shift_div_r]; assumption.
Qed.
(** the code of the truncated quotient *)
Lemma encode_code : forall f k, (msize f <= 53)%nat -> in_range f k ->
  (if signed f then iso (sat64 k) (msize f) else sat64 k) = k mod 2 ^ Z.of_nat (size f).
Proof.
  intros f k M R. pose proof (range_53 f k M R) as A. assert (2 ^ 53 < 2 ^ 63) by (apply Z.pow_lt_mono_r; lia). rewrite sat64_id by lia.
  destruct (signed f) eqn:S.
  - rewrite iso_mod by lia. rewrite (size_signed f S). reflexivity.
  - rewrite (size_unsigned f S). unfold in_range in R. rewrite S in R. symmetry. apply Z.mod_small. exact R.
Qed.
Lemma encoder_trunc : forall f q, (msize f <= 53)%nat -> in_bounds f q ->
  exists c, encoder f (Flt q) = Some c /\ basis f c /\ mantissa f c = qtrunc (q / pw (expo f)).
Proof.
  intros f q M B. destruct (lo_hi_53 f M) as (_ & _ & Z0).
  assert (R : in_range f (qtrunc (q / pw (expo f)))) by (apply in_range_lo, qtrunc_between; [apply div_bounds, B|exact Z0]).
  rewrite encoder_in by (auto; exact B). cbn zeta. cbn [to_f64]. rewrite encode_code by assumption. eexists. split; [reflexivity|]. apply code_of, R.
Qed.
Lemma to_f64_exact : forall f i k, (msize f <= 53)%nat -> in_range f k -> (value_of i == inject_Z k * pw (expo f))%Q -> (to_f64 i == value_of i)%Q.
Proof.
  intros f [z|q] k M R V; [|reflexivity]. cbn [to_f64 value_of] in *. pose proof (range_53 f k M R) as A. destruct (Z.leb_spec 0 (expo f)) as [E|E].
  - rewrite pw_Z in V by exact E. rewrite <- inject_Z_mult in V. apply inj_eq in V as ->. rewrite rnd53_exact by assumption. reflexivity.
  - assert (K : k = z * 2 ^ (- expo f)).
    { apply (mul_pw_inj _ _ (expo f)). rewrite <- V. rewrite inject_Z_mult, <- pw_Z by lia. rewrite <- Qmult_assoc, <- pw_add. replace (- expo f + expo f) with 0 by lia. change (pw 0) with 1%Q. ring. }
    rewrite rnd53_53; [reflexivity|]. pose proof (p2pos (- expo f) ltac:(lia)). rewrite K, Z.abs_mul, (Z.abs_eq (2 ^ _)) in A by lia. nia.
Qed.
Lemma encoder_exact : forall f i k, (msize f <= 53)%nat -> in_range f k -> (value_of i == inject_Z k * pw (expo f))%Q ->
  exists c, encoder f i = Some c /\ basis f c /\ mantissa f c = k.
Proof.
  intros f i k M R V. pose proof (to_f64_exact f i k M R V) as T.
  assert (B : in_bounds f (value_of i)).
  { apply in_range_lo in R. split; rewrite V; apply mul_pw_le, inj_le; lia. }
  rewrite encoder_in by assumption. cbn zeta. rewrite (qtrunc_eq _ (inject_Z k)) by (apply div_pw; eapply Qeq_trans; [exact T|exact V]). rewrite qtrunc_Z, encode_code by assumption. eexists. split; [reflexivity|]. apply code_of, R.
Qed.

(** * rounding to a label *)
Lemma argmin_spec : forall x l best, (In (argmin x best l) (best :: l)) /\ forall a, In a (best :: l) -> (Qabs (x - argmin x best l) <= Qabs (x - a))%Q.
Proof.
  intros x l; induction l as [|b l IH]; intros best; cbn [argmin].
  - split; [left; reflexivity|]. intros a [<-|[]]. apply Qle_refl.
  - destruct (Qle_bool (Qabs (x - best)) (Qabs (x - b))) eqn:E.
    + apply Qle_bool_iff in E. destruct (IH best) as [I M]. split; [destruct I as [<-|I]; [left; reflexivity|right; right; exact I]|].
      intros a [<-|[<-|J]]; [apply M; left; reflexivity| |apply M; right; exact J]. eapply Qle_trans; [apply M; left; reflexivity|exact E].
    + assert (F : (Qabs (x - b) <= Qabs (x - best))%Q). { apply Qlt_le_weak, Qnot_le_lt. intros X. apply Qle_bool_iff in X. congruence. }
      destruct (IH b) as [I M]. split; [destruct I as [<-|I]; [right; left; reflexivity|right; right; exact I]|].
      intros a [<-|[<-|J]]; [|apply M; left; reflexivity|apply M; right; exact J]. eapply Qle_trans; [apply M; left; reflexivity|exact F].
Qed.
Lemma labels_In : forall f v, In v (labels f) <-> exists c, basis f c /\ v = decoder f c.
Proof.
  intros f v. unfold labels. rewrite in_map_iff. assert (P : forall n, Z.of_nat (2 ^ n) = 2 ^ Z.of_nat n) by (intros; rewrite Nat2Z.inj_pow; reflexivity). split.
  - intros (i & <- & I). apply in_seq in I. exists (Z.of_nat i). split; [|reflexivity]. unfold basis. rewrite <- P. lia.
  - intros (c & B & ->). unfold basis in B. rewrite <- P in B. exists (Z.to_nat c). rewrite Z2Nat.id by lia. split; [reflexivity|]. apply in_seq. lia.
Qed.
Lemma encode_rounding_ok : forall f x, (msize f <= 53)%nat -> exists c, encode_rounding f x = Some c /\ basis f c /\ forall c', basis f c' -> (Qabs (x - value f c) <= Qabs (x - value f c'))%Q.
Proof.
  intros f x M. unfold encode_rounding.
  destruct (labels f) as [|a l] eqn:E.
  { assert (B : basis f 0) by (split; [lia|apply p2pos; lia]). assert (I : In (decoder f 0) (labels f)) by (apply labels_In; exists 0; auto). rewrite E in I. destruct I. }
  destruct (argmin_spec x l a) as [I Mn]. rewrite <- E in I, Mn. apply labels_In in I as (c & B & V).
  pose proof (decoder_value f c M B) as D.
  destruct (encoder_exact f (Flt (argmin x a l)) (mantissa f c) M (mantissa_range f c B)) as (c1 & E1 & B1 & Mc).
  { cbn [value_of]. rewrite V, D. reflexivity. }
  exists c1. split; [exact E1|]. split; [exact B1|]. assert (c1 = c) as -> by (apply (mantissa_inj f); auto).
  intros c' B'. rewrite <- D, <- V. rewrite <- (decoder_value f c' M B'). apply Mn. apply labels_In. exists c'. auto.
Qed.

(** * truncation *)
Lemma nearest_clip : forall q l h, l <= h -> let k := Z.max l (Z.min h (qround q)) in forall j, l <= j <= h -> (Qabs (q - inject_Z k) <= Qabs (q - inject_Z j))%Q.
Proof.
  intros q l h LH k j J. pose proof (qround_near q) as [A B]. set (r := qround q) in *.
  assert (C : k = r \/ (k = l /\ r < l) \/ (k = h /\ h < r)) by (subst k; lia).
  destruct C as [->|[[-> C]|[-> C]]].
  - destruct (Z.eq_dec j r) as [->|N]; [apply Qle_refl|].
    apply Qle_trans with (1 # 2)%Q; [apply Qabs_Qle_condition; lra|].
    destruct (Z.ltb_spec j r) as [L|L].
    + apply Qle_trans with (q - inject_Z j)%Q; [|apply Qle_Qabs]. assert (X : (inject_Z (j + 1) <= inject_Z r)%Q) by (apply inj_le; lia). rewrite inject_Z_plus in X. change (inject_Z 1) with 1%Q in X. lra.
    + rewrite <- Qabs_opp. apply Qle_trans with (- (q - inject_Z j))%Q; [|apply Qle_Qabs]. assert (X : (inject_Z (r + 1) <= inject_Z j)%Q) by (apply inj_le; lia). rewrite inject_Z_plus in X. change (inject_Z 1) with 1%Q in X. lra.
  - assert (X : (inject_Z (r + 1) <= inject_Z l)%Q) by (apply inj_le; lia). rewrite inject_Z_plus in X. change (inject_Z 1) with 1%Q in X.
    assert (Y : (inject_Z l <= inject_Z j)%Q) by (apply inj_le; lia). rewrite !Qabs_neg by lra. lra.
  - assert (X : (inject_Z (h + 1) <= inject_Z r)%Q) by (apply inj_le; lia). rewrite inject_Z_plus in X. change (inject_Z 1) with 1%Q in X.
    assert (Y : (inject_Z j <= inject_Z h)%Q) by (apply inj_le; lia). rewrite !Qabs_pos by lra. lra.
Qed.
Lemma clip_sat : forall l h r, - 2 ^ 63 <= l -> l <= h -> h < 2 ^ 63 -> Z.max l (Z.min h (sat64 r)) = Z.max l (Z.min h r).
Proof. intros. unfold sat64. lia. Qed.
Lemma truncate_value : forall f x, (msize f <= 53)%nat -> let k := Z.max (lo f) (Z.min (hi f) (qround (x / pw (expo f)))) in
  in_range f k /\ (truncate f x == inject_Z k * pw (expo f))%Q.
Proof.
  intros f x M k. destruct (lo_hi_53 f M) as (L & H & Z0). assert (R : in_range f k) by (apply in_range_lo; subst k; lia). split; [exact R|].
  assert (E63 : 2 ^ 53 < 2 ^ 63) by (apply Z.pow_lt_mono_r; lia).
  assert (K : Z.max (lo f) (Z.min (hi f) (sat64 (qround (x / pw (expo f))))) = k) by (apply clip_sat; lia).
  unfold truncate. fold (hi f). destruct (code_of f k R) as [Bk Mk]. unfold lo in K. destruct (signed f) eqn:S.
  - rewrite K. rewrite decoder_gen by (auto; rewrite S; discriminate). rewrite iso_mod by (unfold size; rewrite S; lia).
    assert (X : (k mod 2 ^ (Z.of_nat (size f) + 1)) mod 2 ^ Z.of_nat (size f) = k mod 2 ^ Z.of_nat (size f)).
    { rewrite two_step by lia. rewrite (Z.mul_comm 2), Z.rem_mul_r by (pose proof (p2pos (Z.of_nat (size f)) ltac:(lia)); lia).
      rewrite Z.mul_comm, Z_mod_plus_full. apply Z.mod_mod. pose proof (p2pos (Z.of_nat (size f)) ltac:(lia)); lia. }
    rewrite X. unfold value. rewrite Mk. reflexivity.
  - rewrite K. assert (Bk' : basis f k). { unfold in_range in R. rewrite S in R. unfold basis. rewrite (size_unsigned f S). exact R. }
    rewrite decoder_value by assumption. unfold value, mantissa. rewrite S. reflexivity.
Qed.
Lemma abs_scale : forall x k e, (Qabs (x - inject_Z k * pw e) == Qabs (x / pw e - inject_Z k) * pw e)%Q.
Proof.
  intros x k e. pose proof (pw_pos e) as P. assert (A : (x - inject_Z k * pw e == (x / pw e - inject_Z k) * pw e)%Q) by (field; apply pw_nz).
  rewrite A, Qabs_Qmult, (Qabs_pos (pw e)) by (apply Qlt_le_weak, P). reflexivity.
Qed.
Lemma truncate_nearest : forall f x v, (msize f <= 53)%nat -> representable f v -> (Qabs (x - truncate f x) <= Qabs (x - v))%Q.
Proof.
  intros f x v M (j & R & V). destruct (truncate_value f x M) as [_ T]. rewrite T, V, !abs_scale. apply mul_pw_le.
  destruct (lo_hi_53 f M) as (_ & _ & Z0). apply nearest_clip; [lia|]. apply in_range_lo, R.
Qed.
