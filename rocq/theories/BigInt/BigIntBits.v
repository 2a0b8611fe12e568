(** Comparisons, bit access, shifts, bitwise operations and bit length. *)
From Verif.Lib Require Import Arr.
From Verif.BigInt Require Import BigIntSpec BigIntModel BigIntLemmas.
Local Open Scope Z_scope.

(** ** comparisons *)
Lemma cmp_scan a b : wf a -> wf b -> forall i fuel, (i <= fuel)%nat ->
  exists j r, while fuel cmp_cond (cmp_body a b) (i, -5) = Some (j, r) /\
   ((r = 1 /\ psum (aget a) i < psum (aget b) i) \/
    (r = 0 /\ psum (aget a) i > psum (aget b) i) \/
    (r = -5 /\ psum (aget a) i = psum (aget b) i)).
Proof.
  intros Ha Hb. induction i as [|i IH]; intros fuel Hf.
  - exists O, (-5). split; [destruct fuel; reflexivity|]. right; right. split; reflexivity.
  - destruct fuel as [|f]; [lia|]. cbn [while]. unfold cmp_cond at 1.
    replace (-5 =? -5) with true by reflexivity. replace (0 <? S i)%nat with true by reflexivity.
    cbn [andb]. unfold cmp_body at 2. replace (S i - 1)%nat with i by lia.
    pose proof (psum_nonneg a i Ha) as Pa. pose proof (psum_nonneg b i Hb) as Pb.
    cbn [psum]. pose proof (Bpow_pos i) as HP. set (P := BASE ^ Z.of_nat i) in *.
    destruct (Z.gtb_spec (aget a i) (aget b i)) as [Hgt|Hle].
    + exists i, 0. split; [destruct f; reflexivity|]. right; left. split; [reflexivity|]. nia.
    + destruct (Z.ltb_spec (aget a i) (aget b i)) as [Hlt|Hge].
      * exists i, 1. split; [destruct f; reflexivity|]. left. split; [reflexivity|]. nia.
      * assert (E : aget a i = aget b i) by lia.
        destruct (IH f ltac:(lia)) as (j & r & HW & HR). exists j, r. split; [exact HW|].
        rewrite E. lia.
Qed.

Lemma cmp_loop_spec a b : wf a -> wf b -> length a = length b ->
  exists r, cmp_loop a b = Some r /\
   ((r = 1 /\ value a < value b) \/ (r = 0 /\ value a > value b) \/ (r = -5 /\ value a = value b)).
Proof.
  intros Ha Hb Hl. destruct (cmp_scan a b Ha Hb (length a) (length a) ltac:(lia)) as (j & r & H & R).
  exists r. unfold cmp_loop. rewrite H. split; [reflexivity|].
  rewrite !value_psum, <- Hl. exact R.
Qed.

Lemma lt_value a b : wf a -> wf b -> length a = length b -> lt a b = Some (value a <? value b).
Proof.
  intros Ha Hb Hl. unfold lt. rewrite (proj2 (Nat.eqb_eq _ _) Hl).
  destruct (cmp_loop_spec a b Ha Hb Hl) as (r & -> & [[-> H]|[[-> H]|[-> H]]]); cbn; f_equal; symmetry.
  - apply Z.ltb_lt; lia. - apply Z.ltb_ge; lia. - apply Z.ltb_ge; lia.
Qed.
Lemma le_value a b : wf a -> wf b -> length a = length b -> le a b = Some (value a <=? value b).
Proof.
  intros Ha Hb Hl. unfold le. rewrite (proj2 (Nat.eqb_eq _ _) Hl).
  destruct (cmp_loop_spec a b Ha Hb Hl) as (r & -> & [[-> H]|[[-> H]|[-> H]]]); cbn; f_equal; symmetry.
  - apply Z.leb_le; lia. - apply Z.leb_gt; lia. - apply Z.leb_le; lia.
Qed.
Lemma gt_value a b : wf a -> wf b -> length a = length b -> gt a b = Some (value a >? value b).
Proof.
  intros Ha Hb Hl. unfold gt. rewrite (proj2 (Nat.eqb_eq _ _) Hl), lt_value by auto.
  rewrite Z.gtb_ltb. reflexivity.
Qed.
Lemma ge_value a b : wf a -> wf b -> length a = length b -> ge a b = Some (value a >=? value b).
Proof.
  intros Ha Hb Hl. unfold ge. rewrite (proj2 (Nat.eqb_eq _ _) Hl), le_value by auto.
  rewrite Z.geb_leb. reflexivity.
Qed.
Lemma eq_value a b : wf a -> wf b -> length a = length b -> eq a b = Some (value a =? value b).
Proof.
  intros Ha Hb Hl. unfold eq. rewrite (proj2 (Nat.eqb_eq _ _) Hl). f_equal.
  destruct (Z.eqb_spec (value a) (value b)) as [E|E].
  - apply value_inj in E; auto. subst b. clear. induction a as [|x a IH]; cbn; [reflexivity|].
    rewrite Z.eqb_refl. exact IH.
  - apply Bool.not_true_iff_false. intros H. apply E. clear E Ha Hb. revert b Hl H.
    induction a as [|x a IH]; intros [|y b] Hl H; cbn in *; try lia.
    apply andb_true_iff in H as [H1 H2]. apply Z.eqb_eq in H1. rewrite (IH b); lia || auto.
Qed.
Lemma ne_value a b : wf a -> wf b -> length a = length b -> ne a b = Some (negb (value a =? value b)).
Proof. intros; unfold ne; rewrite eq_value by auto; reflexivity. Qed.
Lemma cmp_length_mismatch a b : length a <> length b ->
  lt a b = None /\ le a b = None /\ gt a b = None /\ ge a b = None /\ eq a b = None /\ ne a b = None.
Proof.
  intros H. apply Nat.eqb_neq in H. unfold lt, le, gt, ge, ne, eq. rewrite H. auto 10.
Qed.

(** ** bits of the denoted number *)
Lemma testbit_limb ds : wf ds -> forall p k, 0 <= k < 32 ->
  Z.testbit (value ds) (32 * Z.of_nat p + k) = Z.testbit (aget ds p) k.
Proof.
  intros H. unfold wf in H. induction H as [|d t Hd Ht IH]; intros p k Hk.
  - unfold aget. destruct p; cbn [value nth]; rewrite !Z.testbit_0_l; reflexivity.
  - cbn [value]. destruct p as [|p].
    + replace (32 * Z.of_nat 0 + k) with k by lia.
      rewrite <- (Z.mod_pow2_bits_low _ 32) by lia.
      rewrite Z.mul_comm, Z.mod_add by lia. rewrite Z.mod_small by lia. reflexivity.
    + replace (32 * Z.of_nat (S p) + k) with (32 * Z.of_nat p + k + 32) by lia.
      rewrite <- Z.div_pow2_bits by lia.
      rewrite Z.mul_comm, Z.div_add by lia. rewrite Z.div_small by lia. rewrite Z.add_0_l.
      apply IH; lia.
Qed.

Lemma testbit_high ds : wf ds -> forall i, 32 * Z.of_nat (length ds) <= i -> Z.testbit (value ds) i = false.
Proof.
  intros H i Hi. pose proof (value_bound ds H) as Hb. unfold cap in Hb.
  destruct (Z.eq_dec (value ds) 0) as [->|]; [apply Z.testbit_0_l|].
  apply Z.bits_above_log2; [lia|]. apply Z.log2_lt_pow2; [lia|].
  eapply Z.lt_le_trans; [apply Hb|]. apply Z.pow_le_mono_r; lia.
Qed.

Lemma idx_split i : 0 <= i -> i = 32 * Z.of_nat (Z.to_nat (i / 32)) + i mod 32 /\ 0 <= i mod 32 < 32.
Proof.
  intros H. pose proof (Z.div_mod i 32 ltac:(lia)). pose proof (Z.mod_pos_bound i 32 ltac:(lia)).
  pose proof (Z.div_pos i 32 ltac:(lia) ltac:(lia)). lia.
Qed.

Lemma get_bit_spec ds i : wf ds -> 0 <= i -> get_bit ds i = Z.b2z (Z.testbit (value ds) i).
Proof.
  intros H Hi. destruct (idx_split i Hi) as [E Hk]. rewrite E at 2. rewrite testbit_limb by auto.
  unfold get_bit. change 1 with (Z.ones 1). rewrite Z.land_ones by lia. change (2 ^ 1) with 2.
  rewrite <- Z.bit0_mod, Z.shiftr_spec by lia. f_equal.
Qed.

Lemma word_high d k : 0 <= d < BASE -> 32 <= k -> Z.testbit d k = false.
Proof.
  intros Hd Hk. rewrite <- pow32 in Hd. destruct (Z.eq_dec d 0) as [->|]; [apply Z.testbit_0_l|].
  apply Z.bits_above_log2; [lia|]. apply Z.log2_lt_pow2; [lia|].
  eapply Z.lt_le_trans; [apply Hd|]. apply Z.pow_le_mono_r; lia.
Qed.

Lemma word_of_bits d : 0 <= d -> (forall k, 32 <= k -> Z.testbit d k = false) -> d < BASE.
Proof.
  intros H0 H. destruct (Z.lt_ge_cases d BASE) as [|Hge]; [assumption|]. exfalso.
  assert (32 <= Z.log2 d) by (apply Z.log2_le_pow2; [rewrite BASE_val in Hge; lia|rewrite pow32; lia]).
  specialize (H (Z.log2 d) ltac:(lia)). rewrite Z.bit_log2 in H by (rewrite BASE_val in Hge; lia). discriminate.
Qed.

Lemma flip_bit_length ds i : length (flip_bit ds i) = length ds.
Proof. apply length_aset. Qed.
Lemma flip_bit_wf ds i : wf ds -> wf (flip_bit ds i).
Proof. intros; apply wf_aset; [assumption|apply w32_range]. Qed.

Lemma testbit_w32 x k : 0 <= k -> Z.testbit (w32 x) k = (k <? 32) && Z.testbit x k.
Proof.
  intros Hk. unfold w32, BASE. destruct (Z.ltb_spec k 32).
  - apply Z.mod_pow2_bits_low; lia.
  - apply Z.mod_pow2_bits_high; lia.
Qed.

Lemma flip_bit_spec ds i j : wf ds -> 0 <= i < 32 * Z.of_nat (length ds) -> 0 <= j ->
  Z.testbit (value (flip_bit ds i)) j = xorb (Z.testbit (value ds) j) (i =? j).
Proof.
  intros Hw Hi Hj.
  destruct (idx_split i ltac:(lia)) as [Ei Hki]. destruct (idx_split j Hj) as [Ej Hkj].
  rewrite Ej at 1 2. rewrite !testbit_limb by (auto using flip_bit_wf). unfold flip_bit.
  set (p := Z.to_nat (i / 32)) in *. set (q := Z.to_nat (j / 32)) in *.
  rewrite aget_aset. destruct (Nat.ltb_spec p (length ds)); [|lia]. rewrite andb_true_r.
  destruct (Nat.eqb_spec p q) as [Epq|Npq].
  - rewrite <- Epq. rewrite testbit_w32 by lia. destruct (Z.ltb_spec (j mod 32) 32); [|lia].
    cbn [andb]. rewrite Z.lxor_spec. f_equal. rewrite Z.shiftl_spec by lia.
    destruct (Z.eqb_spec i j) as [->|Nij].
    + rewrite Z.sub_diag. reflexivity.
    + assert (i mod 32 <> j mod 32) by lia.
      destruct (Z.lt_ge_cases (j mod 32) (i mod 32)).
      * apply Z.testbit_neg_r; lia.
      * change 1 with (2 ^ 0). rewrite Z.pow2_bits_eqb by lia. apply Z.eqb_neq; lia.
  - destruct (Z.eqb_spec i j) as [Eij|]; [exfalso; apply Npq; unfold p, q; rewrite Eij; reflexivity|].
    rewrite xorb_false_r. reflexivity.
Qed.

Lemma get_bit_range ds i : wf ds -> 0 <= i -> (get_bit ds i =? 0) = negb (Z.testbit (value ds) i).
Proof. intros; rewrite get_bit_spec by auto. destruct (Z.testbit _ _); reflexivity. Qed.

(** ** shifts *)
Lemma lshift_inv self shift k : wf self -> 0 <= shift -> Z.of_nat k <= 32 * Z.of_nat (length self) - shift ->
  let x := fori k (fun k x => if negb (get_bit self (0 + Z.of_nat k) =? 0) then flip_bit x (0 + Z.of_nat k + shift) else x)
             (repeat 0 (length self)) in
  wf x /\ length x = length self /\
  forall j, 0 <= j -> Z.testbit (value x) j = (shift <=? j) && (j <? Z.of_nat k + shift) && Z.testbit (value self) (j - shift).
Proof.
  intros Hw Hs Hk. cbv zeta.
  induction k as [|k IH]; cbn [fori].
  - repeat split; [apply wf_repeat|apply repeat_length|]. intros j Hj.
    rewrite value_repeat, Z.testbit_0_l. symmetry. apply andb_false_iff. left. apply andb_false_iff. lia.
  - specialize (IH ltac:(lia)). set (x := fori k _ _) in *. destruct IH as (W & L & T).
    rewrite Z.add_0_l. rewrite get_bit_range by (auto; lia). rewrite negb_involutive.
    destruct (Z.testbit (value self) (Z.of_nat k)) eqn:Eb.
    + repeat split; [apply flip_bit_wf; exact W|rewrite flip_bit_length; exact L|].
      intros j Hj. rewrite flip_bit_spec by (auto; rewrite ?L; lia). rewrite T by lia.
      destruct (Z.eqb_spec (Z.of_nat k + shift) j) as [<-|Nj].
      * replace (Z.of_nat k + shift - shift) with (Z.of_nat k) by lia. rewrite Eb.
        replace (Z.of_nat k + shift <? Z.of_nat k + shift) with false by lia.
        replace (shift <=? Z.of_nat k + shift) with true by lia.
        replace (Z.of_nat k + shift <? Z.of_nat (S k) + shift) with true by lia. reflexivity.
      * rewrite xorb_false_r. f_equal. f_equal. lia.
    + repeat split; auto. intros j Hj. rewrite T by lia.
      destruct (Z.eqb_spec (Z.of_nat k + shift) j) as [<-|Nj].
      * replace (Z.of_nat k + shift - shift) with (Z.of_nat k) by lia. rewrite Eb, !andb_false_r. reflexivity.
      * f_equal. f_equal. lia.
Qed.

Lemma lshift_spec self shift : wf self -> 0 <= shift ->
  wf (lshift self shift) /\ length (lshift self shift) = length self /\
  value (lshift self shift) = (value self * 2 ^ shift) mod cap (length self).
Proof.
  intros Hw Hs. unfold lshift.
  assert (Hcap : cap (length self) = 2 ^ (32 * Z.of_nat (length self))) by reflexivity.
  destruct (Z.geb_spec shift (Z.of_nat (length self) * 32)) as [Hge|Hlt].
  - repeat split; [apply wf_repeat|apply repeat_length|]. rewrite value_repeat, Hcap.
    replace shift with (32 * Z.of_nat (length self) + (shift - 32 * Z.of_nat (length self))) by lia.
    rewrite Z.pow_add_r by lia.
    rewrite (Z.mul_comm (2 ^ (32 * _))), Z.mul_assoc, Z.mod_mul by (apply Z.pow_nonzero; lia). reflexivity.
  - unfold fori_range. rewrite Z.sub_0_r.
    pose proof (lshift_inv self shift (Z.to_nat (Z.of_nat (length self) * 32 - shift)) Hw Hs ltac:(lia)) as H.
    cbv zeta in H. destruct H as (W & L & T). split; [exact W|]. split; [exact L|].
    apply Z.bits_inj'. intros j Hj. rewrite T by lia. rewrite Hcap.
    destruct (Z.ltb_spec j (32 * Z.of_nat (length self))) as [Hj2|Hj2].
    + rewrite Z.mod_pow2_bits_low by lia. rewrite Z.mul_pow2_bits by lia.
      destruct (Z.leb_spec shift j); cbn [andb].
      * replace (j <? _) with true by lia. reflexivity.
      * symmetry. apply Z.testbit_neg_r. lia.
    + rewrite Z.mod_pow2_bits_high by lia. replace (j <? _) with false by lia. rewrite andb_false_r. reflexivity.
Qed.

Lemma rshift_inv self shift k : wf self -> 0 <= shift -> Z.of_nat k <= 32 * Z.of_nat (length self) - shift ->
  let x := fori k (fun k x => if negb (get_bit self (shift + Z.of_nat k) =? 0) then flip_bit x (shift + Z.of_nat k - shift) else x)
             (repeat 0 (length self)) in
  wf x /\ length x = length self /\
  forall j, 0 <= j -> Z.testbit (value x) j = (j <? Z.of_nat k) && Z.testbit (value self) (j + shift).
Proof.
  intros Hw Hs Hk. cbv zeta.
  induction k as [|k IH]; cbn [fori].
  - repeat split; [apply wf_repeat|apply repeat_length|]. intros j Hj.
    rewrite value_repeat, Z.testbit_0_l. symmetry. apply andb_false_iff. left. lia.
  - specialize (IH ltac:(lia)). set (x := fori k _ _) in *. destruct IH as (W & L & T).
    replace (shift + Z.of_nat k - shift) with (Z.of_nat k) by lia.
    rewrite get_bit_range by (auto; lia). rewrite negb_involutive.
    destruct (Z.testbit (value self) (shift + Z.of_nat k)) eqn:Eb.
    + repeat split; [apply flip_bit_wf; exact W|rewrite flip_bit_length; exact L|].
      intros j Hj. rewrite flip_bit_spec by (auto; rewrite ?L; lia). rewrite T by lia.
      destruct (Z.eqb_spec (Z.of_nat k) j) as [<-|Nj].
      * rewrite (Z.add_comm (Z.of_nat k)), Eb.
        replace (Z.of_nat k <? Z.of_nat k) with false by lia.
        replace (Z.of_nat k <? Z.of_nat (S k)) with true by lia. reflexivity.
      * rewrite xorb_false_r. f_equal. lia.
    + repeat split; auto. intros j Hj. rewrite T by lia.
      destruct (Z.eqb_spec (Z.of_nat k) j) as [<-|Nj].
      * rewrite (Z.add_comm (Z.of_nat k)), Eb, !andb_false_r. reflexivity.
      * f_equal. lia.
Qed.

Lemma rshift_spec self shift : wf self -> 0 <= shift ->
  wf (rshift self shift) /\ length (rshift self shift) = length self /\
  value (rshift self shift) = value self / 2 ^ shift.
Proof.
  intros Hw Hs. unfold rshift. pose proof (value_bound self Hw) as Hb. unfold cap in Hb.
  destruct (Z.geb_spec shift (Z.of_nat (length self) * 32)) as [Hge|Hlt].
  - repeat split; [apply wf_repeat|apply repeat_length|]. rewrite value_repeat.
    symmetry. apply Z.div_small. split; [lia|]. eapply Z.lt_le_trans; [apply Hb|]. apply Z.pow_le_mono_r; lia.
  - unfold fori_range.
    pose proof (rshift_inv self shift (Z.to_nat (Z.of_nat (length self) * 32 - shift)) Hw Hs ltac:(lia)) as H.
    cbv zeta in H. destruct H as (W & L & T). split; [exact W|]. split; [exact L|].
    apply Z.bits_inj'. intros j Hj. rewrite T by lia. rewrite Z.div_pow2_bits by lia.
    destruct (Z.ltb_spec j (Z.of_nat (Z.to_nat (Z.of_nat (length self) * 32 - shift)))); [reflexivity|].
    cbn [andb]. symmetry. apply testbit_high; [exact Hw|lia].
Qed.

(** ** bitwise operations *)
Lemma limbwise_length f a b : length a = length b -> length (limbwise f a b) = length a.
Proof. intros H. unfold limbwise. rewrite map_length, combine_length. lia. Qed.

Lemma limbwise_get f a b p : length a = length b -> f 0 0 = 0 -> aget (limbwise f a b) p = f (aget a p) (aget b p).
Proof.
  unfold limbwise, aget. revert b p. induction a as [|x a IH]; intros [|y b] p Hl H0; cbn in Hl; try lia.
  - destruct p; cbn; auto.
  - destruct p; cbn; [reflexivity|]. apply IH; auto.
Qed.

Lemma limbwise_wf f fb a b : length a = length b -> wf a -> wf b -> f 0 0 = 0 -> fb false false = false ->
  (forall x y, 0 <= x -> 0 <= y -> 0 <= f x y) ->
  (forall x y k, 0 <= k -> Z.testbit (f x y) k = fb (Z.testbit x k) (Z.testbit y k)) ->
  wf (limbwise f a b).
Proof.
  intros Hl Ha Hb H0 Hfb Hp Ht. apply wf_limb. intros i _. rewrite limbwise_get by auto.
  pose proof (wf_get a i Ha). pose proof (wf_get b i Hb). split; [apply Hp; lia|].
  apply word_of_bits; [apply Hp; lia|]. intros k Hk. rewrite Ht by lia.
  rewrite !word_high by auto. exact Hfb.
Qed.

Lemma limbwise_value f fb a b : length a = length b -> wf a -> wf b -> f 0 0 = 0 -> fb false false = false ->
  (forall x y, 0 <= x -> 0 <= y -> 0 <= f x y) ->
  (forall x y k, 0 <= k -> Z.testbit (f x y) k = fb (Z.testbit x k) (Z.testbit y k)) ->
  value (limbwise f a b) = f (value a) (value b).
Proof.
  intros Hl Ha Hb H0 Hfb Hp Ht. pose proof (limbwise_wf f fb a b Hl Ha Hb H0 Hfb Hp Ht) as Hw.
  apply Z.bits_inj'. intros j Hj. rewrite Ht by lia. destruct (idx_split j Hj) as [E Hk].
  rewrite E, !testbit_limb by auto. rewrite limbwise_get by auto. apply Ht; lia.
Qed.

Lemma band_value a b : wf a -> wf b -> length a = length b ->
  wf (band a b) /\ length (band a b) = length a /\ value (band a b) = Z.land (value a) (value b).
Proof.
  intros Ha Hb Hl. unfold band. repeat split.
  - apply (limbwise_wf _ andb); auto using Z.land_spec. intros; apply Z.land_nonneg; auto.
  - apply limbwise_length; auto.
  - apply (limbwise_value _ andb); auto using Z.land_spec. intros; apply Z.land_nonneg; auto.
Qed.
Lemma bor_value a b : wf a -> wf b -> length a = length b ->
  wf (bor a b) /\ length (bor a b) = length a /\ value (bor a b) = Z.lor (value a) (value b).
Proof.
  intros Ha Hb Hl. unfold bor. repeat split.
  - apply (limbwise_wf _ orb); auto using Z.lor_spec. intros; apply Z.lor_nonneg; auto.
  - apply limbwise_length; auto.
  - apply (limbwise_value _ orb); auto using Z.lor_spec. intros; apply Z.lor_nonneg; auto.
Qed.
Lemma bxor_value a b : wf a -> wf b -> length a = length b ->
  wf (bxor a b) /\ length (bxor a b) = length a /\ value (bxor a b) = Z.lxor (value a) (value b).
Proof.
  intros Ha Hb Hl. unfold bxor. repeat split.
  - apply (limbwise_wf _ xorb); auto using Z.lxor_spec. intros; apply Z.lxor_nonneg; tauto.
  - apply limbwise_length; auto.
  - apply (limbwise_value _ xorb); auto using Z.lxor_spec. intros; apply Z.lxor_nonneg; tauto.
Qed.

(** ** most significant limb, bit length *)
Lemma ms_scan_spec a i : (ms_scan a i <= i)%nat /\
  (forall k, (ms_scan a i < k <= i)%nat -> aget a k = 0) /\
  (ms_scan a i = O \/ aget a (ms_scan a i) <> 0).
Proof.
  induction i as [|i IH]; cbn [ms_scan].
  - repeat split; try lia. 
  - destruct (Z.eqb_spec (aget a (S i)) 0) as [E|E].
    + destruct IH as (H1 & H2 & H3). repeat split; [lia| |exact H3].
      intros k Hk. destruct (Nat.eq_dec k (S i)) as [->|]; [exact E|]. apply H2; lia.
    + repeat split; [lia| |right; exact E]. intros k Hk; lia.
Qed.

Lemma forallb_zero a : forallb (fun d => d =? 0) a = true <-> forall k, aget a k = 0.
Proof.
  rewrite forallb_forall. split.
  - intros H k. destruct (Nat.ltb_spec k (length a)).
    + apply Z.eqb_eq. apply H. unfold aget. apply nth_In. lia.
    + apply aget_overflow; lia.
  - intros H x Hx. apply Z.eqb_eq. destruct (In_nth a x 0 Hx) as [i [_ <-]]. apply H.
Qed.

Lemma psum_trunc f n m : (m <= n)%nat -> (forall k, (m <= k < n)%nat -> f k = 0) -> psum f n = psum f m.
Proof.
  intros Hmn H. induction n as [|n IH]; [replace m with O by lia; reflexivity|].
  destruct (Nat.eq_dec m (S n)) as [->|]; [reflexivity|].
  cbn [psum]. rewrite H by lia. rewrite IH by (try lia; intros; apply H; lia). lia.
Qed.

(** The significant length: all limbs above are zero and the top one is not. *)
Lemma ms_length_spec a :
  (ms_length a <= length a)%nat /\
  (forall k, (ms_length a <= k)%nat -> aget a k = 0) /\
  (ms_length a = O \/ aget a (ms_length a - 1) <> 0).
Proof.
  unfold ms_length. destruct (forallb _ a) eqn:Ez.
  - rewrite forallb_zero in Ez. repeat split; auto; lia.
  - assert (Hnz : ~ forall k, aget a k = 0) by (rewrite <- forallb_zero; congruence).
    destruct (ms_scan_spec a (length a - 1)) as (H1 & H2 & H3).
    assert (Hlen : a <> []) by (intros ->; cbn in Ez; discriminate).
    assert (0 < length a)%nat by (destruct a; [congruence|cbn; lia]).
    replace (S (ms_scan a (length a - 1)) - 1)%nat with (ms_scan a (length a - 1)) by lia.
    assert (Hab : forall k, (S (ms_scan a (length a - 1)) <= k)%nat -> aget a k = 0).
    { intros k Hk. destruct (Nat.ltb_spec k (length a)); [|apply aget_overflow; lia]. apply H2; lia. }
    repeat split; [lia|exact Hab|].
    right. destruct H3 as [H3|H3]; [|exact H3]. intros E. apply Hnz. intros k.
    destruct k as [|k]; [rewrite H3 in E; exact E|]. apply Hab. lia.
Qed.

Lemma value_ms a : value a = psum (aget a) (ms_length a).
Proof.
  destruct (ms_length_spec a) as (H1 & H2 & _). rewrite value_psum. apply psum_trunc; [lia|].
  intros; apply H2; lia.
Qed.

Lemma value_ms_bounds a : wf a -> (0 < ms_length a)%nat ->
  BASE ^ Z.of_nat (ms_length a - 1) <= value a < BASE ^ Z.of_nat (ms_length a).
Proof.
  intros Hw Hpos. rewrite value_ms. destruct (ms_length_spec a) as (H1 & H2 & H3).
  split; [|apply psum_nonneg; exact Hw].
  replace (ms_length a) with (S (ms_length a - 1)) at 2 by lia. cbn [psum].
  pose proof (psum_nonneg a (ms_length a - 1) Hw). pose proof (wf_get a (ms_length a - 1) Hw).
  pose proof (Bpow_pos (ms_length a - 1)). destruct H3; [lia|]. nia.
Qed.

Lemma ms_length_zero a : wf a -> ms_length a = O <-> value a = 0.
Proof.
  intros Hw. split; intros H.
  - rewrite value_ms, H. reflexivity.
  - destruct (Nat.eq_dec (ms_length a) 0); [assumption|].
    pose proof (value_ms_bounds a Hw ltac:(lia)). pose proof (Bpow_pos (ms_length a - 1)). lia.
Qed.

Lemma bit_size_spec a : wf a ->
  bit_size a = if value a =? 0 then 0 else Z.log2 (value a) + 1.
Proof.
  intros Hw. pose proof (ms_length_zero a Hw) as Hz. unfold ms_length in Hz. unfold bit_size.
  destruct (forallb _ a) eqn:Ez.
  - rewrite (proj2 (Z.eqb_eq _ _)) by (apply Hz; reflexivity). reflexivity.
  - destruct (Z.eqb_spec (value a) 0) as [E|E]; [apply Hz in E; discriminate|].
    destruct (ms_length_spec a) as (H1 & H2 & H3). rewrite (value_ms a).
    unfold ms_length in *. rewrite Ez in *. set (ms := ms_scan a (length a - 1)) in *.
    replace (S ms - 1)%nat with ms in H3 by lia. destruct H3 as [|H3]; [lia|].
    cbn [psum]. pose proof (psum_nonneg a ms Hw). pose proof (wf_get a ms Hw).
    rewrite Z.add_assoc. f_equal. symmetry. apply Z.log2_unique; [pose proof (Z.log2_nonneg (aget a ms)); lia|].
    pose proof (Z.log2_spec (aget a ms) ltac:(lia)) as [L1 L2].
    assert (EB : BASE ^ Z.of_nat ms = 2 ^ (32 * Z.of_nat ms)) by (unfold BASE; rewrite <- Z.pow_mul_r by lia; reflexivity).
    rewrite EB in *. pose proof (Z.log2_nonneg (aget a ms)).
    replace (Z.succ (32 * Z.of_nat ms + Z.log2 (aget a ms))) with (32 * Z.of_nat ms + Z.succ (Z.log2 (aget a ms))) by lia.
    rewrite !Z.pow_add_r by lia. set (P := 2 ^ (32 * Z.of_nat ms)) in *. nia.
Qed.

Lemma bit_size_least a : wf a ->
  0 <= bit_size a /\ value a < 2 ^ bit_size a /\ forall k, 0 <= k -> value a < 2 ^ k -> bit_size a <= k.
Proof.
  intros Hw. rewrite bit_size_spec by exact Hw. pose proof (value_bound a Hw) as [H0 _].
  destruct (Z.eqb_spec (value a) 0) as [E|E].
  - rewrite E. repeat split; try lia.
  - pose proof (Z.log2_spec (value a) ltac:(lia)) as [L1 L2]. pose proof (Z.log2_nonneg (value a)).
    unfold Z.succ in L2. repeat split; try lia.
    intros k Hk Hlt. apply Z.log2_lt_pow2 in Hlt; lia.
Qed.
