(** Division: single limb divisors, normalisation shifts, Knuth's algorithm D. *)
From Verif.Lib Require Import Arr.
From Verif.BigInt Require Import BigIntSpec BigIntModel BigIntLemmas BigIntArith BigIntBits.
Local Open Scope Z_scope.

(** ** division by one limb *)
Lemma dsl_inv u d k : wf u -> 0 < d < BASE -> (k <= length u)%nat ->
  let n := length u in
  let st := fori k (dsl_body u d) (repeat 0 n, 0) in
  wf (fst st) /\ length (fst st) = n /\ 0 <= snd st < d /\
  (forall p, (p < n - k)%nat -> aget (fst st) p = 0) /\
  psum (aget (fst st)) n * d + snd st * BASE ^ Z.of_nat (n - k) = psum (aget u) n - psum (aget u) (n - k).
Proof.
  intros Hu Hd Hk. cbv zeta. set (n := length u) in *. revert Hk.
  induction k as [|k IH]; intros Hk; cbn [fori].
  - cbn [fst snd]. rewrite Nat.sub_0_r, psum_repeat. repeat split; try lia; [apply wf_repeat|apply repeat_length|].
    intros; apply aget_repeat.
  - specialize (IH ltac:(lia)). destruct (fori k (dsl_body u d) (repeat 0 n, 0)) as [q rem].
    cbn [fst snd] in *. destruct IH as (Hw & Hl & Hr & Hz & Hs). unfold dsl_body. fold n.
    set (idx := (n - 1 - k)%nat) in *. pose proof (wf_get u idx Hu) as Hui.
    rewrite shiftl32. rewrite (w64_small (rem * BASE)) by (rewrite BASE_val in *; nia).
    assert (Hc : 0 <= rem * BASE + aget u idx < d * BASE) by (rewrite BASE_val in *; nia).
    rewrite (w64_small (rem * BASE + aget u idx)) by (rewrite BASE_val in *; nia).
    set (cur := rem * BASE + aget u idx) in *.
    pose proof (Z.mod_pos_bound cur d ltac:(lia)) as Hm.
    assert (Hq : 0 <= cur / d < BASE).
    { split; [apply Z.div_pos; lia|]. apply Z.div_lt_upper_bound; lia. }
    rewrite w32_small by exact Hq. rewrite w64_small by (rewrite BASE_val in *; lia).
    cbn [fst snd]. replace (n - S k)%nat with idx by (unfold idx; lia).
    repeat split; try lia.
    + apply wf_aset; assumption.
    + rewrite length_aset; exact Hl.
    + intros p Hp. rewrite aget_aset_neq by lia. apply Hz. unfold idx in Hp; lia.
    + rewrite psum_aset by (unfold idx; lia). destruct (Nat.ltb_spec idx n); [|unfold idx in *; lia].
      rewrite (Hz idx) by (unfold idx; lia). rewrite Z.sub_0_r.
      replace (n - k)%nat with (S idx) in Hs by (unfold idx; lia).
      cbn [psum] in Hs. rewrite Bpow_S in Hs.
      pose proof (Z.div_mod cur d ltac:(lia)) as E.
      set (P := BASE ^ Z.of_nat idx) in *.
      assert (E2 : (cur / d * P) * d + cur mod d * P = cur * P) by (rewrite E at 3; ring).
      rewrite Z.mul_add_distr_r. unfold cur in E2 at 3. nia.
Qed.

Lemma divmod_single_limb_spec u d : wf u -> 0 < d < BASE ->
  let '(q, r) := divmod_single_limb u d in
  wf q /\ length q = length u /\ value q = value u / d /\ r = value u mod d.
Proof.
  intros Hu Hd. unfold divmod_single_limb.
  pose proof (dsl_inv u d (length u) Hu Hd ltac:(lia)) as H. cbv zeta in H.
  destruct (fori (length u) _ _) as [q rem]. cbn [fst snd] in H.
  destruct H as (Hw & Hl & Hr & _ & Hs). rewrite Nat.sub_diag in Hs. change (Z.of_nat 0) with 0 in Hs.
  rewrite Z.pow_0_r in Hs. cbn [psum] in Hs.
  rewrite <- Hl in Hs at 1. rewrite <- !value_psum in Hs.
  rewrite w32_small by lia. repeat split; auto.
  - apply (Z.div_unique_pos _ _ _ rem); lia.
  - apply (Z.mod_unique_pos _ _ (value q)); lia.
Qed.

(** ** leading zeros *)
Lemma land_top x : 0 <= x < BASE -> (Z.land x (2 ^ 31) =? 0) = (x <? 2 ^ 31).
Proof.
  intros Hx. destruct (Z.ltb_spec x (2 ^ 31)) as [Hlt|Hge].
  - apply Z.eqb_eq. apply Z.bits_inj'. intros k Hk. rewrite Z.land_spec, Z.testbit_0_l, Z.pow2_bits_eqb by lia.
    destruct (Z.eqb_spec 31 k) as [<-|]; [|apply andb_false_r].
    destruct (Z.eq_dec x 0) as [->|]; [reflexivity|].
    rewrite Z.bits_above_log2; [reflexivity|lia|]. apply Z.log2_lt_pow2; lia.
  - apply Z.eqb_neq. intros E. assert (T : Z.testbit (Z.land x (2 ^ 31)) 31 = true).
    { rewrite Z.land_spec, Z.pow2_bits_eqb by lia. rewrite Z.eqb_refl, andb_true_r.
      replace 31 with (Z.log2 x); [apply Z.bit_log2; lia|].
      apply Z.log2_unique; [lia|]. rewrite BASE_val in Hx. lia. }
    rewrite E, Z.testbit_0_l in T. discriminate.
Qed.

Lemma clz_gen x0 : 0 < x0 < BASE -> forall k x s, 0 <= s -> Z.of_nat k + s = 32 -> x = x0 * 2 ^ s -> x < BASE ->
  exists y s', while k clz_cond clz_body (x, s) = Some (y, s') /\ s <= s' <= 31 /\ 2 ^ 31 <= x0 * 2 ^ s' < BASE.
Proof.
  intros H0. induction k as [|k IH]; intros x s Hs Hk Ex Hx.
  - exfalso. replace s with 32 in Ex by lia. rewrite pow32 in Ex. nia.
  - cbn [while]. unfold clz_cond at 1. pose proof (Z.pow_pos_nonneg 2 s ltac:(lia) ltac:(lia)) as Hp.
    rewrite land_top by nia. replace (s <? 32) with true by lia. cbn [andb].
    destruct (Z.ltb_spec x (2 ^ 31)) as [Hlt|Hge].
    + unfold clz_body at 2. rewrite Z.shiftl_mul_pow2 by lia. change (2 ^ 1) with 2.
      rewrite w32_small by (rewrite BASE_val; nia).
      destruct (IH (x * 2) (s + 1)) as (y & s' & E & B1 & B2); try lia.
      * rewrite Ex, Z.pow_add_r by lia. change (2 ^ 1) with 2. ring.
      * rewrite BASE_val; lia.
      * exists y, s'. repeat split; auto; lia.
    + exists x, s. repeat split; auto; try lia.
Qed.

Lemma clz32_spec x : 0 < x < BASE ->
  exists s, clz32 x = Some s /\ 0 <= s <= 31 /\ 2 ^ 31 <= x * 2 ^ s < BASE.
Proof.
  intros H. destruct (clz_gen x H 32 x 0 ltac:(lia) ltac:(lia) ltac:(rewrite Z.pow_0_r; lia) ltac:(lia)) as (y & s & E & B1 & B2).
  exists s. unfold clz32. change (Z.to_nat 32) with 32%nat in *. rewrite E. auto.
Qed.

(** ** shifts by less than a limb *)
Lemma lor_add a b s : 0 <= s -> 0 <= b < 2 ^ s -> Z.lor (a * 2 ^ s) b = a * 2 ^ s + b.
Proof.
  intros Hs Hb. symmetry. rewrite <- Z.lxor_lor.
  - apply Z.add_nocarry_lxor. apply Z.bits_inj'. intros k Hk. rewrite Z.land_spec, Z.testbit_0_l.
    destruct (Z.ltb_spec k s).
    + rewrite Z.mul_pow2_bits_low by lia. reflexivity.
    + destruct (Z.eq_dec b 0) as [->|]; [rewrite Z.testbit_0_l; apply andb_false_r|].
      rewrite (Z.bits_above_log2 b); [apply andb_false_r|lia|].
      apply Z.log2_lt_pow2; [lia|]. eapply Z.lt_le_trans; [apply Hb|]. apply Z.pow_le_mono_r; lia.
  - apply Z.bits_inj'. intros k Hk. rewrite Z.land_spec, Z.testbit_0_l.
    destruct (Z.ltb_spec k s).
    + rewrite Z.mul_pow2_bits_low by lia. reflexivity.
    + destruct (Z.eq_dec b 0) as [->|]; [rewrite Z.testbit_0_l; apply andb_false_r|].
      rewrite (Z.bits_above_log2 b); [apply andb_false_r|lia|].
      apply Z.log2_lt_pow2; [lia|]. eapply Z.lt_le_trans; [apply Hb|]. apply Z.pow_le_mono_r; lia.
Qed.

Lemma pow_split s : 0 <= s <= 32 -> 2 ^ s * 2 ^ (32 - s) = BASE.
Proof. intros H. rewrite <- Z.pow_add_r by lia. replace (s + (32 - s)) with 32 by lia. reflexivity. Qed.

Lemma word_shl x s : 0 < s < 32 -> 0 <= x < BASE ->
  (x * 2 ^ s) mod BASE = (x mod 2 ^ (32 - s)) * 2 ^ s /\ (x * 2 ^ s) / BASE = x / 2 ^ (32 - s).
Proof.
  intros Hs Hx. pose proof (pow_split s ltac:(lia)) as E.
  assert (0 < 2 ^ s) by (apply Z.pow_pos_nonneg; lia).
  assert (0 < 2 ^ (32 - s)) by (apply Z.pow_pos_nonneg; lia).
  rewrite <- E, (Z.mul_comm (2 ^ s)). split.
  - rewrite Z.mul_mod_distr_r by lia. reflexivity.
  - rewrite Z.div_mul_cancel_r by lia. reflexivity.
Qed.

Lemma shl_inv arr s k : wf arr -> 0 < s < 32 -> (k <= length arr)%nat ->
  let st := fori k (shl_body arr s) (0, repeat 0 (length arr)) in
  wf (snd st) /\ length (snd st) = length arr /\ 0 <= fst st < 2 ^ s /\
  psum (aget (snd st)) k + fst st * BASE ^ Z.of_nat k = psum (aget arr) k * 2 ^ s.
Proof.
  intros Hw Hs Hk. cbv zeta. pose proof (Z.pow_pos_nonneg 2 s ltac:(lia) ltac:(lia)) as Hps.
  pose proof (Z.pow_pos_nonneg 2 (32 - s) ltac:(lia) ltac:(lia)) as Hps2. pose proof (pow_split s ltac:(lia)) as EB.
  apply (fori_ind (fun k st => wf (snd st) /\ length (snd st) = length arr /\ 0 <= fst st < 2 ^ s /\
     psum (aget (snd st)) k + fst st * BASE ^ Z.of_nat k = psum (aget arr) k * 2 ^ s)).
  - cbn [fst snd psum]. repeat split; try lia; [apply wf_repeat|apply repeat_length].
  - intros i [c o] Hi (W & L & C & S). cbn [fst snd] in *. unfold shl_body.
    pose proof (wf_get arr i Hw) as Ha. set (x := aget arr i) in *.
    rewrite Z.shiftl_mul_pow2, Z.shiftr_div_pow2 by lia.
    rewrite (w64_small (x * 2 ^ s)) by (split; nia).
    rewrite land_mask, w32_mod. destruct (word_shl x s Hs Ha) as [E1 E2]. rewrite E1.
    pose proof (Z.mod_pos_bound x (2 ^ (32 - s)) Hps2) as Hm.
    rewrite lor_add by lia.
    assert (Hd : 0 <= x mod 2 ^ (32 - s) * 2 ^ s + c < BASE) by nia.
    rewrite (w32_small _ Hd).
    assert (Hq : 0 <= x / 2 ^ (32 - s) < 2 ^ s).
    { split; [apply Z.div_pos; lia|]. apply Z.div_lt_upper_bound; nia. }
    rewrite (w32_small (x / 2 ^ (32 - s))) by (split; nia). cbn [fst snd]. repeat split; try lia.
    + apply wf_aset; assumption.
    + rewrite length_aset; exact L.
    + rewrite psum_S_aset by lia. cbn [psum]. rewrite Bpow_S. fold x.
      assert (Ex : x * 2 ^ s = BASE * (x / 2 ^ (32 - s)) + x mod 2 ^ (32 - s) * 2 ^ s).
      { rewrite (Z.div_mod x (2 ^ (32 - s))) at 1 by lia. rewrite <- EB. ring. }
      replace ((psum (aget arr) i + x * BASE ^ Z.of_nat i) * 2 ^ s)
        with (psum (aget arr) i * 2 ^ s + (x * 2 ^ s) * BASE ^ Z.of_nat i) by ring.
      rewrite <- S, Ex. ring.
Qed.

Lemma shl_bits_spec arr s : wf arr -> 0 <= s < 32 ->
  let '(out, c) := shl_bits arr s in
  wf out /\ length out = length arr /\ 0 <= c < 2 ^ s /\
  value out + c * BASE ^ Z.of_nat (length arr) = value arr * 2 ^ s.
Proof.
  intros Hw Hs. unfold shl_bits. destruct (Z.eqb_spec s 0) as [->|Hne].
  - rewrite Z.pow_0_r. repeat split; auto; lia.
  - pose proof (shl_inv arr s (length arr) Hw ltac:(lia) ltac:(lia)) as H. cbv zeta in H.
    destruct (fori _ _ _) as [c o]. cbn [fst snd] in H. destruct H as (W & L & C & S).
    repeat split; auto; try lia. rewrite !value_psum, L. exact S.
Qed.

Lemma shr_inv arr s k : wf arr -> 0 < s < 32 -> (k <= length arr)%nat ->
  let n := length arr in
  let st := fori k (shr_body arr s) (0, repeat 0 n) in
  wf (snd st) /\ length (snd st) = n /\ 0 <= fst st < 2 ^ s /\
  (forall p, (p < n - k)%nat -> aget (snd st) p = 0) /\
  psum (aget (snd st)) n * 2 ^ s + fst st * BASE ^ Z.of_nat (n - k) = psum (aget arr) n - psum (aget arr) (n - k).
Proof.
  intros Hw Hs Hk. cbv zeta. set (n := length arr) in *. revert Hk.
  pose proof (Z.pow_pos_nonneg 2 s ltac:(lia) ltac:(lia)) as Hps.
  pose proof (Z.pow_pos_nonneg 2 (32 - s) ltac:(lia) ltac:(lia)) as Hps2. pose proof (pow_split s ltac:(lia)) as EB.
  induction k as [|k IH]; intros Hk; cbn [fori].
  - cbn [fst snd]. rewrite Nat.sub_0_r, psum_repeat. repeat split; try lia; [apply wf_repeat|apply repeat_length|].
    intros; apply aget_repeat.
  - specialize (IH ltac:(lia)). destruct (fori k (shr_body arr s) (0, repeat 0 n)) as [c o].
    cbn [fst snd] in *. destruct IH as (W & L & C & Z0 & S). unfold shr_body. fold n.
    set (idx := (n - 1 - k)%nat) in *. pose proof (wf_get arr idx Hw) as Ha. set (x := aget arr idx) in *.
    rewrite (Z.shiftl_mul_pow2 c), (Z.shiftr_div_pow2 x) by lia.
    assert (Hcs : 0 <= c * 2 ^ (32 - s) < BASE) by nia.
    rewrite (w64_small (c * 2 ^ (32 - s))) by (rewrite BASE_val in *; lia).
    rewrite land_mask, w32_mod, (Z.mod_small (c * 2 ^ (32 - s))) by exact Hcs.
    assert (Hq : 0 <= x / 2 ^ s < 2 ^ (32 - s)).
    { split; [apply Z.div_pos; lia|]. apply Z.div_lt_upper_bound; nia. }
    rewrite Z.lor_comm, lor_add by lia.
    assert (Hd : 0 <= c * 2 ^ (32 - s) + x / 2 ^ s < BASE) by nia.
    rewrite (w32_small _ Hd). rewrite Z.shiftl_mul_pow2, Z.mul_1_l by lia.
    rewrite (w32_small (2 ^ s)) by (split; [lia|]; rewrite <- pow32; apply Z.pow_lt_mono_r; lia).
    replace (2 ^ s - 1) with (Z.ones s) by (rewrite Z.ones_equiv; lia). rewrite Z.land_ones by lia.
    pose proof (Z.mod_pos_bound x (2 ^ s) Hps) as Hm.
    rewrite (w32_small (x mod 2 ^ s)) by (split; nia). cbn [fst snd].
    replace (n - Datatypes.S k)%nat with idx by (unfold idx; lia). repeat split; try lia.
    + apply wf_aset; assumption.
    + rewrite length_aset; exact L.
    + intros p Hp. rewrite aget_aset_neq by lia. apply Z0. unfold idx in Hp; lia.
    + rewrite psum_aset by (unfold idx; lia). destruct (Nat.ltb_spec idx n); [|unfold idx in *; lia].
      rewrite (Z0 idx) by (unfold idx; lia). rewrite Z.sub_0_r.
      replace (n - k)%nat with (Datatypes.S idx) in S by (unfold idx; lia).
      cbn [psum] in S. rewrite Bpow_S in S. fold x in S.
      set (P := BASE ^ Z.of_nat idx) in *.
      assert (Ex : (c * 2 ^ (32 - s) + x / 2 ^ s) * P * 2 ^ s + x mod 2 ^ s * P = c * (BASE * P) + x * P).
      { rewrite (Z.div_mod x (2 ^ s)) at 3 by lia. rewrite <- EB. ring. }
      rewrite Z.mul_add_distr_r. lia.
Qed.

Lemma shr_bits_spec arr s : wf arr -> 0 <= s < 32 ->
  wf (shr_bits arr s) /\ length (shr_bits arr s) = length arr /\ value (shr_bits arr s) = value arr / 2 ^ s.
Proof.
  intros Hw Hs. unfold shr_bits. destruct (Z.eqb_spec s 0) as [->|Hne].
  - rewrite Z.pow_0_r, Z.div_1_r. auto.
  - pose proof (shr_inv arr s (length arr) Hw ltac:(lia) ltac:(lia)) as H. cbv zeta in H.
    destruct (fori _ _ _) as [c o]. cbn [fst snd] in *. destruct H as (W & L & C & _ & S).
    repeat split; auto. rewrite Nat.sub_diag in S. change (Z.of_nat 0) with 0 in S. rewrite Z.pow_0_r in S.
    cbn [psum] in S. rewrite <- L in S at 1. rewrite <- !value_psum in S.
    apply (Z.div_unique_pos _ _ _ c); lia.
Qed.

