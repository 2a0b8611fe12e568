From Verif.Compare Require Import CompareModel CompareSpec.
Local Open Scope Z_scope.

Lemma conj_top_ok x v w : 0 <= w -> 0 <= v < 2 ^ w -> 0 <= x <= 2 ^ w -> conj_top x v w = Some (v <? x, v).
Proof.
  intros Hw Hv Hx. unfold conj_top, adder, inv_adder. assert (P := Z.pow_pos_nonneg 2 w ltac:(lia) Hw).
  assert (E2 : 2 ^ (w + 1) = 2 * 2 ^ w) by (rewrite Z.pow_add_r by lia; lia).
  assert (Hm : ((v - x) mod 2 ^ (w + 1) + x) mod 2 ^ (w + 1) = v).
  { rewrite Z.add_mod_idemp_l by lia. replace (v - x + x) with v by lia. apply Z.mod_small. lia. }
  rewrite Hm. rewrite !Z.testbit_odd, !Z.shiftr_div_pow2 by lia. rewrite (Z.div_small v) by lia. cbn [Z.odd].
  do 2 f_equal. destruct (Z.ltb_spec v x).
  - replace ((v - x) mod 2 ^ (w + 1)) with (v - x + 2 ^ (w + 1)).
    2:{ rewrite <- (Z_mod_plus_full (v - x) 1), Z.mul_1_l. symmetry. apply Z.mod_small. lia. }
    replace ((v - x + 2 ^ (w + 1)) / 2 ^ w) with 1; [reflexivity|]. apply Z.div_unique with (v - x + 2 ^ w); lia.
  - rewrite Z.mod_small by lia. rewrite Z.div_small by lia. reflexivity.
Qed.

Lemma num_small t x : - 2 ^ 63 <= x < 2 ^ 63 -> num t x = x.
Proof. intros Hx. unfold num, wrap64. destruct t; [|reflexivity]. rewrite Z.mod_small by lia. lia. Qed.

Lemma pow_le n : 0 <= n <= 62 -> 0 < 2 ^ n <= 2 ^ 62.
Proof. intros Hn. split; [apply Z.pow_pos_nonneg; lia|apply Z.pow_le_mono_r; lia]. Qed.

Lemma less_than_ok t a b : fits t a -> fits t b -> less_than t a b = Some (value a <? value b, value a, value b).
Proof.
  intros Ha Hb. destruct a as [na x|x], b as [nb y|y]; cbn [less_than value].
  - destruct Ha as (Hna & Hx & _), Hb as (Hnb & Hy & _). unfold qq_less_than.
    assert (2 ^ na <= 2 ^ Z.max na nb) by (apply Z.pow_le_mono_r; lia). assert (2 ^ nb <= 2 ^ Z.max na nb) by (apply Z.pow_le_mono_r; lia).
    rewrite conj_top_ok by lia. replace (x <? 2 ^ na) with true by (symmetry; apply Z.ltb_lt; lia). reflexivity.
  - destruct Ha as (Hna & Hx & Ht). cbn in Hb. unfold qc_less_than.
    assert (E : num t (2 ^ na) = 2 ^ na). { destruct t; [|reflexivity]. assert (P := pow_le na ltac:(lia)). apply num_small. lia. }
    rewrite E. destruct (Z.leb_spec 0 y), (Z.leb_spec y (2 ^ na)); cbn [andb].
    + rewrite conj_top_ok by lia. replace (2 ^ na <? y) with false by (symmetry; apply Z.ltb_ge; lia). rewrite xorb_false_l. reflexivity.
    + replace (2 ^ na <? y) with true by (symmetry; apply Z.ltb_lt; lia). replace (x <? y) with true by (symmetry; apply Z.ltb_lt; lia). reflexivity.
    + replace (2 ^ na <? y) with false by (symmetry; apply Z.ltb_ge; lia). replace (x <? y) with false by (symmetry; apply Z.ltb_ge; lia). reflexivity.
    + lia.
  - destruct Hb as (Hnb & Hy & Ht). cbn in Ha. unfold cq_less_than.
    assert (P0 : 0 < 2 ^ nb) by (apply Z.pow_pos_nonneg; lia).
    assert (E : num t (num t (2 ^ nb) - 1) = 2 ^ nb - 1). { destruct t; [|reflexivity]. assert (P := pow_le nb ltac:(lia)). rewrite !(num_small true); try lia. rewrite num_small; lia. }
    rewrite E. destruct (Z.leb_spec 0 x), (Z.ltb_spec x (2 ^ nb - 1)); cbn [andb].
    + assert (En : num t (x + 1) = x + 1). { destruct t; [|reflexivity]. assert (P := pow_le nb ltac:(lia)). apply num_small. lia. }
      rewrite En, conj_top_ok by lia. replace (x <? 0) with false by (symmetry; apply Z.ltb_ge; lia). rewrite xorb_false_l.
      do 3 f_equal. destruct (Z.ltb_spec y (x + 1)), (Z.ltb_spec x y); cbn; try reflexivity; lia.
    + do 3 f_equal. destruct (Z.ltb_spec x 0), (Z.ltb_spec x y); try reflexivity; lia.
    + do 3 f_equal. destruct (Z.ltb_spec x 0), (Z.ltb_spec x y); try reflexivity; lia.
    + do 3 f_equal. destruct (Z.ltb_spec x 0), (Z.ltb_spec x y); try reflexivity; lia.
  - reflexivity.
Qed.

Lemma comparisons_ok t a b : fits t a -> fits t b ->
  uint_lt t a b = Some (value a <? value b, value a, value b) /\
  uint_gt t a b = Some (value a >? value b, value a, value b) /\
  uint_le t a b = Some (value a <=? value b, value a, value b) /\
  uint_ge t a b = Some (value a >=? value b, value a, value b).
Proof.
  intros Ha Hb. unfold uint_lt, uint_gt, uint_le, uint_ge. rewrite !less_than_ok by assumption.
  rewrite Z.gtb_ltb, Z.geb_leb, (Z.leb_antisym (value b)), (Z.leb_antisym (value a)). repeat split.
Qed.

(** ** equality of QuantumFloats *)

Lemma bits2z_bounds l : 0 <= bits2z l < 2 ^ zlen l.
Proof.
  unfold zlen. induction l as [|b l IH]; [cbn; lia|]. cbn [bits2z length]. rewrite Nat2Z.inj_succ, Z.pow_succ_r by lia. destruct b; lia.
Qed.
Lemma bits2z_testbit l k : 0 <= k -> Z.testbit (bits2z l) k = getq l k.
Proof.
  unfold getq. revert k. induction l as [|b l IH]; intros k Hk.
  - rewrite Z.bits_0. destruct (Z.to_nat k); reflexivity.
  - cbn [bits2z]. destruct (Z.eq_dec k 0) as [->|].
    + destruct b; cbn [nth Z.to_nat]; [replace (1 + 2 * bits2z l) with (2 * bits2z l + 1) by ring; apply Z.testbit_odd_0|rewrite Z.add_0_l; apply Z.testbit_even_0].
    + replace k with (Z.succ (k - 1)) by lia. rewrite Z2Nat.inj_succ by lia. cbn [nth]. rewrite <- IH by lia.
      destruct b; [replace (1 + 2 * bits2z l) with (2 * bits2z l + 1) by ring; apply Z.testbit_odd_succ; lia|rewrite Z.add_0_l; apply Z.testbit_even_succ; lia].
Qed.
Lemma nth_xor_at l i v j : nth j (xor_at l i v) false = if (j =? i)%nat && (i <? length l)%nat then xorb (nth j l false) v else nth j l false.
Proof.
  revert i j. induction l as [|h l IH]; intros [|i] [|j]; cbn [xor_at nth length]; try reflexivity; try (rewrite ?andb_false_r; reflexivity).
  rewrite IH. reflexivity.
Qed.
Lemma xor_at_length l i v : length (xor_at l i v) = length l.
Proof. revert i. induction l as [|h l IH]; intros [|i]; cbn; auto. Qed.

(** bit j of the first register after the conjugator *)
Lemma conj_fold r1 l e0 e1 n : 0 <= l - e0 -> 0 <= l - e1 -> forall r0,
  let r := fold_left (fun r i => xor_at r (Z.to_nat (Z.of_nat i + l - e0)) (getq r1 (Z.of_nat i + l - e1))) (seq 0 n) r0 in
  length r = length r0 /\
  forall j, (j < length r0)%nat -> nth j r false =
    xorb (nth j r0 false) (if (l - e0 <=? Z.of_nat j) && (Z.of_nat j <? l - e0 + Z.of_nat n) then getq r1 (Z.of_nat j + e0 - e1) else false).
Proof.
  intros H0 H1 r0. induction n as [|n IH].
  - cbn. split; [reflexivity|]. intros j Hj. destruct (Z.leb_spec (l - e0) (Z.of_nat j)), (Z.ltb_spec (Z.of_nat j) (l - e0 + 0)); cbn; try lia; rewrite xorb_false_r; reflexivity.
  - cbv zeta in *. rewrite seq_S, fold_left_app. cbn [fold_left Nat.add]. destruct IH as [IL IH]. split.
    + rewrite xor_at_length. exact IL.
    + intros j Hj. rewrite nth_xor_at, IL, IH by exact Hj.
      destruct (Nat.eqb_spec j (Z.to_nat (Z.of_nat n + l - e0))) as [E|E].
      * replace (Z.to_nat (Z.of_nat n + l - e0) <? length r0)%nat with true by (symmetry; apply Nat.ltb_lt; lia). cbn [andb].
        destruct (Z.leb_spec (l - e0) (Z.of_nat j)), (Z.ltb_spec (Z.of_nat j) (l - e0 + Z.of_nat n)), (Z.ltb_spec (Z.of_nat j) (l - e0 + Z.of_nat (S n))); cbn [andb]; try lia.
        rewrite xorb_false_r. do 2 f_equal. lia.
      * cbn [andb]. destruct (Z.leb_spec (l - e0) (Z.of_nat j)), (Z.ltb_spec (Z.of_nat j) (l - e0 + Z.of_nat n)), (Z.ltb_spec (Z.of_nat j) (l - e0 + Z.of_nat (S n))); cbn [andb]; try lia; reflexivity.
Qed.

Lemma forallb_nth (l : list bool) : forallb negb l = true <-> forall j, nth j l false = false.
Proof.
  induction l as [|b l IH]; cbn [forallb]; [split; [intros _ []; reflexivity|reflexivity]|].
  rewrite andb_true_iff, IH. split.
  - intros [Hb H] [|j]; cbn; [destruct b; cbn in *; congruence|apply H].
  - intros H. split; [specialize (H O); cbn in H; rewrite H; reflexivity|intros j; exact (H (S j))].
Qed.
Lemma slice_nth (l : list bool) lo hi : 0 <= lo -> 0 <= hi ->
  (forall j, nth j (slice l lo hi) false = false) <-> (forall j, lo <= j < hi -> getq l j = false).
Proof.
  intros Hlo Hhi. unfold slice, norm_index, getq, zlen. destruct (Z.ltb_spec lo 0), (Z.ltb_spec hi 0); try lia.
  set (n := Z.of_nat (length l)).
  assert (E : forall a b j, nth j (firstn a (skipn b l)) false = if (j <? a)%nat then nth (b + j) l false else false).
  { clear. intros a b. revert a. induction b as [|b IH] in l |- *; intros a j.
    - cbn [skipn Nat.add]. revert l j. induction a as [|a IHa]; intros l j; [destruct j; reflexivity|].
      destruct l as [|h l]; [rewrite firstn_nil; destruct j, (_ <? _)%nat; reflexivity|]. destruct j as [|j]; [reflexivity|]. cbn [firstn nth]. rewrite IHa. reflexivity.
    - destruct l as [|h l]; [rewrite skipn_nil, firstn_nil; destruct j, (_ <? a)%nat; reflexivity|]. cbn [skipn]. rewrite IH. reflexivity. }
  split.
  - intros Hf j Hj. destruct (Z_lt_le_dec j n); [|apply nth_overflow; lia].
    specialize (Hf (Z.to_nat (j - Z.min n lo))). rewrite E in Hf. destruct (Nat.ltb_spec (Z.to_nat (j - Z.min n lo)) (Z.to_nat (Z.min n hi - Z.min n lo))); [|lia].
    replace (Z.to_nat (Z.min n lo) + Z.to_nat (j - Z.min n lo))%nat with (Z.to_nat j) in Hf by lia. exact Hf.
  - intros Hf j. rewrite E. destruct (Nat.ltb_spec j (Z.to_nat (Z.min n hi - Z.min n lo))); [|reflexivity].
    specialize (Hf (Z.min n lo + Z.of_nat j)). replace (Z.to_nat (Z.min n lo) + j)%nat with (Z.to_nat (Z.min n lo + Z.of_nat j)) by lia. apply Hf. lia.
Qed.

(** the core comparison for an unsigned second register *)
Definition abs_bit (q : qf) (p : Z) : bool := if (expo q <=? p) && (p <? expo q + zlen (mant q)) then getq (mant q) (p - expo q) else false.
Lemma getq_app1 l l' i : 0 <= i < zlen l -> getq (l ++ l') i = getq l i.
Proof. intros Hi. unfold getq, zlen in *. apply app_nth1. lia. Qed.
Lemma getq_out l i : zlen l <= i -> getq l i = false.
Proof. intros Hi. unfold getq, zlen in *. apply nth_overflow. lia. Qed.

Lemma value_eq_bits x y : sgn y = None -> same_number x y <-> (match sgn x with Some true => False | _ => forall p, abs_bit x p = abs_bit y p end).
Proof.
  intros Hy. unfold same_number, value_at, mantissa_value. rewrite Hy, Z.sub_0_r.
  set (base := Z.min (expo x) (expo y)). assert (Bx := bits2z_bounds (mant x)). assert (By := bits2z_bounds (mant y)).
  assert (Px : 0 < 2 ^ (expo x - base)) by (apply Z.pow_pos_nonneg; lia). assert (Py : 0 < 2 ^ (expo y - base)) by (apply Z.pow_pos_nonneg; lia).
  assert (T : forall q p, base <= expo q -> 0 <= p -> Z.testbit (bits2z (mant q) * 2 ^ (expo q - base)) p = abs_bit q (p + base)).
  { intros q p Hq Hp. unfold abs_bit. destruct (Z.leb_spec (expo q) (p + base)); cbn [andb].
    - rewrite Z.mul_pow2_bits by lia. rewrite bits2z_testbit by lia. destruct (Z.ltb_spec (p + base) (expo q + zlen (mant q))).
      + f_equal. lia. + apply getq_out. lia.
    - rewrite Z.mul_pow2_bits_low by lia. reflexivity. }
  assert (Main : bits2z (mant x) * 2 ^ (expo x - base) = bits2z (mant y) * 2 ^ (expo y - base) <-> forall p, abs_bit x p = abs_bit y p).
  { split.
    - intros E p. destruct (Z_lt_le_dec p base).
      + unfold abs_bit. destruct (Z.leb_spec (expo x) p), (Z.leb_spec (expo y) p); cbn [andb]; try lia; reflexivity.
      + replace p with (p - base + base) by lia. rewrite <- !T by lia. rewrite E. reflexivity.
    - intros E. apply Z.bits_inj'. intros p Hp. rewrite !T by lia. apply E. }
  destruct (sgn x) as [[]|]; rewrite ?Z.sub_0_r; try exact Main.
  split; [|intros []]. intros E.
  assert ((bits2z (mant x) - 2 ^ zlen (mant x)) * 2 ^ (expo x - base) < 0) by (apply Z.mul_neg_pos; lia).
  assert (0 <= bits2z (mant y) * 2 ^ (expo y - base)) by (apply Z.mul_nonneg_nonneg; lia). lia.
Qed.

Definition core (x y : qf) : bool :=
  forallb negb (conjugate_bits (reg x) (reg y) (Z.max (expo x) (expo y)) (expo x) (expo y)
      (Z.min (expo x + zlen (mant x)) (expo y + zlen (mant y)) - Z.max (expo x) (expo y)) ++
    slice (reg y) 0 (Z.max (expo x) (expo y) - expo y) ++ slice (reg y) (expo x + zlen (mant x) - expo y) (expo y + zlen (mant y) - expo y)).

Lemma nth_false_app (l1 l2 : list bool) : (forall j, nth j (l1 ++ l2) false = false) <-> (forall j, nth j l1 false = false) /\ (forall j, nth j l2 false = false).
Proof.
  split.
  - intros Hf. split; intros j.
    + destruct (le_lt_dec (length l1) j); [apply nth_overflow; exact l|]. rewrite <- (app_nth1 l1 l2) by exact l. apply Hf.
    + specialize (Hf (length l1 + j)%nat). rewrite app_nth2 in Hf by lia. replace (length l1 + j - length l1)%nat with j in Hf by lia. exact Hf.
  - intros [H1 H2] j. destruct (le_lt_dec (length l1) j); [rewrite app_nth2 by exact l; apply H2|rewrite app_nth1 by exact l; apply H1].
Qed.

Lemma core_ok x y : sgn y = None -> expo y <= expo x + zlen (mant x) ->
  core x y = true <-> same_number x y.
Proof.
  intros Hy Hov. rewrite value_eq_bits by exact Hy. unfold core. rewrite forallb_nth, !nth_false_app.
  rewrite !slice_nth by (unfold zlen in *; lia).
  assert (Ry : reg y = mant y) by (unfold reg; rewrite Hy; apply app_nil_r). rewrite Ry.
  unfold conjugate_bits.
  set (l := Z.max (expo x) (expo y)). set (r := Z.min (expo x + zlen (mant x)) (expo y + zlen (mant y))).
  destruct (conj_fold (mant y) l (expo x) (expo y) (Z.to_nat (r - l)) ltac:(lia) ltac:(lia) (reg x)) as [L N]. cbv zeta in L, N.
  set (cr := fold_left _ _ _) in *.
  assert (Lx : zlen (reg x) = zlen (mant x) + match sgn x with Some _ => 1 | None => 0 end).
  { unfold reg, zlen. rewrite app_length. destruct (sgn x); cbn [length]; lia. }
  assert (Ng : forall j, 0 <= j < zlen (reg x) -> getq cr j = xorb (getq (reg x) j) (if (l - expo x <=? j) && (j <? r - expo x) then getq (mant y) (j + expo x - expo y) else false)).
  { intros j Hj. unfold getq at 1 2. rewrite N by (unfold zlen in Hj; lia). rewrite Z2Nat.id by lia. f_equal.
    destruct (Z.leb_spec (l - expo x) j); cbn [andb]; [|reflexivity].
    destruct (Z.ltb_spec j (l - expo x + Z.of_nat (Z.to_nat (r - l)))), (Z.ltb_spec j (r - expo x)); try reflexivity; lia. }
  assert (Cr : (forall j, nth j cr false = false) <-> forall j, 0 <= j < zlen (reg x) -> getq cr j = false).
  { split.
    - intros Hf j Hj. unfold getq. apply Hf.
    - intros Hf j. destruct (le_lt_dec (length cr) j); [apply nth_overflow; exact l0|]. specialize (Hf (Z.of_nat j)). unfold getq in Hf. rewrite Nat2Z.id in Hf. apply Hf. unfold zlen. lia. }
  rewrite Cr. clear Cr N.
  assert (Lm : forall q, 0 <= zlen (mant q)) by (intros; unfold zlen; lia). assert (Lmx := Lm x). assert (Lmy := Lm y).
  assert (Hr : forall j, 0 <= j < zlen (mant x) -> getq (reg x) j = getq (mant x) j) by (intros j Hj; unfold reg; apply getq_app1; exact Hj).
  split.
  - intros (H1 & H2 & H3).
    assert (Eq : forall p, abs_bit x p = abs_bit y p).
    { intros p. unfold abs_bit.
      destruct (Z.leb_spec (expo x) p), (Z.ltb_spec p (expo x + zlen (mant x))); cbn [andb].
      - specialize (H1 (p - expo x) ltac:(destruct (sgn x); lia)). rewrite Ng, Hr in H1 by (destruct (sgn x); lia).
        destruct (Z.leb_spec (expo y) p), (Z.ltb_spec p (expo y + zlen (mant y))); cbn [andb];
          destruct (Z.leb_spec (l - expo x) (p - expo x)), (Z.ltb_spec (p - expo x) (r - expo x)); cbn [andb] in H1; try lia;
          try (rewrite xorb_false_r in H1; exact H1).
        replace (p - expo x + expo x - expo y) with (p - expo y) in H1 by lia. apply xorb_eq. exact H1.
      - destruct (Z.leb_spec (expo y) p), (Z.ltb_spec p (expo y + zlen (mant y))); cbn [andb]; try reflexivity. symmetry. apply H3. lia.
      - destruct (Z.leb_spec (expo y) p), (Z.ltb_spec p (expo y + zlen (mant y))); cbn [andb]; try reflexivity. symmetry. apply H2. lia.
      - lia. }
    destruct (sgn x) as [[]|] eqn:Sx; try exact Eq.
    specialize (H1 (zlen (mant x)) ltac:(lia)). rewrite Ng in H1 by lia.
    assert (getq (reg x) (zlen (mant x)) = true).
    { unfold getq, reg, zlen. rewrite Sx, Nat2Z.id, app_nth2, Nat.sub_diag by lia. reflexivity. }
    rewrite H in H1. destruct (Z.ltb_spec (zlen (mant x)) (r - expo x)); [lia|]. rewrite andb_false_r in H1. discriminate.
  - intros Eq. assert (Sg : sgn x <> Some true) by (intros E; rewrite E in Eq; exact Eq).
    assert (Eq' : forall p, abs_bit x p = abs_bit y p) by (destruct (sgn x) as [[]|]; [destruct Eq|exact Eq|exact Eq]). clear Eq.
    split; [|split].
    + intros j Hj. rewrite Ng by exact Hj. destruct (Z_lt_le_dec j (zlen (mant x))).
      * rewrite Hr by lia. specialize (Eq' (j + expo x)). unfold abs_bit in Eq'.
        destruct (Z.leb_spec (expo x) (j + expo x)), (Z.ltb_spec (j + expo x) (expo x + zlen (mant x))); cbn [andb] in Eq'; try lia.
        replace (j + expo x - expo x) with j in Eq' by lia. rewrite Eq'.
        destruct (Z.leb_spec (expo y) (j + expo x)), (Z.ltb_spec (j + expo x) (expo y + zlen (mant y))); cbn [andb];
          destruct (Z.leb_spec (l - expo x) j), (Z.ltb_spec j (r - expo x)); cbn [andb]; try lia; try reflexivity. apply xorb_nilpotent.
      * destruct (Z.ltb_spec j (r - expo x)); [lia|]. rewrite andb_false_r, xorb_false_r.
        destruct (sgn x) as [[]|] eqn:Sx; [congruence| |lia].
        assert (j = zlen (mant x)) as -> by lia. unfold getq, reg, zlen. rewrite Sx, Nat2Z.id, app_nth2, Nat.sub_diag by lia. reflexivity.
    + intros j Hj. destruct (Z_lt_le_dec j (zlen (mant y))); [|apply getq_out; lia].
      specialize (Eq' (j + expo y)). unfold abs_bit in Eq'.
      destruct (Z.leb_spec (expo x) (j + expo y)), (Z.leb_spec (expo y) (j + expo y)), (Z.ltb_spec (j + expo y) (expo y + zlen (mant y))); cbn [andb] in Eq'; try lia.
      replace (j + expo y - expo y) with j in Eq' by lia. symmetry. exact Eq'.
    + intros j Hj. specialize (Eq' (j + expo y)). unfold abs_bit in Eq'.
      destruct (Z.ltb_spec (j + expo y) (expo x + zlen (mant x))), (Z.leb_spec (expo y) (j + expo y)), (Z.ltb_spec (j + expo y) (expo y + zlen (mant y))); try lia.
      rewrite andb_false_r in Eq'. cbn [andb] in Eq'. replace (j + expo y - expo y) with j in Eq' by lia. symmetry. exact Eq'.
Qed.

Lemma equal_mixed x y : sgn x = None \/ sgn y = None ->
  expo y <= expo x + zlen (mant x) -> expo x <= expo y + zlen (mant y) -> equal x y = true <-> same_number x y.
Proof.
  intros Hs H1 H2.
  assert (Sym : same_number y x <-> same_number x y) by (unfold same_number; rewrite Z.min_comm; split; congruence).
  destruct (sgn y) eqn:Sy.
  - destruct Hs as [Sx|]; [|discriminate].
    assert (E : equal x y = core y x) by (unfold equal, core; rewrite Sx, Sy; cbn zeta; rewrite ?Sx, ?Sy; reflexivity).
    rewrite E, core_ok by assumption. exact Sym.
  - assert (E : equal x y = core x y) by (unfold equal, core; rewrite Sy; cbn zeta; rewrite Sy; destruct (sgn x); reflexivity).
    rewrite E. apply core_ok; assumption.
Qed.

Lemma bits2z_inj a b : length a = length b -> bits2z a = bits2z b -> a = b.
Proof.
  revert b. induction a as [|h a IH]; intros [|k b] L E; try discriminate; [reflexivity|]. cbn [bits2z length] in *.
  assert (h = k) as -> by (destruct h, k; try reflexivity; lia). f_equal. apply IH; [lia|]. destruct k; lia.
Qed.

Lemma equal_signed x y s t : sgn x = Some s -> sgn y = Some t -> expo x = expo y -> length (mant x) = length (mant y) ->
  equal x y = true <-> same_number x y.
Proof.
  intros Sx Sy E L. destruct x as [mx ex sx], y as [my ey sy]. cbn in *. subst sx sy ey.
  set (n := length mx) in *.
  unfold equal. cbn [sgn mant expo]. cbn zeta. cbn iota. cbv iota beta.
  unfold same_number, value_at, mantissa_value, zlen. cbn [sgn mant expo].
  rewrite <- L. fold n. rewrite Z.max_id, !Z.min_id, !Z.sub_diag, Z.pow_0_r, !Z.mul_1_r.
  replace (ex + Z.of_nat n - ex) with (Z.of_nat n) by lia.
  unfold reg. cbn [mant sgn]. 
  assert (S1 : slice (my ++ [t]) 0 0 = []) by (unfold slice, norm_index; cbn; rewrite ?Z.min_r by (unfold zlen; lia); reflexivity).
  assert (S2 : slice (my ++ [t]) (Z.of_nat n) (Z.of_nat n) = []) by (unfold slice; rewrite Z.sub_diag; reflexivity).
  rewrite S1, S2, !app_nil_r, forallb_nth.
  unfold conjugate_bits. rewrite Nat2Z.id. 
  set (r0 := xor_at (mx ++ [s]) n _).
  destruct (conj_fold (my ++ [t]) ex ex ex n ltac:(lia) ltac:(lia) r0) as [Lr N]. cbv zeta in Lr, N.
  set (cr := fold_left _ _ _) in *.
  assert (L0 : length r0 = S n) by (unfold r0; rewrite xor_at_length, app_length; cbn; fold n; lia).
  assert (G : getq (my ++ [t]) (Z.of_nat n) = t) by (unfold getq; rewrite Nat2Z.id, app_nth2, L, Nat.sub_diag by lia; reflexivity).
  assert (B : forall j, (j < S n)%nat -> nth j cr false = if (j =? n)%nat then xorb s t else xorb (nth j mx false) (nth j my false)).
  { intros j Hj. rewrite N by lia. rewrite Z.sub_diag. unfold r0. rewrite nth_xor_at, app_length, G. cbn [length].
    replace (n <? length mx + 1)%nat with true by (symmetry; apply Nat.ltb_lt; fold n; lia). rewrite andb_true_r.
    destruct (Nat.eqb_spec j n) as [->|].
    - destruct (Z.ltb_spec (Z.of_nat n) (0 + Z.of_nat n)); [lia|]. rewrite andb_false_r, xorb_false_r. rewrite app_nth2, Nat.sub_diag by (fold n; lia). reflexivity.
    - destruct (Z.leb_spec 0 (Z.of_nat j)), (Z.ltb_spec (Z.of_nat j) (0 + Z.of_nat n)); try lia. cbn [andb].
      rewrite app_nth1 by (fold n; lia). f_equal. unfold getq. replace (Z.to_nat (Z.of_nat j + ex - ex)) with j by lia. apply app_nth1. lia. }
  assert (Bx := bits2z_bounds mx). assert (By := bits2z_bounds my). unfold zlen in Bx, By. rewrite <- L in By. fold n in Bx.
  split.
  - intros H. assert (mx = my).
    { apply nth_ext with false false; [exact L|]. intros j Hj. specialize (H j). rewrite B in H by lia. destruct (Nat.eqb_spec j n); [lia|]. apply xorb_eq. exact H. }
    assert (s = t). { specialize (H n). rewrite B, Nat.eqb_refl in H by lia. apply xorb_eq. exact H. }
    subst. reflexivity.
  - intros H. assert (s = t /\ bits2z mx = bits2z my) as [-> Hb] by (destruct s, t; split; try reflexivity; lia).
    assert (mx = my) as -> by (apply bits2z_inj; assumption).
    intros j. destruct (le_lt_dec (S n) j); [apply nth_overflow; lia|]. rewrite B by lia. destruct (j =? n)%nat; apply xorb_nilpotent.
Qed.
