(** Proofs about out-of-place arithmetic by semi-boolean polynomials. *)
From Coq Require Import ZArith QArith Qround Qabs List Bool Lia Lqa.
From Verif.QFloat Require Import QFModel QFSpec QFProofs.
Import ListNotations.
Local Open Scope Z_scope.

Definition allb (bs : list bool) : bool := forallb (fun b => b) bs.
Fixpoint qsum (ms : list (Q * list bool)) : Q := match ms with [] => 0 | (k, bs) :: ms => ((if allb bs then k else 0) + qsum ms)%Q end.
Definition integral (d : Z) (m : Q * list bool) : Prop := exists z, (fst m == inject_Z z * pw d)%Q.
Lemma encode_cons : forall out k bs ms c, encode_monomials out ((k, bs) :: ms) c = encode_monomials out ms ((c + (if allb bs then qround (k / pw (expo out)) else 0)) mod 2 ^ Z.of_nat (size out)).
Proof. reflexivity. Qed.
Lemma encode_ok : forall out ms, Forall (integral (expo out)) ms -> exists t, (qsum ms == inject_Z t * pw (expo out))%Q /\
  forall c, basis out c -> encode_monomials out ms c = (c + t) mod 2 ^ Z.of_nat (size out).
Proof.
  intros out ms F. pose proof (p2pos (Z.of_nat (size out)) ltac:(lia)) as P. induction F as [|[k bs] ms [z Hz] F IH].
  - exists 0. split; [cbn; ring|]. intros c B. cbn. rewrite Z.add_0_r, Z.mod_small by exact B. reflexivity.
  - destruct IH as (t & T & E). cbn [fst] in Hz. exists ((if allb bs then z else 0) + t). split.
    + cbn [qsum]. rewrite T, inject_Z_plus. destruct (allb bs); [rewrite Hz|change (inject_Z 0) with 0%Q]; ring.
    + intros c B. rewrite encode_cons.
      assert (Y : (if allb bs then qround (k / pw (expo out)) else 0) = (if allb bs then z else 0)).
      { destruct (allb bs); [|reflexivity]. rewrite (qround_eq _ (inject_Z z)) by (apply div_pw, Hz). apply qround_Z. }
      rewrite Y. rewrite E by (apply Z.mod_pos_bound, P). rewrite Zplus_mod_idemp_l. f_equal. lia.
Qed.
Lemma qsum_app : forall a b, (qsum (a ++ b) == qsum a + qsum b)%Q.
Proof. induction a as [|[k bs] a IH]; intros b; cbn [app qsum]; [ring|]. rewrite IH. ring. Qed.
Lemma qsum_scale : forall x a, (qsum (map (fun '(k, bs) => ((x * k)%Q, bs)) a) == x * qsum a)%Q.
Proof. intros x a; induction a as [|[k bs] a IH]; cbn [map qsum]; [ring|]. rewrite IH. destruct (allb bs); ring. Qed.
Lemma qsum_neg : forall a, (qsum (map (fun '(k, bs) => ((- k)%Q, bs)) a) == - qsum a)%Q.
Proof. intros a; induction a as [|[k bs] a IH]; cbn [map qsum]; [ring|]. rewrite IH. destruct (allb bs); ring. Qed.
Lemma allb_app : forall a b, allb (a ++ b) = allb a && allb b.
Proof. intros. unfold allb. apply forallb_app. Qed.
Lemma qsum_mul : forall a b, (qsum (flat_map (fun '(k, bs) => map (fun '(l, cs) => ((k * l)%Q, bs ++ cs)) b) a) == qsum a * qsum b)%Q.
Proof.
  intros a b; induction a as [|[k bs] a IH]; cbn [flat_map qsum]; [ring|]. rewrite qsum_app, IH.
  assert (X : (qsum (map (fun '(l, cs) => ((k * l)%Q, bs ++ cs)) b) == (if allb bs then k else 0) * qsum b)%Q).
  { clear IH. induction b as [|[l cs] b IHb]; cbn [map qsum]; [ring|]. rewrite IHb, allb_app. destruct (allb bs), (allb cs); cbn [andb]; ring. }
  rewrite X. ring.
Qed.

(** * the semi-boolean polynomial of a register *)
Fixpoint dotz (ws : list Z) (bs : list bool) : Z := match ws, bs with w :: ws, b :: bs => (if b then w else 0) + dotz ws bs | _, _ => 0 end.
Lemma qsum_poly : forall e ws bs, (qsum (map (fun '(w, b) => ((inject_Z w * pw e)%Q, [b])) (combine ws bs)) == inject_Z (dotz ws bs) * pw e)%Q.
Proof.
  intros e ws; induction ws as [|w ws IH]; intros [|b bs]; cbn [combine map qsum dotz]; try (change (inject_Z 0) with 0%Q; ring).
  rewrite IH, inject_Z_plus. cbn [allb forallb]. destruct b; cbn [andb]; [|change (inject_Z 0) with 0%Q]; ring.
Qed.
Lemma integral_poly : forall e d ws bs, d <= e -> Forall (integral d) (map (fun '(w, b) => ((inject_Z w * pw e)%Q, [b])) (combine ws bs)).
Proof.
  intros e d ws bs H. apply Forall_forall. intros m I. apply in_map_iff in I as ([w b] & <- & _). exists (w * 2 ^ (e - d)). cbn [fst]. apply scale, H.
Qed.
(** value of the bits of a number *)
Lemma bits_val : forall n c s, 0 <= c -> dotz (map (fun i => 2 ^ Z.of_nat i) (seq s n)) (map (fun i => Z.testbit c (Z.of_nat i)) (seq s n)) = (c / 2 ^ Z.of_nat s) mod 2 ^ Z.of_nat n * 2 ^ Z.of_nat s.
Proof.
  induction n as [|n IH]; intros c s C; cbn [seq map dotz]; [cbn; rewrite Z.mod_1_r; reflexivity|]. rewrite IH by exact C.
  pose proof (p2pos (Z.of_nat s) ltac:(lia)) as PS. pose proof (p2pos (Z.of_nat n) ltac:(lia)) as PN.
  assert (E1 : c / 2 ^ Z.of_nat (S s) = c / 2 ^ Z.of_nat s / 2) by (rewrite Nat2Z.inj_succ, Z.pow_succ_r, Z.mul_comm, Z.div_div by lia; reflexivity).
  rewrite E1. set (d := c / 2 ^ Z.of_nat s). replace (2 ^ Z.of_nat (S n)) with (2 * 2 ^ Z.of_nat n) by (rewrite Nat2Z.inj_succ, Z.pow_succ_r by lia; reflexivity).
  rewrite (Z.rem_mul_r d 2) by lia. replace (2 ^ Z.of_nat (S s)) with (2 * 2 ^ Z.of_nat s) by (rewrite Nat2Z.inj_succ, Z.pow_succ_r by lia; reflexivity).
  assert (T : (if Z.testbit c (Z.of_nat s) then 2 ^ Z.of_nat s else 0) = (d mod 2) * 2 ^ Z.of_nat s).
  { rewrite <- Z.bit0_mod. unfold d. rewrite <- Z.shiftr_div_pow2, Z.shiftr_spec, Z.add_0_l by lia. destruct (Z.testbit c (Z.of_nat s)); cbn [Z.b2z]; lia. }
  rewrite T. ring.
Qed.
Lemma dotz_extra : forall (g : nat -> Z) x n bs, dotz (map (fun i => g i + (if (S i =? n)%nat then x else 0)) (seq 0 n)) (map bs (seq 0 n)) =
  dotz (map g (seq 0 n)) (map bs (seq 0 n)) + (if (0 <? n)%nat && bs (n - 1)%nat then x else 0).
Proof.
  intros g x n bs. assert (G : forall l, dotz (map (fun i => g i + (if (S i =? n)%nat then x else 0)) l) (map bs l) =
    dotz (map g l) (map bs l) + dotz (map (fun i => if (S i =? n)%nat then x else 0) l) (map bs l)).
  { induction l as [|i l IH]; cbn [map dotz]; [reflexivity|]. rewrite IH. destruct (bs i); lia. }
  rewrite G. f_equal. destruct n as [|n]; [reflexivity|]. cbn [Nat.ltb Nat.leb andb]. replace (S n - 1)%nat with n by lia.
  rewrite seq_S, !map_app. cbn [map Nat.add].
  assert (Z0 : forall l m, (forall i, In i l -> (i < n)%nat) -> dotz (map (fun i => if (S i =? S n)%nat then x else 0) l ++ m) (map bs l ++ [bs n]) = dotz m [bs n]).
  { induction l as [|i l IH]; intros m H; cbn [map app dotz]; [reflexivity|]. rewrite IH by (intros; apply H; cbn; auto). assert (i < n)%nat by (apply H; cbn; auto). destruct (Nat.eqb_spec (S i) (S n)); [lia|]. destruct (bs i); lia. }
  rewrite Z0 by (intros i I; apply in_seq in I; lia). cbn [dotz]. rewrite Nat.eqb_refl. destruct (bs n); lia.
Qed.
Lemma sb_value : forall f m c, basis f c -> exists t, dotz (sb_poly f m) (bits f c) = mantissa f c + t * 2 ^ (Z.of_nat (match m with 0%nat => size f | _ => m end) + 1).
Proof.
  intros f m c B. unfold sb_poly, bits. set (m' := match m with 0%nat => size f | _ => m end). pose proof B as B'. unfold basis in B.
  assert (V : dotz (map (fun i => 2 ^ Z.of_nat i) (seq 0 (size f))) (map (fun i => Z.testbit c (Z.of_nat i)) (seq 0 (size f))) = c).
  { rewrite bits_val by lia. cbn [Z.of_nat]. rewrite Z.pow_0_r, Z.div_1_r, Z.mul_1_r. apply Z.mod_small, B. }
  destruct (signed f) eqn:S.
  - cbn [andb]. rewrite dotz_extra, V. pose proof (size_signed f S) as E. assert (0 <? size f = true)%nat as -> by (apply Nat.ltb_lt; lia). cbn [andb].
    assert (T : Z.testbit c (Z.of_nat (size f - 1)) = negb (c <? 2 ^ Z.of_nat (msize f))).
    { replace (size f - 1)%nat with (msize f) by lia. rewrite E in B. pose proof (land_pow c (Z.of_nat (msize f)) ltac:(lia) B) as X. rewrite <- X.
      destruct (Z.testbit c (Z.of_nat (msize f))) eqn:TB.
      - destruct (Z.eqb_spec (Z.land c (2 ^ Z.of_nat (msize f))) 0) as [Y|]; [|reflexivity].
        assert (TT : Z.testbit (Z.land c (2 ^ Z.of_nat (msize f))) (Z.of_nat (msize f)) = false) by (rewrite Y; apply Z.bits_0). rewrite Z.land_spec, TB, Z.pow2_bits_true in TT by lia. discriminate.
      - replace (Z.land c (2 ^ Z.of_nat (msize f))) with 0; [reflexivity|]. apply Z.bits_inj'. intros i I. rewrite Z.land_spec, Z.pow2_bits_eqb, Z.bits_0 by lia. destruct (Z.eqb_spec (Z.of_nat (msize f)) i) as [<-|]; [rewrite TB; reflexivity|rewrite andb_false_r; reflexivity]. }
    rewrite T. unfold mantissa. rewrite S. destruct (c <? 2 ^ Z.of_nat (msize f)); cbn [negb]; [exists 0; lia|exists 1; lia].
  - exists 0. unfold mantissa. rewrite S. cbn [andb].
    replace (map (fun i => 2 ^ Z.of_nat i + 0) (seq 0 (size f))) with (map (fun i => 2 ^ Z.of_nat i) (seq 0 (size f))) by (apply map_ext; intros; lia). rewrite V. lia.
Qed.
Lemma poly_value : forall f m c, basis f c -> exists t, (qsum (poly_of f m c) == inject_Z (mantissa f c + t * 2 ^ (Z.of_nat (match m with 0%nat => size f | _ => m end) + 1)) * pw (expo f))%Q.
Proof.
  intros f m c B. destruct (sb_value f m c B) as (t & T). exists t. rewrite <- T. unfold poly_of. apply qsum_poly.
Qed.
Lemma poly_integral : forall f m c d, d <= expo f -> Forall (integral d) (poly_of f m c).
Proof. intros. apply integral_poly. assumption. Qed.
Lemma code_congr : forall f k t, in_range f k -> (exists q, t = k + q * 2 ^ Z.of_nat (size f)) -> basis f (t mod 2 ^ Z.of_nat (size f)) /\ mantissa f (t mod 2 ^ Z.of_nat (size f)) = k.
Proof. intros f k t R (q & ->). rewrite Z_mod_plus_full. apply code_of, R. Qed.
(** the result of an encoding whose sum is, up to multiples of 2^size, a mantissa in range *)
Lemma encode_value : forall out ms k q, Forall (integral (expo out)) ms -> (qsum ms == inject_Z (k + q * 2 ^ Z.of_nat (size out)) * pw (expo out))%Q -> in_range out k ->
  basis out (encode_monomials out ms 0) /\ (value out (encode_monomials out ms 0) == inject_Z k * pw (expo out))%Q.
Proof.
  intros out ms k q F S R. destruct (encode_ok out ms F) as (t & T & E). rewrite E by (split; [lia|apply p2pos; lia]). rewrite Z.add_0_l.
  assert (t = k + q * 2 ^ Z.of_nat (size out)) as -> by (apply (mul_pw_inj _ _ (expo out)); rewrite <- T; exact S).
  destruct (code_congr out k (k + q * 2 ^ Z.of_nat (size out)) R (ex_intro _ q eq_refl)) as [B M]. split; [exact B|]. unfold value. rewrite M. reflexivity.
Qed.
Lemma pow_split : forall m f, (Z.of_nat (size f) <= Z.of_nat m + 1) -> exists q, 2 ^ (Z.of_nat m + 1) = q * 2 ^ Z.of_nat (size f).
Proof. intros m f H. exists (2 ^ (Z.of_nat m + 1 - Z.of_nat (size f))). rewrite <- Z.pow_add_r by lia. f_equal. lia. Qed.
Lemma size_le : forall f, Z.of_nat (size f) <= Z.of_nat (msize f) + 1.
Proof. intros f. unfold size. destruct (signed f); lia. Qed.

Lemma range_scale : forall f k d E, in_range f k -> 0 <= d -> Z.of_nat (msize f) + d <= E -> (if signed f then - 2 ^ E else 0) <= k * 2 ^ d <= 2 ^ E - 2 ^ d.
Proof.
  intros f k d E R D H. unfold in_range in R. pose proof (p2pos d D) as PD. assert (X : 2 ^ Z.of_nat (msize f) * 2 ^ d <= 2 ^ E) by (rewrite <- Z.pow_add_r by lia; apply Z.pow_le_mono_r; lia).
  pose proof (p2pos (Z.of_nat (msize f)) ltac:(lia)). destruct (signed f); nia.
Qed.
Lemma sbp_add_ok : forall a b ca cb same, basis a ca -> basis b cb -> let (out, c) := sbp Add same a b ca cb in
  basis out c /\ (value out c == value a ca + value b cb)%Q.
Proof.
  intros a b ca cb same Ba Bb. unfold sbp. set (out := out_shape Add same a b). set (e := Z.min (expo a) (expo b)).
  assert (Eo : expo out = e) by reflexivity. set (M := Z.max (expo a + Z.of_nat (msize a)) (expo b + Z.of_nat (msize b)) + 1 - e).
  assert (Mo : Z.of_nat (msize out) = M + 1) by (cbn [msize out out_shape]; subst out; cbn [out_shape msize]; fold e; unfold M; lia).
  assert (So : signed out = signed a || signed b) by reflexivity.
  destruct (poly_value a (msize out) ca Ba) as (ta & Ta). destruct (poly_value b (msize out) cb Bb) as (tb & Tb).
  replace (match msize out with 0%nat => size a | _ => msize out end) with (msize out) in Ta by (destruct (msize out); [lia|reflexivity]).
  replace (match msize out with 0%nat => size b | _ => msize out end) with (msize out) in Tb by (destruct (msize out); [lia|reflexivity]).
  destruct (pow_split (msize out) out (size_le out)) as (q & Q). rewrite Q in Ta, Tb.
  set (da := expo a - e). set (db := expo b - e). set (k := mantissa a ca * 2 ^ da + mantissa b cb * 2 ^ db).
  pose proof (range_scale a _ da (M - 1 + 1 - 1) (mantissa_range a ca Ba) ltac:(unfold da; lia) ltac:(unfold M, da; lia)) as Ra.
  pose proof (range_scale b _ db (M - 1 + 1 - 1) (mantissa_range b cb Bb) ltac:(unfold db; lia) ltac:(unfold M, db; lia)) as Rb.
  assert (M0 : 1 <= M) by (unfold M; lia).
  assert (R : in_range out k).
  { unfold in_range. rewrite So, Mo. replace (2 ^ (M + 1)) with (4 * 2 ^ (M - 1)) by (replace (M + 1) with (2 + (M - 1)) by lia; rewrite Z.pow_add_r by lia; reflexivity).
    replace (M - 1 + 1 - 1) with (M - 1) in Ra, Rb by lia. pose proof (p2pos (M - 1) ltac:(lia)). pose proof (p2pos da ltac:(unfold da; lia)). pose proof (p2pos db ltac:(unfold db; lia)). unfold k. destruct (signed a), (signed b); cbn [orb]; lia. }
  destruct (encode_value out (poly_of a (msize out) ca ++ poly_of b (msize out) cb) k (ta * q * 2 ^ da + tb * q * 2 ^ db)) as [B V].
  - apply Forall_app. split; apply poly_integral; rewrite Eo; unfold e; lia.
  - rewrite qsum_app, Ta, Tb, Eo. rewrite (scale _ (expo a) e), (scale _ (expo b) e) by (unfold e; lia). fold da db. rewrite <- Qmult_plus_distr_l, <- inject_Z_plus.
    apply Qmult_comp; [|reflexivity]. apply inject_Z_injective. unfold k. ring.
  - exact R.
  - split; [exact B|]. rewrite V, Eo. unfold value. rewrite (scale _ (expo a) e), (scale _ (expo b) e) by (unfold e; lia). fold da db. unfold k. rewrite inject_Z_plus. ring.
Qed.
Lemma integral_neg : forall d ms, Forall (integral d) ms -> Forall (integral d) (map (fun '(k, bs) => ((- k)%Q, bs)) ms).
Proof.
  intros d ms F. apply Forall_forall. intros m I. apply in_map_iff in I as ([k bs] & <- & I). rewrite Forall_forall in F. destruct (F _ I) as [z Hz]. exists (- z). cbn [fst] in *. rewrite Hz, inject_Z_opp. ring.
Qed.
Lemma sbp_sub_ok : forall a b ca cb same, basis a ca -> basis b cb -> let (out, c) := sbp Sub same a b ca cb in
  basis out c /\ (value out c == value a ca - value b cb)%Q.
Proof.
  intros a b ca cb same Ba Bb. unfold sbp. set (out := out_shape Sub same a b). set (e := Z.min (expo a) (expo b)).
  assert (Eo : expo out = e) by reflexivity. set (M := Z.max (expo a + Z.of_nat (msize a)) (expo b + Z.of_nat (msize b)) + 1 - e).
  assert (Mo : Z.of_nat (msize out) = M + 1) by (subst out; cbn [out_shape msize]; fold e; unfold M; lia).
  assert (So : signed out = true) by reflexivity.
  destruct (poly_value a (msize out) ca Ba) as (ta & Ta). destruct (poly_value b (msize out) cb Bb) as (tb & Tb).
  replace (match msize out with 0%nat => size a | _ => msize out end) with (msize out) in Ta by (destruct (msize out); [lia|reflexivity]).
  replace (match msize out with 0%nat => size b | _ => msize out end) with (msize out) in Tb by (destruct (msize out); [lia|reflexivity]).
  destruct (pow_split (msize out) out (size_le out)) as (q & Q). rewrite Q in Ta, Tb.
  set (da := expo a - e). set (db := expo b - e). set (k := mantissa a ca * 2 ^ da - mantissa b cb * 2 ^ db).
  assert (M0 : 1 <= M) by (unfold M; lia).
  pose proof (range_scale a _ da (M - 1) (mantissa_range a ca Ba) ltac:(unfold da; lia) ltac:(unfold M, da; lia)) as Ra.
  pose proof (range_scale b _ db (M - 1) (mantissa_range b cb Bb) ltac:(unfold db; lia) ltac:(unfold M, db; lia)) as Rb.
  assert (R : in_range out k).
  { unfold in_range. rewrite So, Mo. replace (2 ^ (M + 1)) with (4 * 2 ^ (M - 1)) by (replace (M + 1) with (2 + (M - 1)) by lia; rewrite Z.pow_add_r by lia; reflexivity).
    pose proof (p2pos (M - 1) ltac:(lia)). pose proof (p2pos da ltac:(unfold da; lia)). pose proof (p2pos db ltac:(unfold db; lia)). unfold k. destruct (signed a), (signed b); lia. }
  destruct (encode_value out (poly_of a (msize out) ca ++ map (fun '(k, bs) => ((- k)%Q, bs)) (poly_of b (msize out) cb)) k (ta * q * 2 ^ da - tb * q * 2 ^ db)) as [B V].
  - apply Forall_app. split; [|apply integral_neg]; apply poly_integral; rewrite Eo; unfold e; lia.
  - rewrite qsum_app, qsum_neg, Ta, Tb, Eo. rewrite (scale _ (expo a) e), (scale _ (expo b) e) by (unfold e; lia). fold da db.
    transitivity (inject_Z ((mantissa a ca + ta * (q * 2 ^ Z.of_nat (size out))) * 2 ^ da - (mantissa b cb + tb * (q * 2 ^ Z.of_nat (size out))) * 2 ^ db) * pw e)%Q.
    + unfold Z.sub at 1. rewrite inject_Z_plus, inject_Z_opp. ring.
    + apply Qmult_comp; [|reflexivity]. apply inject_Z_injective. unfold k. ring.
  - exact R.
  - split; [exact B|]. rewrite V, Eo. unfold value. rewrite (scale _ (expo a) e), (scale _ (expo b) e) by (unfold e; lia). fold da db. unfold k. unfold Z.sub at 1. rewrite inject_Z_plus, inject_Z_opp. ring.
Qed.
Lemma integral_mul : forall d d' a b, Forall (integral d) a -> Forall (integral d') b -> Forall (integral (d + d')) (flat_map (fun '(k, bs) => map (fun '(l, cs) => ((k * l)%Q, bs ++ cs)) b) a).
Proof.
  intros d d' a b F G. apply Forall_forall. intros m I. apply in_flat_map in I as ([k bs] & I & J). apply in_map_iff in J as ([l cs] & <- & J).
  rewrite Forall_forall in F, G. destruct (F _ I) as [x X], (G _ J) as [y Y]. cbn [fst] in *. exists (x * y). cbn [fst]. rewrite X, Y, inject_Z_mult, pw_add. ring.
Qed.
Lemma mul_range : forall a b x y, in_range a x -> in_range b y ->
  (if signed a || signed b then - 2 ^ Z.of_nat (msize a + msize b + (if signed a && signed b then 1 else 0)) else 0) <= x * y < 2 ^ Z.of_nat (msize a + msize b + (if signed a && signed b then 1 else 0)).
Proof.
  intros a b x y X Y. unfold in_range in *. pose proof (p2pos (Z.of_nat (msize a)) ltac:(lia)) as PA. pose proof (p2pos (Z.of_nat (msize b)) ltac:(lia)) as PB.
  rewrite !Nat2Z.inj_add, !Z.pow_add_r by lia. set (A := 2 ^ Z.of_nat (msize a)) in *. set (B := 2 ^ Z.of_nat (msize b)) in *. clearbody A B.
  destruct (signed a), (signed b); cbn [andb orb Z.of_nat]; rewrite ?Z.pow_0_r; change (2 ^ Z.of_nat 1) with 2; nia.
Qed.
Lemma sbp_mul_gen : forall a b ca cb same, basis a ca -> basis b cb -> (same && (signed a && signed b) = true -> 0 <= mantissa a ca * mantissa b cb) -> let (out, c) := sbp Mul same a b ca cb in
  basis out c /\ (value out c == value a ca * value b cb)%Q.
Proof.
  intros a b ca cb same Ba Bb Sq. unfold sbp. set (out := out_shape Mul same a b).
  assert (Eo : expo out = expo a + expo b) by reflexivity.
  assert (Mo : msize out = (msize a + msize b + (if signed a && signed b then 1 else 0))%nat) by reflexivity.
  destruct (poly_value a (msize out) ca Ba) as (ta & Ta). destruct (poly_value b (msize out) cb Bb) as (tb & Tb).
  set (ma := match msize out with 0%nat => size a | _ => msize out end) in Ta. set (mb := match msize out with 0%nat => size b | _ => msize out end) in Tb.
  assert (Sz : Z.of_nat (size out) <= Z.of_nat ma + 1 /\ Z.of_nat (size out) <= Z.of_nat mb + 1).
  { pose proof (size_le out) as X. unfold ma, mb. destruct (msize out); lia. }
  destruct (pow_split ma out (proj1 Sz)) as (qa & Qa). destruct (pow_split mb out (proj2 Sz)) as (qb & Qb). rewrite Qa in Ta. rewrite Qb in Tb.
  set (x := mantissa a ca) in *. set (y := mantissa b cb) in *. set (n := 2 ^ Z.of_nat (size out)) in *.
  pose proof (mul_range a b x y (mantissa_range a ca Ba) (mantissa_range b cb Bb)) as R0.
  assert (R : in_range out (x * y)).
  { unfold in_range. rewrite Mo. replace (signed out) with (if same && (signed a && signed b) then false else signed a || signed b) by reflexivity.
    destruct (same && (signed a && signed b)) eqn:E; [specialize (Sq eq_refl); lia|exact R0]. }
  destruct (encode_value out (flat_map (fun '(k, bs) => map (fun '(l, cs) => ((k * l)%Q, bs ++ cs)) (poly_of b (msize out) cb)) (poly_of a (msize out) ca)) (x * y) (x * tb * qb + ta * qa * y + ta * qa * tb * qb * n)) as [B V].
  - rewrite Eo. apply integral_mul; apply poly_integral; lia.
  - rewrite qsum_mul, Ta, Tb, Eo, pw_add. fold n. transitivity (inject_Z ((x + ta * (qa * n)) * (y + tb * (qb * n))) * (pw (expo a) * pw (expo b)))%Q; [rewrite inject_Z_mult; ring|].
    apply Qmult_comp; [|reflexivity]. apply inject_Z_injective. ring.
  - exact R.
  - split; [exact B|]. rewrite V, Eo, pw_add. unfold value. fold x y. rewrite inject_Z_mult. ring.
Qed.
Lemma sbp_mul_ok : forall a b ca cb, basis a ca -> basis b cb -> let (out, c) := sbp Mul false a b ca cb in basis out c /\ (value out c == value a ca * value b cb)%Q.
Proof. intros. apply sbp_mul_gen; auto. discriminate. Qed.
Lemma sbp_square_ok : forall a ca, basis a ca -> let (out, c) := sbp Mul true a a ca ca in basis out c /\ (value out c == value a ca * value a ca)%Q.
Proof. intros. apply sbp_mul_gen; auto. intros _. apply Z.square_nonneg. Qed.

(** * multiplication by an integer *)
Lemma odd_part_ok : forall fuel other s o t, odd_part fuel other s = Some (o, t) -> s <= t /\ other = o * 2 ^ (t - s) /\ Z.odd o = true.
Proof.
  induction fuel as [|fuel IH]; intros other s o t H; cbn [odd_part] in H; [discriminate|].
  destruct (Z.eqb_spec (other mod 2) 0) as [E|E].
  - apply IH in H as (L & Eq & O). split; [lia|]. split; [|exact O]. rewrite (Z.div_mod other 2), E, Eq by lia. replace (t - s) with (Z.succ (t - (s + 1))) by lia. rewrite Z.pow_succ_r by lia. ring.
  - injection H as <- <-. split; [lia|]. rewrite Z.sub_diag, Z.pow_0_r. split; [lia|]. rewrite Zmod_odd in E. destruct (Z.odd other); [reflexivity|contradiction].
Qed.
Lemma odd_part_fuel : forall fuel other s, other <> 0 -> Z.abs other < 2 ^ Z.of_nat fuel -> odd_part fuel other s <> None.
Proof.
  induction fuel as [|fuel IH]; intros other s N B; [cbn in B; lia|]. cbn [odd_part]. destruct (Z.eqb_spec (other mod 2) 0) as [E|E]; [|discriminate].
  assert (D : other = 2 * (other / 2)) by (rewrite (Z.div_mod other 2) at 1 by lia; lia). apply IH; [lia|].
  rewrite Nat2Z.inj_succ, Z.pow_succ_r in B by lia. lia.
Qed.
Lemma odd_part_zero : forall fuel s, odd_part fuel 0 s = None.
Proof. induction fuel as [|fuel IH]; intros s; [reflexivity|]. cbn. apply IH. Qed.
Lemma odd_lt_pow : forall o L, 0 < L -> Z.odd o = true -> Z.abs o <= 2 ^ L -> Z.abs o <= 2 ^ L - 1.
Proof.
  intros o L HL O H. assert (Z.abs o <> 2 ^ L); [|lia]. intros E. assert (X : Z.odd (Z.abs o) = true) by (destruct o; exact O).
  rewrite E in X. rewrite Z.odd_pow in X by lia. discriminate.
Qed.
Lemma mul_int_ok : forall fuel f other c out d, basis f c -> mul_int fuel f other c = Some (out, d) ->
  ~ (signed f = true /\ mantissa f c = - 2 ^ Z.of_nat (msize f) /\ exists s, 0 <= s /\ other = - 2 ^ s) ->
  basis out d /\ (value out d == inject_Z other * value f c)%Q.
Proof.
  intros fuel f other c out d Bc H Ex. unfold mul_int in H. destruct (odd_part fuel other 0) as [[o s]|] eqn:E; [|discriminate]. apply odd_part_ok in E as (S0 & Eo & Oo). rewrite Z.sub_0_r in Eo.
  injection H as <- <-. cbn [msize expo signed].
  set (L := Z.log2_up (Z.abs o)). set (g := mk (msize f + Z.to_nat L) (expo f) (signed f || (o <? 0))).
  assert (L0 : 0 <= L) by apply Z.log2_up_nonneg.
  assert (O0 : o <> 0) by (intros ->; discriminate).
  assert (OL : Z.abs o <= 2 ^ L) by (apply Z.log2_up_le_pow2; [lia|reflexivity]).
  set (x := mantissa f c) in *. pose proof (mantissa_range f c Bc) as Rx. fold x in Rx.
  assert (R : in_range g (o * x)).
  { unfold in_range. cbn [g signed msize]. rewrite Nat2Z.inj_add, Z2Nat.id, Z.pow_add_r by lia. unfold in_range in Rx. pose proof (p2pos (Z.of_nat (msize f)) ltac:(lia)) as PM. set (A := 2 ^ Z.of_nat (msize f)) in *.
    destruct (Z.eq_dec L 0) as [LZ|LN].
    - rewrite LZ, Z.pow_0_r in *. assert (o = 1 \/ o = -1) as [-> | ->] by lia.
      + cbn [Z.ltb Z.compare]. rewrite orb_false_r. destruct (signed f); lia.
      + cbn [Z.ltb Z.compare]. rewrite orb_true_r. destruct (signed f) eqn:Sf; [|lia].
        assert (x <> - A); [|lia]. intros Xm. apply Ex. split; [reflexivity|]. split; [exact Xm|]. exists s. split; [lia|]. rewrite Eo. lia.
    - pose proof (odd_lt_pow o L ltac:(lia) Oo OL) as OL'. pose proof (p2pos L L0) as PL. set (P := 2 ^ L) in *. clearbody A P. clear - OL' Rx PM PL O0.
      destruct (signed f); cbn [orb]; [|destruct (Z.ltb_spec o 0)]; try nia. }
  destruct (poly_value f (size g) c Bc) as (t & T). fold x in T.
  set (mg := match size g with 0%nat => size f | _ => size g end) in T.
  destruct (pow_split mg g) as (q & Q). { unfold mg. destruct (size g); lia. } rewrite Q in T.
  destruct (encode_value g (map (fun '(k, bs) => ((inject_Z o * k)%Q, bs)) (poly_of f (size g) c)) (o * x) (o * t * q)) as [B V].
  - apply Forall_forall. intros m I. apply in_map_iff in I as ([k bs] & <- & I). pose proof (poly_integral f (size g) c (expo f) ltac:(lia)) as F. rewrite Forall_forall in F. destruct (F _ I) as [z Hz]. exists (o * z). cbn [fst expo g] in *. cbn [fst]. rewrite Hz, inject_Z_mult. ring.
  - rewrite qsum_scale, T. cbn [expo g]. transitivity (inject_Z (o * (x + t * (q * 2 ^ Z.of_nat (size g)))) * pw (expo f))%Q; [rewrite inject_Z_mult; ring|]. apply Qmult_comp; [|reflexivity]. apply inject_Z_injective. ring.
  - exact R.
  - split; [exact B|]. unfold value in V |- *. change (expo g) with (expo f) in V.
    set (code := encode_monomials _ _ 0) in *. change (mantissa (mk (msize f + Z.to_nat L) (expo f + s) (signed f || (o <? 0))) code) with (mantissa g code). cbn [expo].
    rewrite pw_add, Qmult_assoc, V. fold x. rewrite Eo, !inject_Z_mult, (pw_Z s) by lia. ring.
Qed.
Lemma mul_int_total : forall f other c, other <> 0 -> exists fuel, forall fuel', (fuel <= fuel')%nat -> mul_int fuel' f other c <> None.
Proof.
  intros f other c N. exists (Z.to_nat (Z.abs other)). intros fuel' H. unfold mul_int.
  assert (X : odd_part fuel' other 0 <> None).
  { apply odd_part_fuel; [exact N|]. assert (Z.abs other <= Z.of_nat fuel') by lia. assert (Z.of_nat fuel' < 2 ^ Z.of_nat fuel') by (apply Z.pow_gt_lin_r; lia). lia. }
  destruct (odd_part fuel' other 0) as [[o s]|]; [discriminate|contradiction].
Qed.
Lemma add_num_ok : forall f x c, basis f c -> representable f (value f c + x) -> exists d, add_num f x c = Some (f, d) /\ basis f d /\ (value f d == value f c + x)%Q.
Proof.
  intros f x c B (k & R & V). assert (X : (x == inject_Z (k - mantissa f c) * pw (expo f))%Q).
  { unfold value in V. unfold Z.sub. rewrite inject_Z_plus, inject_Z_opp. setoid_replace x with ((inject_Z (mantissa f c) * pw (expo f) + x) - inject_Z (mantissa f c) * pw (expo f))%Q by ring. rewrite V. ring. }
  unfold add_num. rewrite (qtrunc_eq _ (inject_Z (k - mantissa f c))) by (apply div_pw, X). rewrite qtrunc_Z.
  replace (Qeq_bool (inject_Z (k - mantissa f c)) (x / pw (expo f))) with true by (symmetry; apply Qeq_bool_iff; symmetry; apply div_pw, X).
  eexists. split; [reflexivity|]. destruct (encode_ok f [(x, [])]) as (t & T & E); [constructor; [exists (k - mantissa f c); exact X|constructor]|].
  rewrite E by exact B. assert (t = k - mantissa f c) as ->. { apply (mul_pw_inj _ _ (expo f)). rewrite <- T, <- X. cbn [qsum allb forallb]. ring. }
  destruct (code_congr f k (c + (k - mantissa f c)) R) as [B' M'].
  { unfold mantissa. destruct (signed f); [|exists 0; lia]. destruct (c <? _); [exists 0; lia|exists 1; lia]. }
  split; [exact B'|]. rewrite V. unfold value. rewrite M'. reflexivity.
Qed.
Lemma add_num_grid : forall f x c, (forall k, ~ (x == inject_Z k * pw (expo f))%Q) -> add_num f x c = None.
Proof.
  intros f x c N. unfold add_num. destruct (Qeq_bool (inject_Z (qtrunc (x / pw (expo f)))) (x / pw (expo f))) eqn:E; [|reflexivity].
  apply Qeq_bool_iff in E. exfalso. apply (N (qtrunc (x / pw (expo f)))). rewrite E. field. apply pw_nz.
Qed.

(** * dot products *)
Definition dotq (a b : shape) (l : list (Z * Z)) : Q := fold_right (fun p acc => (value a (fst p) * value b (snd p) + acc)%Q) 0%Q l.
Definition dotm (a b : shape) (l : list (Z * Z)) : Z := fold_right (fun p acc => mantissa a (fst p) * mantissa b (snd p) + acc) 0 l.
Lemma dotq_m : forall a b l, (dotq a b l == inject_Z (dotm a b l) * pw (expo a + expo b))%Q.
Proof.
  intros a b l; induction l as [|p l IH]; cbn [dotq dotm fold_right]; [change (inject_Z 0) with 0%Q; ring|].
  fold (dotq a b l). fold (dotm a b l). rewrite IH. unfold value. rewrite inject_Z_plus, inject_Z_mult, pw_add. ring.
Qed.
Lemma dotm_range : forall a b l, signed a && signed b = false -> (forall p, In p l -> basis a (fst p) /\ basis b (snd p)) ->
  let P := 2 ^ Z.of_nat (msize a) * 2 ^ Z.of_nat (msize b) in
  (if signed a || signed b then - (Z.of_nat (length l) * P) else 0) <= dotm a b l <= Z.of_nat (length l) * (P - 1).
Proof.
  intros a b l S H P. induction l as [|p l IH]; cbn [dotm fold_right length]; [destruct (signed a || signed b); lia|]. fold (dotm a b l).
  specialize (IH (fun q I => H q (or_intror I))). destruct (H p (or_introl eq_refl)) as [Ba Bb].
  pose proof (mantissa_range a _ Ba) as Ra. pose proof (mantissa_range b _ Bb) as Rb. unfold in_range in *.
  pose proof (p2pos (Z.of_nat (msize a)) ltac:(lia)). pose proof (p2pos (Z.of_nat (msize b)) ltac:(lia)).
  rewrite Nat2Z.inj_succ. unfold P in *. clear P. set (A := 2 ^ Z.of_nat (msize a)) in *. set (B := 2 ^ Z.of_nat (msize b)) in *. set (x := mantissa a (fst p)) in *. set (y := mantissa b (snd p)) in *. clearbody A B x y.
  assert (X : (if signed a || signed b then - (A * B) else 0) <= x * y <= A * B - 1) by (destruct (signed a), (signed b); cbn [andb orb] in *; try discriminate; nia).
  destruct (signed a || signed b); lia.
Qed.
Lemma dot_ok : forall a b l, signed a && signed b = false -> l <> [] -> (forall p, In p l -> basis a (fst p) /\ basis b (snd p)) -> representable (dot_shape (length l) a b) (dotq a b l).
Proof.
  intros a b l S N H. exists (dotm a b l). split; [|apply dotq_m]. pose proof (dotm_range a b l S H) as R. cbn zeta in R.
  assert (N0 : 1 <= Z.of_nat (length l)) by (destruct l; [contradiction|cbn [length]; lia]).
  set (L := Z.log2_up (Z.of_nat (length l))). assert (L0 : 0 <= L) by apply Z.log2_up_nonneg.
  assert (NL : Z.of_nat (length l) <= 2 ^ L) by (apply Z.log2_up_le_pow2; [lia|reflexivity]).
  unfold in_range, dot_shape. cbn [msize signed]. fold L.
  rewrite Z2Nat.id by lia. replace (L + (expo a + Z.of_nat (msize a)) + (expo b + Z.of_nat (msize b)) - (expo a + expo b)) with (L + (Z.of_nat (msize a) + Z.of_nat (msize b))) by lia.
  rewrite !Z.pow_add_r by lia. pose proof (p2pos (Z.of_nat (msize a)) ltac:(lia)). pose proof (p2pos (Z.of_nat (msize b)) ltac:(lia)).
  assert (PP : 0 < 2 ^ Z.of_nat (msize a) * 2 ^ Z.of_nat (msize b)) by nia. set (P := 2 ^ Z.of_nat (msize a) * 2 ^ Z.of_nat (msize b)) in *. destruct (signed a || signed b); nia.
Qed.
