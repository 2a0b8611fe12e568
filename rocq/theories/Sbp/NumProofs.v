(** What the circuits add, as numbers. *)
From Coq Require Import List ZArith Bool Lia Arith QArith Qround.
Import ListNotations.
From Verif.Inverse Require Import InvModel InvSpec InvProofs.
From Verif.CtrlOps Require Import CtrlModel CtrlSpec CtrlProofs.
From Verif.QFloat Require Import QFModel QFSpec QFProofs SbpProofs.
From Verif.Fourier Require Import FourierModel FourierSpec RegProofs.
From Verif.Sbp Require Import SbpModel SbpSpec EncProofs.
Local Open Scope Z_scope.

Definition rd (x : list bool) (m : monomial) : Q * list bool := (fst m, read x (snd m)).
Lemma allb_read x qs : allb (read x qs) = forallb (getbit x) qs.
Proof. unfold allb, read. induction qs as [|q qs IH]; [reflexivity|]. cbn. rewrite IH. reflexivity. Qed.
Lemma addend_clean e x m a : getbit x a = false -> addend e x m a = (if allb (read x (snd m)) then qround (fst m / pw e) else 0).
Proof. intros H. unfold addend. rewrite H, allb_read. destruct (nodup Nat.eq_dec (snd m)) as [|? [|? ?]]; cbn [xorb]; destruct (forallb (getbit x) (snd m)); cbn [zb]; lia. Qed.
Lemma encode_addends out x ms : forall ancs c, (length ms <= length ancs)%nat -> (forall a, In a ancs -> getbit x a = false) ->
  (encode_monomials out (map (rd x) ms) c) mod 2 ^ Z.of_nat (size out) = (c + addends (expo out) x ms ancs) mod 2 ^ Z.of_nat (size out).
Proof.
  induction ms as [|m ms IH]; intros [|a ancs] c L H; cbn [length] in L; try lia; try (cbn; rewrite Z.add_0_r; reflexivity).
  cbn [map]. unfold rd at 1. rewrite encode_cons, (IH ancs) by (try lia; intros; apply H; right; assumption). unfold addends. cbn [combine fold_right].
  rewrite addend_clean by (apply H; left; reflexivity). rewrite Zplus_mod_idemp_l. f_equal. lia.
Qed.
Lemma combine_map {A B C} (f : B -> C) : forall (l : list A) l', combine l (map f l') = map (fun p => (fst p, f (snd p))) (combine l l').
Proof. induction l as [|a l IH]; intros [|b l']; try reflexivity. cbn. rewrite IH. reflexivity. Qed.
Lemma bits_read f x qs : length qs = size f -> bits f (value x qs) = read x qs.
Proof. intros H. unfold bits. rewrite <- H, <- (read_length x qs). apply bits_number. Qed.
Lemma register_poly_read f m x qs : length qs = size f -> map (rd x) (register_poly f m qs) = poly_of f m (value x qs).
Proof.
  intros H. unfold register_poly, poly_of. rewrite bits_read by exact H. unfold read. rewrite combine_map, !map_map. apply map_ext. intros [w q]. reflexivity.
Qed.
Lemma negate_read x ms : map (rd x) (negate_poly ms) = map (fun '(k, bs) => ((- k)%Q, bs)) (map (rd x) ms).
Proof. unfold negate_poly. rewrite !map_map. apply map_ext. intros [k qs]. reflexivity. Qed.
Lemma scale_read x k ms : map (rd x) (scale_poly k ms) = map (fun '(l, bs) => ((k * l)%Q, bs)) (map (rd x) ms).
Proof. unfold scale_poly. rewrite !map_map. apply map_ext. intros [l qs]. reflexivity. Qed.
Lemma times_read x a b : map (rd x) (times_poly a b) = flat_map (fun '(k, bs) => map (fun '(l, cs) => ((k * l)%Q, bs ++ cs)) (map (rd x) b)) (map (rd x) a).
Proof.
  unfold times_poly. induction a as [|[k qs] a IH]; [reflexivity|]. cbn [flat_map map]. etransitivity; [apply map_app|]. apply (f_equal2 (@app _)); [|exact IH]. unfold rd at 2. cbn [fst snd]. rewrite !map_map. apply map_ext. intros [l cs]. unfold rd, read. cbn [fst snd]. rewrite map_app. reflexivity.
Qed.
Lemma sbp_read o same a b x qa qb : length qa = size a -> length qb = size b ->
  snd (sbp o same a b (value x qa) (value x qb)) = encode_monomials (out_shape o same a b) (map (rd x) (sbp_monomials o a b qa qb (msize (out_shape o same a b)))) 0.
Proof.
  intros Ha Hb. unfold sbp, sbp_monomials. cbn [snd]. destruct o; rewrite ?map_app, ?negate_read, ?times_read, ?register_poly_read by assumption; reflexivity.
Qed.
Lemma poly_qubits f m qs t q : In t (register_poly f m qs) -> In q (snd t) -> In q qs.
Proof. unfold register_poly. intros I J. apply in_map_iff in I as ([w p] & <- & I). cbn in J. destruct J as [<-|[]]. exact (in_combine_r _ _ _ _ I). Qed.
Lemma negate_qubits ms t : In t (negate_poly ms) -> exists t', In t' ms /\ snd t' = snd t.
Proof. unfold negate_poly. intros I. apply in_map_iff in I as ([k qs] & <- & I). exists (k, qs). auto. Qed.
Lemma scale_qubits k ms t : In t (scale_poly k ms) -> exists t', In t' ms /\ snd t' = snd t.
Proof. unfold scale_poly. intros I. apply in_map_iff in I as ([l qs] & <- & I). exists (l, qs). auto. Qed.
Lemma sbp_qubits o a b qa qb m t q : In t (sbp_monomials o a b qa qb m) -> In q (snd t) -> In q (qa ++ qb).
Proof.
  intros I J. apply in_app_iff. destruct o; cbn in I.
  - apply in_app_iff in I as [I|I]; [left|right]; eapply poly_qubits; eassumption.
  - apply in_app_iff in I as [I|I]; [left; eapply poly_qubits; eassumption|right]. apply negate_qubits in I as (t' & I & E). rewrite <- E in J. eapply poly_qubits; eassumption.
  - unfold times_poly in I. apply in_flat_map in I as ([k bs] & I & I'). apply in_map_iff in I' as ([l cs] & <- & I'). cbn in J. apply in_app_iff in J as [J|J]; [left|right]; eapply poly_qubits; eauto.
Qed.
Lemma value_zero x qs : (forall q, In q qs -> getbit x q = false) -> value x qs = 0.
Proof. intros H. unfold value, read. induction qs as [|q qs IH]; [reflexivity|]. cbn [map number]. rewrite H, IH by (try (intros; apply H); cbn; auto). reflexivity. Qed.
Lemma store_congr x qs z z' : z mod 2 ^ Z.of_nat (length qs) = z' mod 2 ^ Z.of_nat (length qs) -> store x qs z = store x qs z'.
Proof. intros H. unfold store. rewrite <- bits_mod, H, bits_mod. reflexivity. Qed.
Lemma value_store x qs z : register qs x -> value (store x qs z) qs = z mod 2 ^ Z.of_nat (length qs).
Proof. intros H. unfold value, store. rewrite read_write by (auto; apply bits_of_length). apply number_bits. Qed.
Lemma value_basis f x qs : length qs = size f -> basis f (value x qs).
Proof. intros H. unfold basis, value. rewrite <- H, <- (read_length x qs). apply number_range. Qed.
(** on-grid polynomials *)
Lemma addends_grid e x ms : forall ancs z, (length ms <= length ancs)%nat -> (forall a, In a ancs -> getbit x a = false) -> (forall t, In t ms -> exists k, (fst t == inject_Z k * pw e)%Q) ->
  (polynomial x ms == inject_Z z * pw e)%Q -> addends e x ms ancs = z.
Proof.
  intros ancs z L H G E. apply (mul_pw_inj _ _ e). rewrite <- E. clear E. revert ancs L H. induction ms as [|m ms IH]; intros [|a ancs] L H; cbn [length] in L; try lia; try reflexivity.
  destruct m as [k qs]. change (addends e x ((k, qs) :: ms) (a :: ancs)) with (addend e x (k, qs) a + addends e x ms ancs). rewrite addend_clean by (apply H; left; reflexivity). cbn [fst snd]. rewrite allb_read, inject_Z_plus, Qmult_plus_distr_l.
  rewrite IH by (try lia; intros; try apply H; try apply G; right; assumption). change (polynomial x ((k, qs) :: ms)) with ((if forallb (getbit x) qs then k else 0) + polynomial x ms)%Q. apply Qplus_comp; [|reflexivity].
  destruct (forallb (getbit x) qs); [|reflexivity]. destruct (G (k, qs)) as [z0 Hz]; [left; reflexivity|]. cbn [fst] in Hz. rewrite (qround_eq _ (inject_Z z0)) by (apply div_pw, Hz). rewrite qround_Z, Hz. reflexivity.
Qed.
(** in-place addition of a register *)
Lemma inplace_value (neg : bool) f g c cg : basis f c -> basis g cg -> expo f <= expo g ->
  let v := (if neg then - QFSpec.value g cg else QFSpec.value g cg)%Q in representable f (QFSpec.value f c + v) ->
  let d := encode_monomials f (let p := poly_of g (size f) cg in if neg then map (fun '(k, bs) => ((- k)%Q, bs)) p else p) c in
  basis f d /\ (QFSpec.value f d == QFSpec.value f c + v)%Q.
Proof.
  intros B Bg E v (k & R & V) d. destruct (poly_value g (size f) cg Bg) as (t & T). set (m' := match size f with 0%nat => size g | _ => size f end) in T.
  assert (PS : exists q, 2 ^ (Z.of_nat m' + 1) = q * 2 ^ Z.of_nat (size f)).
  { apply pow_split. unfold m'. destruct (size f); lia. }
  destruct PS as [q Q]. set (s := if neg then -1 else 1).
  assert (P : (pw (expo g) == inject_Z (2 ^ (expo g - expo f)) * pw (expo f))%Q).
  { rewrite <- pw_Z by lia. rewrite <- pw_add. replace (expo g - expo f + expo f) with (expo g) by lia. reflexivity. }
  set (ms := let p := poly_of g (size f) cg in if neg then map (fun '(k, bs) => ((- k)%Q, bs)) p else p) in d.
  assert (F : Forall (integral (expo f)) ms).
  { pose proof (poly_integral g (size f) cg (expo f) E) as F. unfold ms. destruct neg; [apply integral_neg|]; exact F. }
  assert (S : (SbpProofs.qsum ms == v + inject_Z (s * t * q * 2 ^ (expo g - expo f) * 2 ^ Z.of_nat (size f)) * pw (expo f))%Q).
  { assert (X : (SbpProofs.qsum (poly_of g (size f) cg) == QFSpec.value g cg + inject_Z (t * q * 2 ^ (expo g - expo f) * 2 ^ Z.of_nat (size f)) * pw (expo f))%Q).
    { rewrite T, Q. unfold QFSpec.value. rewrite inject_Z_plus, P. rewrite !inject_Z_mult. ring. }
    unfold ms, v, s. destruct neg; cbv zeta; [rewrite SbpProofs.qsum_neg|]; rewrite X; rewrite !inject_Z_mult; cbn [inject_Z]; ring. }
  destruct (encode_ok f ms F) as (u & U & EN). unfold d. rewrite EN by exact B.
  destruct (code_congr f k (c + u) R) as [B' M'].
  { assert (W : u = k - mantissa f c + s * t * q * 2 ^ (expo g - expo f) * 2 ^ Z.of_nat (size f)).
    { apply (mul_pw_inj _ _ (expo f)). rewrite <- U, S. unfold Z.sub. rewrite !inject_Z_plus, inject_Z_opp. unfold QFSpec.value in V.
      setoid_replace v with ((inject_Z (mantissa f c) * pw (expo f) + v) - inject_Z (mantissa f c) * pw (expo f))%Q by ring. rewrite V. ring. }
    subst u. set (y := s * t * q * 2 ^ (expo g - expo f)). unfold mantissa. destruct (signed f); [destruct (c <? _)|]; [exists y|exists (1 + y)|exists y]; ring. }
  split; [exact B'|]. rewrite V. unfold QFSpec.value at 1. rewrite M'. reflexivity.
Qed.
(** finer unsigned registers: the fraction is dropped *)
Lemma qround_shift i d : 0 <= i -> 0 < d -> qround (pw (i - d)) = 2 ^ i / 2 ^ d.
Proof.
  intros I D. destruct (Z_le_gt_dec d i) as [L|L].
  - rewrite (qround_eq _ (inject_Z (2 ^ (i - d)))) by (apply pw_Z; lia). rewrite qround_Z. rewrite <- (Z.pow_sub_r 2 i d) by lia. reflexivity.
  - rewrite Z.div_small by (split; [apply Z.pow_nonneg; lia|apply Z.pow_lt_mono_r; lia]).
    assert (H : (0 < pw (i - d) <= 1 # 2)%Q).
    { split; [apply pw_pos|]. assert (E : (pw (i - d) * inject_Z (2 ^ (d - i)) == 1)%Q) by (rewrite <- pw_Z by lia; rewrite <- pw_add; replace (i - d + (d - i)) with 0 by lia; reflexivity).
      assert (G : (2 <= inject_Z (2 ^ (d - i)))%Q). { change 2%Q with (inject_Z 2). rewrite <- Zle_Qle. change 2 with (2 ^ 1) at 1. apply Z.pow_le_mono_r; lia. }
      pose proof (pw_pos (i - d)) as P. assert (X : (pw (i - d) * 2 <= 1)%Q) by (rewrite <- E; apply Qmult_le_l; assumption).
      apply (Qmult_le_r _ _ 2); [reflexivity|]. apply (Qle_trans _ 1); [exact X|discriminate]. }
    unfold qround. assert (F : Qfloor (pw (i - d)) = 0). { apply Z.le_antisymm.
      - assert (Qfloor (pw (i - d)) <= Qfloor (1 # 2)) by (apply Qfloor_resp_le, H). exact H0.
      - assert (Qfloor 0 <= Qfloor (pw (i - d))) by (apply Qfloor_resp_le, Qlt_le_weak, H). exact H0. }
    rewrite F. assert (E : (pw (i - d) - inject_Z 0 == pw (i - d))%Q) by (cbn; ring). rewrite E. destruct (Qcompare_spec (pw (i - d)) (1 # 2)) as [C|C|C]; try reflexivity.
    exfalso. apply (Qlt_not_le _ _ C), H.
Qed.
Lemma floor_sum d : 0 < d -> forall bs s, 0 <= s -> fold_right Z.add 0 (map (fun '(w, b) => if b : bool then 2 ^ w / 2 ^ d else 0) (combine (map (fun i => s + Z.of_nat i) (seq 0 (length bs))) bs)) = (2 ^ s * number bs) / 2 ^ d.
Proof.
  intros D. pose proof (p2pos d ltac:(lia)) as PD. induction bs as [|b bs IH]; intros s S; [cbn [length seq map combine fold_right number]; rewrite Z.mul_0_r; symmetry; apply Z.div_0_l; lia|].
  cbn [length seq map combine fold_right number]. rewrite <- seq_shift, map_map. rewrite (map_ext (fun i => s + Z.of_nat (Datatypes.S i)) (fun i => (s + 1) + Z.of_nat i)) by (intros; lia). rewrite IH by lia. rewrite Z.add_0_r.
  pose proof (p2pos s S) as PS. pose proof (number_range bs) as NB.
  replace (2 ^ s * ((if b then 1 else 0) + 2 * number bs)) with ((if b then 2 ^ s else 0) + 2 ^ (s + 1) * number bs) by (rewrite Z.pow_add_r by lia; change (2 ^ 1) with 2; destruct b; ring).
  destruct (Z_le_gt_dec d s) as [L|L].
  - assert (E : 2 ^ s = 2 ^ (s - d) * 2 ^ d) by (rewrite <- Z.pow_add_r by lia; f_equal; lia). destruct b; [|reflexivity]. rewrite E, Z.div_mul, Z.div_add_l by lia. reflexivity.
  - assert (E : 2 ^ d = 2 ^ (s + 1) * 2 ^ (d - (s + 1))) by (rewrite <- Z.pow_add_r by lia; f_equal; lia).
    assert (P1 : 0 < 2 ^ (s + 1)) by (apply p2pos; lia). assert (P2 : 0 < 2 ^ (d - (s + 1))) by (apply p2pos; lia).
    assert (X : 2 ^ s < 2 ^ (s + 1)) by (apply Z.pow_lt_mono_r; lia).
    replace (if b then 2 ^ s / 2 ^ d else 0) with 0 by (destruct b; [symmetry; apply Z.div_small; split; [lia|apply Z.pow_lt_mono_r; lia]|reflexivity]). rewrite Z.add_0_l, E, <- !Z.div_div by lia. f_equal.
    rewrite (Z.mul_comm (2 ^ (s + 1))), Z.div_mul, Z.div_add by lia. rewrite Z.div_small; [lia|destruct b; lia].
Qed.
Lemma addends_sum e x ms : forall ancs, (length ms <= length ancs)%nat -> (forall a, In a ancs -> getbit x a = false) ->
  addends e x ms ancs = fold_right Z.add 0 (map (fun m => if forallb (getbit x) (snd m) then qround (fst m / pw e) else 0) ms).
Proof.
  induction ms as [|m ms IH]; intros [|a ancs] L H; cbn [length] in L; try lia; try reflexivity.
  change (addends e x (m :: ms) (a :: ancs)) with (addend e x m a + addends e x ms ancs). rewrite addend_clean by (apply H; left; reflexivity). rewrite allb_read, IH by (try lia; intros; apply H; right; assumption). reflexivity.
Qed.
Lemma addends_finer f g x qs ancs m : length qs = size g -> signed g = false -> expo g < expo f -> (length qs <= length ancs)%nat -> (forall a, In a ancs -> getbit x a = false) ->
  addends (expo f) x (register_poly g m qs) ancs = Qfloor (holds g x qs / pw (expo f)).
Proof.
  intros Lq S E L H. rewrite addends_sum; [|unfold register_poly; rewrite map_length, combine_length; lia|exact H].
  unfold holds, QFSpec.value, mantissa. rewrite S. set (d := expo f - expo g).
  assert (PD : forall z, (inject_Z z * pw (expo g) / pw (expo f) == inject_Z z / inject_Z (2 ^ d))%Q).
  { intros z. assert (X : (pw (expo f) == inject_Z (2 ^ d) * pw (expo g))%Q) by (rewrite <- pw_Z by (unfold d; lia); rewrite <- pw_add; unfold d; replace (expo f - expo g + expo g) with (expo f) by lia; reflexivity).
    rewrite X. field. split; [|apply pw_nz]. intros Y. assert (0 < 2 ^ d) by (apply p2pos; unfold d; lia). change 0%Q with (inject_Z 0) in Y. apply inj_eq in Y. lia. }
  assert (FD : Qfloor (inject_Z (value x qs) * pw (expo g) / pw (expo f)) = value x qs / 2 ^ d).
  { rewrite (Qfloor_comp _ _ (PD _)). assert (P : 0 < 2 ^ d) by (apply p2pos; unfold d; lia). destruct (2 ^ d) as [|p|p] eqn:Ep; try lia. unfold Qfloor, Qdiv, Qinv, inject_Z, Qmult. cbn. rewrite Z.mul_1_r. reflexivity. }
  rewrite FD. transitivity ((2 ^ 0 * number (read x qs)) / 2 ^ d); [|unfold value; rewrite Z.pow_0_r, Z.mul_1_l; reflexivity]. rewrite <- (floor_sum d) by (unfold d; lia). rewrite read_length.
  unfold register_poly, sb_poly. rewrite S. cbn [andb]. rewrite Lq. f_equal. unfold read. rewrite combine_map, !map_map.
  rewrite <- (map_map (fun i => 0 + Z.of_nat i) (fun w => w) (seq 0 (size g))), map_id.
  replace (map (fun i => 2 ^ Z.of_nat i + 0) (seq 0 (size g))) with (map (fun w => 2 ^ w) (map (fun i => 0 + Z.of_nat i) (seq 0 (size g)))) by (rewrite map_map; apply map_ext; intros; rewrite Z.add_0_l; lia).
  assert (NN : forall w, In w (map (fun i => 0 + Z.of_nat i) (seq 0 (size g))) -> 0 <= w) by (intros w I; apply in_map_iff in I as (i & <- & _); lia).
  clear - NN PD E. generalize dependent (map (fun i => 0 + Z.of_nat i) (seq 0 (size g))). intros l. clear - PD E. revert qs. induction l as [|w l IH]; intros [|q qs] NN; try reflexivity. cbn [map combine fst snd forallb]. f_equal; [|apply IH; intros; apply NN; right; assumption].
  destruct (getbit x q); [|reflexivity]. cbn [andb]. pose proof (NN w (or_introl eq_refl)). destruct (Z_lt_le_dec 0 d) as [D|D].
  - rewrite <- qround_shift by lia. apply qround_eq. rewrite PD. unfold Z.sub. rewrite pw_add, pw_Z by lia. unfold Qdiv. apply Qmult_comp; [reflexivity|].
    assert (Y : (pw (- d) * inject_Z (2 ^ d) == 1)%Q) by (rewrite <- pw_Z by lia; rewrite <- pw_add, Z.add_opp_diag_l; reflexivity).
    assert (Z0 : ~ (inject_Z (2 ^ d) == 0)%Q) by (intros W; rewrite W, Qmult_0_r in Y; discriminate).
    transitivity (pw (- d) * inject_Z (2 ^ d) * / inject_Z (2 ^ d))%Q; [rewrite Y; ring|]. field. exact Z0.
  - exfalso. unfold d in D. lia.
Qed.
