(** Knuth's algorithm D: trial quotient, multiply-and-subtract, add-back. *)
From Verif.Lib Require Import Arr.
From Verif.BigInt Require Import BigIntSpec BigIntModel BigIntLemmas BigIntArith BigIntBits BigIntDiv.
Local Open Scope Z_scope.

(** ** Knuth's algorithm D *)

(** The trial quotient computed with unbounded integers (what lines 1217-1239 intend). *)
Definition trial_ideal (u2 u1 u0 den vm2 : Z) : Z :=
  let num := u2 * BASE + u1 in
  let qhat := Z.min (num / den) (BASE - 1) in
  let cond1 := (qhat =? BASE - 1) && (qhat * vm2 >? (num - qhat * den) * BASE + u0) in
  let qhat' := if cond1 then qhat - 1 else qhat in
  let cond2 := qhat' * vm2 >? (num - qhat' * den) * BASE + u0 in
  if cond2 then qhat' - 1 else qhat'.

(** no 64-bit wrap when the estimate is below 2^32 - 1 *)
Lemma trial_unsaturated u2 u1 u0 den vm2 :
  0 <= u2 < BASE -> 0 <= u1 < BASE -> 0 <= u0 < BASE -> 0 < den < BASE -> 0 <= vm2 < BASE ->
  (u2 * BASE + u1) / den < BASE - 1 ->
  trial_quotient u2 u1 u0 den vm2 = trial_ideal u2 u1 u0 den vm2.
Proof.
  intros H2 H1 H0 Hd Hv Hs. unfold trial_quotient, trial_ideal. rewrite pow32, !shiftl32.
  rewrite (w64_small (u2 * BASE)) by (rewrite BASE_val in *; lia).
  rewrite (w64_small (u2 * BASE + u1)) by (rewrite BASE_val in *; lia).
  set (num := u2 * BASE + u1) in *.
  assert (Hq0 : 0 <= num / den) by (apply Z.div_pos; unfold num; rewrite ?BASE_val in *; lia).
  rewrite Z.min_l by lia. set (qh := num / den) in *.
  pose proof (Z.div_mod num den ltac:(lia)) as E. pose proof (Z.mod_pos_bound num den ltac:(lia)) as Hm.
  fold qh in E. assert (Er : num - qh * den = num mod den) by lia.
  assert (Hqd : 0 <= qh * den < BASE * BASE) by (unfold num in *; rewrite BASE_val in *; nia).
  rewrite (w64_small (qh * den)) by exact Hqd.
  rewrite !Er. rewrite (w64_small (num mod den)) by (rewrite BASE_val in *; lia).
  replace (qh =? BASE - 1) with false by lia. cbn [andb]. rewrite Er.
  rewrite (w64_small (qh * vm2)) by (rewrite BASE_val in *; nia).
  rewrite (w64_small (num mod den * BASE)) by (rewrite BASE_val in *; lia).
  rewrite (w64_small (num mod den * BASE + u0)) by (rewrite BASE_val in *; lia).
  destruct (Z.gtb_spec (qh * vm2) (num mod den * BASE + u0)); [|reflexivity].
  apply w64_small. assert (0 < qh) by (pose proof BASE_pos; nia). rewrite BASE_val in *; lia.
Qed.

Lemma est_aux qh w X : qh * w <= X -> qh - 1 <= w -> (qh - 1) * (w + 1) <= X.
Proof. intros. lia. Qed.

(** The estimate lemma: U is the window (m+1 limbs), V the normalised divisor. *)
Section Estimate.
  Variables (U V lu lv u2 u1 u0 den vm2 P q : Z).
  Hypothesis HP : 0 < P.
  Hypothesis HU : U = ((u2 * BASE + u1) * BASE + u0) * P + lu.
  Hypothesis Hlu : 0 <= lu < P.
  Hypothesis HV : V = (den * BASE + vm2) * P + lv.
  Hypothesis Hlv : 0 <= lv < P.
  Hypothesis H2 : 0 <= u2 < BASE.
  Hypothesis H1 : 0 <= u1 < BASE.
  Hypothesis H0 : 0 <= u0 < BASE.
  Hypothesis Hden : BASE <= 2 * den.
  Hypothesis Hdenb : den < BASE.
  Hypothesis Hvm2 : 0 <= vm2 < BASE.
  Hypothesis Hq : q * V <= U < (q + 1) * V.
  Hypothesis Hqr : 0 <= q < BASE.

  Let num := u2 * BASE + u1.

  Lemma est_low : q * den <= num.
  Proof.
    unfold num. pose proof BASE_pos.
    assert (A : q * (den * BASE * P) <= U) by nia.
    assert (B : U < (u2 * BASE + u1 + 1) * (BASE * P)) by nia.
    assert (C : (q * den) * (BASE * P) < (u2 * BASE + u1 + 1) * (BASE * P)) by nia.
    apply Z.mul_lt_mono_pos_r in C; nia.
  Qed.

  Lemma est_true qh : 0 <= qh -> qh * vm2 > (num - qh * den) * BASE + u0 -> q <= qh -> q <= qh - 1.
  Proof.
    intros Hqh T Hle. destruct (Z.eq_dec q qh) as [->|]; [exfalso|lia].
    unfold num in T. assert (A : qh * ((den * BASE + vm2) * P) <= U) by nia.
    assert (B : U < ((u2 * BASE + u1) * BASE + u0 + 1) * P) by nia.
    assert (C : (qh * (den * BASE + vm2)) * P < ((u2 * BASE + u1) * BASE + u0 + 1) * P) by nia.
    apply Z.mul_lt_mono_pos_r in C; nia.
  Qed.

  Lemma est_false qh : 0 <= qh <= BASE - 1 -> qh * vm2 <= (num - qh * den) * BASE + u0 -> qh <= q + 1.
  Proof.
    intros Hqh T. unfold num in T.
    assert (A : qh * (den * BASE + vm2) <= (u2 * BASE + u1) * BASE + u0) by nia.
    destruct (Z.le_gt_cases qh (q + 1)); [assumption|exfalso].
    assert (B : U < (qh - 1) * V) by (assert (0 < V) by (rewrite HV; rewrite BASE_val in *; nia); nia).
    assert (C : (qh - 1) * V <= (qh - 1) * ((den * BASE + vm2 + 1) * P)) by (rewrite HV; nia).
    assert (D : (qh - 1) * (den * BASE + vm2 + 1) <= (u2 * BASE + u1) * BASE + u0) by (apply est_aux; [exact A|rewrite BASE_val in *; lia]).
    nia.
  Qed.

  Lemma est_two qh : 0 <= qh <= BASE - 1 -> qh * den <= num -> qh <= q + 2.
  Proof.
    intros Hqh T. unfold num in T.
    destruct (Z.le_gt_cases qh (q + 2)); [assumption|exfalso].
    assert (0 < V) by (rewrite HV; rewrite BASE_val in *; nia).
    assert (B : U < (qh - 2) * V) by nia.
    assert (C : V < (den + 1) * (BASE * P)) by (rewrite HV; nia).
    assert (C2 : (qh - 2) * V <= ((qh - 2) * (den + 1)) * (BASE * P)) by nia.
    assert (D : (qh - 2) * (den + 1) <= u2 * BASE + u1) by nia.
    assert (E : (u2 * BASE + u1) * (BASE * P) <= U) by nia.
    assert (F : (qh - 2) * (den + 1) * (BASE * P) <= (u2 * BASE + u1) * (BASE * P)).
    { apply Z.mul_le_mono_nonneg_r; [pose proof BASE_pos; nia|exact D]. }
    clear - B C2 E F. lia.
  Qed.

  Lemma trial_ideal_bounds : q <= trial_ideal u2 u1 u0 den vm2 <= q + 1 /\ trial_ideal u2 u1 u0 den vm2 <= BASE - 1 /\ 0 <= trial_ideal u2 u1 u0 den vm2.
  Proof.
    unfold trial_ideal. fold num. pose proof BASE_pos as HB.
    set (qh := Z.min (num / den) (BASE - 1)).
    assert (Hn : 0 <= num) by (unfold num; nia).
    assert (Hqh : 0 <= qh <= BASE - 1).
    { unfold qh. pose proof (Z.div_pos num den Hn ltac:(lia)). lia. }
    assert (Hge : q <= qh).
    { unfold qh. apply Z.min_glb; [|lia]. apply Z.div_le_lower_bound; [lia|].
      rewrite Z.mul_comm. apply est_low. }
    assert (Hnum : qh * den <= num).
    { assert (qh <= num / den) by (unfold qh; lia).
      pose proof (Z.mul_div_le num den ltac:(lia)). nia. }
    pose proof (est_two qh Hqh Hnum) as H3.
    destruct ((qh =? BASE - 1) && (qh * vm2 >? (num - qh * den) * BASE + u0)) eqn:C1.
    - apply andb_true_iff in C1 as [_ C1]. apply Z.gtb_lt in C1.
      pose proof (est_true qh ltac:(lia) ltac:(lia) Hge) as L1.
      assert (Hq1 : 0 <= qh - 1 <= BASE - 1) by lia.
      destruct (Z.gtb_spec ((qh - 1) * vm2) ((num - (qh - 1) * den) * BASE + u0)) as [T|T].
      + pose proof (est_true (qh - 1) ltac:(lia) ltac:(lia) L1). lia.
      + pose proof (est_false (qh - 1) ltac:(lia) ltac:(lia)). lia.
    - destruct (Z.gtb_spec (qh * vm2) ((num - qh * den) * BASE + u0)) as [T|T].
      + pose proof (est_true qh ltac:(lia) ltac:(lia) Hge). lia.
      + pose proof (est_false qh ltac:(lia) ltac:(lia)). lia.
  Qed.
End Estimate.

(** *** multiply-and-subtract, add-back *)
Definition wsum (u : list Z) (j i : nat) : Z := psum (fun k => aget u (j + k)) i.

Lemma wsum_S u j i : wsum u j (S i) = wsum u j i + aget u (j + i) * BASE ^ Z.of_nat i.
Proof. reflexivity. Qed.
Lemma wsum_ext u u' j i : (forall k, (k < i)%nat -> aget u (j + k) = aget u' (j + k)) -> wsum u j i = wsum u' j i.
Proof. intros H. apply psum_ext. exact H. Qed.
Lemma wsum_bound u j i : wf u -> 0 <= wsum u j i < BASE ^ Z.of_nat i.
Proof. intros H. apply psum_bound. intros k _. apply wf_get, H. Qed.

Lemma sub_loop v qh j u k : wf u -> wf v -> 0 <= qh <= BASE - 1 -> (j + k <= length u)%nat ->
  let st := fori k (knuth_sub_body v qh j) (u, 0) in
  wf (fst st) /\ length (fst st) = length u /\ 0 <= snd st <= BASE - 1 /\
  (forall p, (p < j \/ j + k <= p)%nat -> aget (fst st) p = aget u p) /\
  wsum (fst st) j k - snd st * BASE ^ Z.of_nat k = wsum u j k - qh * psum (aget v) k.
Proof.
  intros Hu Hv Hq. cbv zeta. induction k as [|k IH]; intros Hk; cbn [fori].
  - cbn [fst snd]. unfold wsum; cbn [psum]. pose proof BASE_pos. repeat split; auto; lia.
  - specialize (IH ltac:(lia)). destruct (fori k (knuth_sub_body v qh j) (u, 0)) as [w c].
    cbn [fst snd] in *. destruct IH as (W & L & C & K & S). unfold knuth_sub_body.
    pose proof (wf_get v k Hv) as Hvk. pose proof (wf_get w (j + k) W) as Hwk.
    rewrite (w64_small (qh * aget v k)) by (rewrite BASE_val in *; nia).
    rewrite (w64_small (qh * aget v k + c)) by (rewrite BASE_val in *; nia).
    set (p := qh * aget v k + c) in *.
    assert (Hp : 0 <= p <= (BASE - 1) * BASE) by (unfold p; nia).
    rewrite (land_mask p), (w32_mod p), (shiftr32 p). set (x := aget w (j + k)) in *.
    pose proof (divmodB p) as Ep. pose proof (Z.mod_pos_bound p BASE BASE_pos) as Hm.
    assert (Hph : 0 <= p / BASE <= BASE - 1).
    { split; [apply Z.div_pos; lia|]. apply Z.div_le_upper_bound; lia. }
    set (pl := p mod BASE) in *. set (ph := p / BASE) in *.
    set (b := if x <? pl then 1 else 0).
    assert (Hb : 0 <= b <= 1) by (unfold b; destruct (_ <? _); lia).
    assert (Hcb : 0 <= ph + b <= BASE - 1).
    { split; [lia|]. unfold b. destruct (Z.ltb_spec x pl); [|lia]. nia. }
    rewrite (w64_small (ph + b)) by (rewrite BASE_val in *; lia).
    rewrite (w64_small (x + BASE)) by (rewrite BASE_val in *; lia).
    rewrite (w64_small (x + BASE - pl)) by (rewrite BASE_val in *; lia).
    rewrite land_mask, w32_mod. cbn [fst snd].
    assert (Hnew : (x + BASE - pl) mod BASE = x - pl + b * BASE).
    { unfold b. destruct (Z.ltb_spec x pl).
      - rewrite Z.mod_small by lia. lia.
      - replace (x + BASE - pl) with (x - pl + 1 * BASE) by lia. rewrite Z.mod_add by lia. rewrite Z.mod_small by lia. lia. }
    repeat split; try lia.
    + apply wf_aset; [exact W|]. apply Z.mod_pos_bound, BASE_pos.
    + rewrite length_aset; exact L.
    + intros r Hr. rewrite aget_aset_neq by lia. apply K; lia.
    + rewrite !wsum_S. rewrite aget_aset_eq by lia. rewrite Hnew.
      rewrite (wsum_ext (aset w (j + k) _) w) by (intros; apply aget_aset_neq; lia).
      cbn [psum]. rewrite Bpow_S.
      assert (Ex : aget u (j + k) = x) by (unfold x; symmetry; apply K; lia). rewrite Ex.
      set (Q := BASE ^ Z.of_nat k) in *.
      assert (Epq : p * Q = qh * (aget v k * Q) + c * Q) by (unfold p; ring).
      assert (Epq2 : p * Q = ph * (BASE * Q) + pl * Q) by (rewrite Ep; ring).
      clear - S Epq Epq2. lia.
Qed.

Lemma add_loop v j u k : wf u -> wf v -> (j + k <= length u)%nat ->
  let st := fori k (knuth_add_body v j) (u, 0) in
  wf (fst st) /\ length (fst st) = length u /\ 0 <= snd st <= 1 /\
  (forall p, (p < j \/ j + k <= p)%nat -> aget (fst st) p = aget u p) /\
  wsum (fst st) j k + snd st * BASE ^ Z.of_nat k = wsum u j k + psum (aget v) k.
Proof.
  intros Hu Hv. cbv zeta. induction k as [|k IH]; intros Hk; cbn [fori].
  - cbn [fst snd]. unfold wsum; cbn [psum]. repeat split; auto; lia.
  - specialize (IH ltac:(lia)). destruct (fori k (knuth_add_body v j) (u, 0)) as [w c].
    cbn [fst snd] in *. destruct IH as (W & L & C & K & S). unfold knuth_add_body.
    pose proof (wf_get v k Hv) as Hvk. pose proof (wf_get w (j + k) W) as Hwk.
    rewrite (w64_small (aget w (j + k) + aget v k)) by (rewrite BASE_val in *; lia).
    rewrite (w64_small (aget w (j + k) + aget v k + c)) by (rewrite BASE_val in *; lia).
    set (s := aget w (j + k) + aget v k + c) in *.
    rewrite land_mask, w32_mod, shiftr32. cbn [fst snd].
    assert (Hs2 : 0 <= s < 2 * BASE) by (unfold s; lia).
    assert (Hd : 0 <= s / BASE <= 1).
    { split; [apply Z.div_pos; rewrite BASE_val in *; lia|].
      apply Z.lt_succ_r. apply Z.div_lt_upper_bound; rewrite BASE_val in *; lia. }
    repeat split; try lia.
    + apply wf_aset; [exact W|]. apply Z.mod_pos_bound, BASE_pos.
    + rewrite length_aset; exact L.
    + intros r Hr. rewrite aget_aset_neq by lia. apply K; lia.
    + rewrite !wsum_S. rewrite aget_aset_eq by lia.
      rewrite (wsum_ext (aset w (j + k) _) w) by (intros; apply aget_aset_neq; lia).
      cbn [psum]. rewrite Bpow_S. rewrite <- (K (j + k)%nat) by lia.
      set (Q := BASE ^ Z.of_nat k) in *.
      assert (E : s * Q = s / BASE * (BASE * Q) + s mod BASE * Q) by (rewrite (divmodB s) at 1; ring).
      unfold s in E at 1. nia.
Qed.

Lemma top_neg w d M : 0 <= w < M -> d < 0 -> w + d * M < 0.
Proof. intros. nia. Qed.
Lemma top_nonneg w d M : 0 <= w < M -> 0 <= d -> 0 <= w + d * M.
Proof. intros. nia. Qed.
Lemma top_zero w d M : 0 <= w < M -> 0 <= w + d * M < M -> d = 0.
Proof. intros. nia. Qed.
Lemma quot_succ qh qt U V : 0 < V -> qt * V <= U -> qt <= qh <= qt + 1 -> U - qh * V < 0 -> qh = qt + 1.
Proof. intros. assert (qh <> qt) by (intros ->; lia). lia. Qed.
Lemma quot_same qh qt U V : 0 < V -> U < (qt + 1) * V -> qt <= qh <= qt + 1 -> 0 <= U - qh * V -> qh = qt.
Proof. intros. assert (qh <> qt + 1) by (intros ->; lia). lia. Qed.

Definition trial_ok (u v : list Z) (m j : nat) : bool :=
  trial_quotient (aget u (j + m)) (aget u (j + m - 1)) (aget u (j + m - 2)) (aget v (m - 1)) (aget v (m - 2))
  =? trial_ideal (aget u (j + m)) (aget u (j + m - 1)) (aget u (j + m - 2)) (aget v (m - 1)) (aget v (m - 2)).

Lemma knuth_step_spec v m j u q :
  wf u -> wf v -> wf q -> (2 <= m)%nat -> (j + m < length u)%nat -> (j < length q)%nat -> (m <= length v)%nat ->
  BASE <= 2 * aget v (m - 1) ->
  let V := psum (aget v) m in
  let U := wsum u j (S m) in
  U < V * BASE -> trial_ok u v m j = true ->
  let '(u', q') := knuth_step v m j (u, q) in
  exists d, wf u' /\ length u' = length u /\ q' = aset q j d /\ 0 <= d < BASE /\
    (forall p, (p < j \/ j + m < p)%nat -> aget u' p = aget u p) /\
    wsum u' j (S m) = U - d * V /\ 0 <= U - d * V < V.
Proof.
  intros Wu Wv Wq Hm Hu Hq Hvl Hn V U HU HT. unfold knuth_step.
  apply Z.eqb_eq in HT. rewrite HT.
  set (u2 := aget u (j + m)) in *. set (u1 := aget u (j + m - 1)) in *. set (u0 := aget u (j + m - 2)) in *.
  set (den := aget v (m - 1)) in *. set (vm2 := aget v (m - 2)) in *.
  set (qh := trial_ideal u2 u1 u0 den vm2) in *. clear HT.
  pose proof (wf_get u (j + m) Wu) as B2. pose proof (wf_get u (j + m - 1) Wu) as B1.
  pose proof (wf_get u (j + m - 2) Wu) as B0. pose proof (wf_get v (m - 1) Wv) as Bd. pose proof (wf_get v (m - 2) Wv) as Bv.
  fold u2 in B2. fold u1 in B1. fold u0 in B0. fold den in Bd. fold vm2 in Bv.
  pose proof BASE_pos as HB.
  (* decompositions *)
  set (P := BASE ^ Z.of_nat (m - 2)).
  assert (HP : 0 < P) by apply Bpow_pos.
  assert (EM1 : BASE ^ Z.of_nat (m - 1) = BASE * P) by (unfold P; rewrite <- Bpow_S; f_equal; lia).
  assert (EM : BASE ^ Z.of_nat m = BASE * (BASE * P)) by (rewrite <- EM1, <- Bpow_S; f_equal; lia).
  assert (EV : V = (den * BASE + vm2) * P + psum (aget v) (m - 2)).
  { unfold V. replace m with (S (S (m - 2))) at 1 by lia. cbn [psum].
    replace (S (m - 2)) with (m - 1)%nat by lia. fold den vm2 P. rewrite EM1. ring. }
  pose proof (psum_nonneg v (m - 2) Wv) as Hlv. fold P in Hlv.
  assert (EU : U = ((u2 * BASE + u1) * BASE + u0) * P + wsum u j (m - 2)).
  { unfold U. rewrite wsum_S. replace m with (S (S (m - 2))) at 1 by lia. rewrite !wsum_S.
    replace (j + S (m - 2))%nat with (j + m - 1)%nat by lia. replace (j + (m - 2))%nat with (j + m - 2)%nat by lia.
    replace (S (m - 2)) with (m - 1)%nat by lia. fold u2 u1 u0 P. rewrite EM, EM1. ring. }
  pose proof (wsum_bound u j (m - 2) Wu) as Hlu. fold P in Hlu.
  assert (HVpos : 0 < V) by (rewrite EV; nia).
  assert (HVlt : V < BASE * (BASE * P)) by (rewrite EV; nia).
  assert (HUpos : 0 <= U) by (rewrite EU; nia).
  set (qt := U / V).
  assert (Hqt : qt * V <= U < (qt + 1) * V).
  { unfold qt. pose proof (Z.div_mod U V ltac:(lia)). pose proof (Z.mod_pos_bound U V ltac:(lia)). nia. }
  assert (Hqr : 0 <= qt < BASE).
  { unfold qt. split; [apply Z.div_pos; lia|]. apply Z.div_lt_upper_bound; lia. }
  destruct (trial_ideal_bounds U V (wsum u j (m - 2)) (psum (aget v) (m - 2)) u2 u1 u0 den vm2 P qt
              HP EU Hlu EV Hlv B2 B1 B0 Hn (proj2 Bd) Bv Hqt Hqr) as (Q1 & Q2 & Q3).
  fold qh in Q1, Q2, Q3.
  (* multiply and subtract *)
  pose proof (sub_loop v qh j u m Wu Wv ltac:(lia) ltac:(lia)) as HS. cbv zeta in HS.
  destruct (fori m (knuth_sub_body v qh j) (u, 0)) as [w c]. cbn [fst snd] in HS.
  destruct HS as (Ww & Lw & Hc & Kw & Sw). fold V in Sw.
  assert (Etop : aget w (j + m) = u2) by (apply Kw; lia). rewrite Etop.
  rewrite (w32_small c) by lia.
  rewrite (w64_small (u2 + BASE)) by (rewrite BASE_val in *; lia).
  rewrite (w64_small (u2 + BASE - c)) by (rewrite BASE_val in *; lia).
  rewrite land_mask, w32_mod.
  pose proof (wsum_bound w j m Ww) as Hwb. rewrite EM in Hwb, Sw. set (BM := BASE * (BASE * P)) in *.
  assert (HBM : 0 < BM) by (unfold BM; nia).
  assert (EUw : U - qh * V = wsum w j m + (u2 - c) * BM).
  { unfold U. rewrite wsum_S. fold u2. rewrite EM. fold BM. lia. }
  destruct (Z.ltb_spec u2 c) as [Hund|Hnund].
  - (* underflow: add back *)
    rewrite (Z.mod_small (u2 + BASE - c)) by lia.
    assert (Hneg : U - qh * V < 0) by (rewrite EUw; apply top_neg; lia).
    assert (Eqh : qh = qt + 1) by (apply (quot_succ qh qt U V); lia).
    set (w1 := aset w (j + m) (u2 + BASE - c)).
    assert (Ww1 : wf w1) by (apply wf_aset; [exact Ww|lia]).
    assert (Lw1 : length w1 = length u) by (unfold w1; rewrite length_aset; exact Lw).
    pose proof (add_loop v j w1 m Ww1 Wv ltac:(lia)) as HA. cbv zeta in HA.
    destruct (fori m (knuth_add_body v j) (w1, 0)) as [x c2]. cbn [fst snd] in HA.
    destruct HA as (Wx & Lx & Hc2 & Kx & Sx). fold V in Sx. rewrite EM in Sx. fold BM in Sx.
    assert (Ew1 : wsum w1 j m = wsum w j m) by (apply wsum_ext; intros; unfold w1; apply aget_aset_neq; lia).
    rewrite Ew1 in Sx.
    assert (Ext : aget x (j + m) = u2 + BASE - c).
    { rewrite Kx by lia. unfold w1. apply aget_aset_eq. lia. }
    rewrite Ext. pose proof (wsum_bound x j m Wx) as Hxb. rewrite EM in Hxb. fold BM in Hxb.
    assert (Hfin : U - qt * V = wsum x j m + (c2 + u2 - c) * BM) by (rewrite Eqh in EUw; lia).
    assert (Hz : c2 + u2 - c = 0).
    { apply (top_zero (wsum x j m) _ BM); lia. }
    assert (Hc21 : c2 = 1) by lia.
    replace (u2 + BASE - c) with (BASE - 1) by lia.
    rewrite (w64_small (BASE - 1 + 1)) by (rewrite BASE_val; lia).
    change (w32 (BASE - 1 + 1)) with 0.
    rewrite (w64_small (qh - 1)) by (rewrite BASE_val in *; lia).
    rewrite land_mask, w32_mod, (Z.mod_small (qh - 1)) by lia.
    exists (qh - 1). replace (qh - 1) with qt by lia.
    repeat split; try lia.
    + apply wf_aset; [exact Wx|lia].
    + rewrite length_aset; lia.
    + intros p Hp. rewrite aget_aset_neq by lia. rewrite Kx by lia. unfold w1.
      rewrite aget_aset_neq by lia. apply Kw; lia.
    + rewrite wsum_S, aget_aset_eq by lia.
      rewrite (wsum_ext (aset x (j + m) 0) x) by (intros; apply aget_aset_neq; lia).
      rewrite Hz in Hfin. lia.
  - (* no underflow *)
    assert (Hpos : 0 <= U - qh * V) by (rewrite EUw; apply top_nonneg; lia).
    assert (Eqh : qh = qt) by (apply (quot_same qh qt U V); lia).
    assert (Hlt : U - qh * V < V) by (rewrite Eqh; lia).
    assert (Hz : u2 - c = 0) by (apply (top_zero (wsum w j m) _ BM); lia).
    replace (u2 + BASE - c) with (0 + 1 * BASE) by lia. rewrite Z.mod_add by lia. change (0 mod BASE) with 0.
    rewrite land_mask, w32_mod, (Z.mod_small qh) by lia.
    exists qh. repeat split; try lia.
    + apply wf_aset; [exact Ww|lia].
    + rewrite length_aset; lia.
    + intros p Hp. rewrite aget_aset_neq by lia. apply Kw; lia.
    + rewrite wsum_S, aget_aset_eq by lia.
      rewrite (wsum_ext (aset w (j + m) 0) w) by (intros; apply aget_aset_neq; lia).
      rewrite Hz in EUw. lia.
Qed.
