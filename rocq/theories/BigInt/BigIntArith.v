(** Correctness of creation, addition, subtraction, multiplication and power. *)
From Verif.Lib Require Import Arr.
From Verif.BigInt Require Import BigIntSpec BigIntModel BigIntLemmas.
Local Open Scope Z_scope.

Lemma call_value ds : call ds = value ds.
Proof.
  rewrite value_psum. unfold call.
  apply (fori_ind (fun i r => r = psum (aget ds) i)); [reflexivity|].
  intros i r _ ->. cbn [psum].
  destruct (Z.eqb_spec (aget ds i) 0) as [E|E].
  - rewrite E. lia.
  - f_equal. f_equal. unfold BASE. rewrite <- Z.pow_mul_r by lia. f_equal. lia.
Qed.

(** ** create *)
Lemma create_inv n size :
  let st := fori size (fun i '(digits, num) => (aset digits i (w32 (num mod BASE)), num / BASE)) (repeat 0 size, n) in
  wf (fst st) /\ length (fst st) = size /\ psum (aget (fst st)) size + snd st * BASE ^ Z.of_nat size = n.
Proof.
  cbv zeta.
  assert (H : forall k, (k <= size)%nat ->
     let st := fori k (fun i '(digits, num) => (aset digits i (w32 (num mod BASE)), num / BASE)) (repeat 0 size, n) in
     wf (fst st) /\ length (fst st) = size /\ psum (aget (fst st)) k + snd st * BASE ^ Z.of_nat k = n).
  { intros k Hk. cbv zeta.
    apply (fori_ind (fun i st => wf (fst st) /\ length (fst st) = size /\
              psum (aget (fst st)) i + snd st * BASE ^ Z.of_nat i = n)).
    - cbn [fst snd psum]. repeat split; [apply wf_repeat|apply repeat_length|].
      change (Z.of_nat 0) with 0. rewrite Z.pow_0_r. lia.
    - intros i [d num] Hi (Hw & Hl & Hs). cbn [fst snd] in *. repeat split.
      + apply wf_aset; [exact Hw|apply w32_range].
      + rewrite length_aset; exact Hl.
      + rewrite psum_S_aset by lia. rewrite w32_mod, Bpow_S.
        rewrite <- Hs. rewrite (divmodB num) at 3. ring. }
  apply H; lia.
Qed.

Lemma create_wf n size : wf (create n size).
Proof. unfold create. apply (create_inv n size). Qed.
Lemma create_length n size : length (create n size) = size.
Proof. unfold create. apply (create_inv n size). Qed.
Lemma create_value n size : value (create n size) = n mod cap size.
Proof.
  pose proof (create_length n size) as Hl. pose proof (create_wf n size) as Hw.
  pose proof (value_bound _ Hw) as Hb. rewrite Hl in Hb.
  assert (E : value (create n size) + snd (fori size (fun i '(digits, num) => (aset digits i (w32 (num mod BASE)), num / BASE)) (repeat 0 size, n)) * cap size = n).
  { rewrite value_psum, Hl, cap_pow. unfold create. apply (create_inv n size). }
  rewrite <- E at 2. rewrite Z.mod_add by (pose proof (cap_pos size); lia).
  symmetry; apply Z.mod_small; exact Hb.
Qed.

Lemma create_static_eq n size : create_static n size = if n <? 0 then None else Some (create n size).
Proof.
  unfold create_static. destruct (n <? 0); [reflexivity|]. f_equal. unfold create.
  assert (H : forall k, (k <= size)%nat ->
    let st := fori k (fun (_ : nat) '(digits, n) => (digits ++ [w32 (n mod BASE)], n / BASE)) ([], n) in
    let st' := fori k (fun i '(digits, num) => (aset digits i (w32 (num mod BASE)), num / BASE)) (repeat 0 size, n) in
    fst st' = fst st ++ repeat 0 (size - k) /\ snd st = snd st' /\ length (fst st) = k).
  { induction k as [|k IH]; intros Hk; cbv zeta.
    - cbn [fori fst snd app length]. rewrite Nat.sub_0_r. auto.
    - specialize (IH ltac:(lia)). cbv zeta in IH. cbn [fori].
      destruct (fori k _ ([], n)) as [d m] eqn:E1.
      destruct (fori k _ (repeat 0 size, n)) as [d' m'] eqn:E2. cbn [fst snd] in *.
      destruct IH as (I1 & I2 & I3). subst d' m'. repeat split.
      + replace (size - k)%nat with (S (size - S k)) by lia. cbn [repeat].
        rewrite <- app_assoc. cbn [app].
        generalize (repeat 0 (size - S k)) as tl. intros tl.
        clear -I3. revert k I3. induction d as [|h t IH]; intros k I3; cbn [app aset length] in *.
        * subst k. reflexivity.
        * subst k. cbn [aset app]. f_equal. apply IH. reflexivity.
      + rewrite app_length; cbn [length]; lia. }
  specialize (H size ltac:(lia)). cbv zeta in H. destruct H as (H & _ & _).
  rewrite H, Nat.sub_diag. cbn [repeat]. rewrite app_nil_r. reflexivity.
Qed.

Lemma coerce_big_value n size :
  match coerce_big n size with
  | Some r => length r = size /\ value r = value n /\ (wf n -> wf r)
  | None => (size < length n)%nat
  end.
Proof.
  unfold coerce_big. destruct (Nat.eqb_spec (length n) size) as [E|E]; [auto|].
  destruct (Nat.ltb_spec size (length n)); [assumption|].
  rewrite app_length, repeat_length, value_app, value_repeat. repeat split; try lia.
  intros; apply wf_app; auto using wf_repeat.
Qed.

(** ** addition *)
Lemma add_inv a b k : wf a -> wf b -> (k <= length a)%nat ->
  let st := fori k (add_step a b) (0, repeat 0 (length a)) in
  wf (snd st) /\ length (snd st) = length a /\ 0 <= fst st <= 1 /\
  psum (aget (snd st)) k + fst st * BASE ^ Z.of_nat k = psum (aget a) k + psum (aget b) k.
Proof.
  intros Ha Hb Hk. cbv zeta.
  apply (fori_ind (fun i st => wf (snd st) /\ length (snd st) = length a /\ 0 <= fst st <= 1 /\
    psum (aget (snd st)) i + fst st * BASE ^ Z.of_nat i = psum (aget a) i + psum (aget b) i)).
  - cbn [fst snd psum]. repeat split; try lia; [apply wf_repeat|apply repeat_length].
  - intros i [c r] Hi (Hw & Hl & Hc & Hs). cbn [fst snd] in *. unfold add_step.
    pose proof (wf_get a i Ha). pose proof (wf_get b i Hb).
    rewrite (w64_small (aget a i + aget b i)) by (rewrite BASE_val in *; lia).
    rewrite (w64_small (aget a i + aget b i + c)) by (rewrite BASE_val in *; lia).
    set (s := aget a i + aget b i + c) in *.
    rewrite land_mask', w32_w32, w32_mod, shiftr32. cbn [fst snd].
    assert (Hs2 : 0 <= s < 2 * BASE) by (unfold s; rewrite BASE_val in *; lia).
    assert (Hd : 0 <= s / BASE <= 1).
    { split; [apply Z.div_pos; rewrite BASE_val in *; lia|].
      apply Z.lt_succ_r. apply Z.div_lt_upper_bound; rewrite BASE_val in *; lia. }
    rewrite w64_small by (rewrite BASE_val in *; lia).
    repeat split; try lia.
    + apply wf_aset; [exact Hw|]. apply Z.mod_pos_bound, BASE_pos.
    + rewrite length_aset; exact Hl.
    + rewrite psum_S_aset by lia. cbn [psum]. rewrite Bpow_S.
      pose proof (divmodB s) as E. transitivity (psum (aget r) i + s * BASE ^ Z.of_nat i).
      * rewrite E at 3. ring.
      * unfold s. rewrite !Z.mul_add_distr_r. lia.
Qed.

Lemma add_wf a b : wf a -> wf b -> wf (add a b).
Proof. intros Ha Hb. apply (add_inv a b (length a) Ha Hb ltac:(lia)). Qed.
Lemma add_length a b : length (add a b) = length a.
Proof.
  unfold add. apply (fori_ind (fun _ st => length (snd st) = length a)); [apply repeat_length|].
  intros i [c r] _ H. unfold add_step. cbn [snd] in *. rewrite length_aset; exact H.
Qed.

Lemma mod_cap_uniq r x c n : 0 <= r < cap n -> r + c * cap n = x -> r = x mod cap n.
Proof.
  intros Hr <-. rewrite Z.mod_add by (pose proof (cap_pos n); lia). symmetry; apply Z.mod_small; exact Hr.
Qed.

Lemma add_value a b : wf a -> wf b -> length a = length b ->
  value (add a b) = (value a + value b) mod cap (length a).
Proof.
  intros Ha Hb Hl. pose proof (add_inv a b (length a) Ha Hb ltac:(lia)) as H. cbv zeta in H.
  destruct H as (Hw & Hlen & _ & Hs). fold (add a b) in *.
  eapply (mod_cap_uniq _ _ (fst (fori (length a) (add_step a b) (0, repeat 0 (length a))))).
  - rewrite <- (add_length a b). apply value_bound, add_wf; assumption.
  - rewrite !value_psum, add_length, cap_pow. rewrite <- Hl. exact Hs.
Qed.

(** ** subtraction *)
Lemma sub_inv a b k : wf a -> wf b -> (k <= length a)%nat ->
  let st := fori k (sub_step a b) (0, repeat 0 (length a)) in
  wf (snd st) /\ length (snd st) = length a /\ 0 <= fst st <= 1 /\
  psum (aget (snd st)) k - fst st * BASE ^ Z.of_nat k = psum (aget a) k - psum (aget b) k.
Proof.
  intros Ha Hb Hk. cbv zeta.
  apply (fori_ind (fun i st => wf (snd st) /\ length (snd st) = length a /\ 0 <= fst st <= 1 /\
    psum (aget (snd st)) i - fst st * BASE ^ Z.of_nat i = psum (aget a) i - psum (aget b) i)).
  - cbn [fst snd psum]. repeat split; try lia; [apply wf_repeat|apply repeat_length].
  - intros i [c r] Hi (Hw & Hl & Hc & Hs). cbn [fst snd] in *. unfold sub_step.
    pose proof (wf_get a i Ha) as Hai. pose proof (wf_get b i Hb) as Hbi.
    rewrite (w64_small (aget b i + c)) by (rewrite BASE_val in *; lia).
    destruct (Z.geb_spec (aget a i) (aget b i + c)) as [Hge|Hlt]; cbn [fst snd].
    + rewrite w32_w32, w32_small by lia. repeat split; try lia.
      * apply wf_aset; [exact Hw|lia].
      * rewrite length_aset; exact Hl.
      * rewrite psum_S_aset by lia. cbn [psum]. lia.
    + rewrite (w64_small (aget a i + BASE)) by (rewrite BASE_val in *; lia).
      rewrite (w64_small (aget a i + BASE - aget b i)) by (rewrite BASE_val in *; lia).
      rewrite (w64_small (aget a i + BASE - aget b i - c)) by (rewrite BASE_val in *; lia).
      rewrite w32_w32, w32_small by lia. repeat split; try lia.
      * apply wf_aset; [exact Hw|lia].
      * rewrite length_aset; exact Hl.
      * rewrite psum_S_aset by lia. cbn [psum]. rewrite Bpow_S. lia.
Qed.

Lemma sub_wf a b : wf a -> wf b -> wf (sub a b).
Proof. intros Ha Hb. apply (sub_inv a b (length a) Ha Hb ltac:(lia)). Qed.
Lemma sub_length a b : length (sub a b) = length a.
Proof.
  unfold sub. apply (fori_ind (fun _ st => length (snd st) = length a)); [apply repeat_length|].
  intros i [c r] _ H. unfold sub_step. cbn [snd] in *.
  destruct (_ >=? _); cbn [snd]; rewrite length_aset; exact H.
Qed.
Lemma sub_value a b : wf a -> wf b -> length a = length b ->
  value (sub a b) = (value a - value b) mod cap (length a).
Proof.
  intros Ha Hb Hl. pose proof (sub_inv a b (length a) Ha Hb ltac:(lia)) as H. cbv zeta in H.
  destruct H as (Hw & Hlen & _ & Hs). fold (sub a b) in *.
  eapply (mod_cap_uniq _ _ (- fst (fori (length a) (sub_step a b) (0, repeat 0 (length a))))).
  - rewrite <- (sub_length a b). apply value_bound, sub_wf; assumption.
  - rewrite !value_psum, sub_length, cap_pow. rewrite <- Hl. rewrite <- Hs. ring.
Qed.

(** ** complement *)
Lemma invert_length a : length (invert a) = length a.
Proof. apply map_length. Qed.
Lemma invert_wf a : wf (invert a).
Proof.
  unfold wf, invert. apply Forall_forall. intros x Hx. apply in_map_iff in Hx.
  destruct Hx as [y [<- _]]. exact (w32_range _).
Qed.
Lemma invert_value a : wf a -> value (invert a) = cap (length a) - 1 - value a.
Proof.
  intros H. unfold wf in H. induction H as [|x a Hx Ha IH]; [reflexivity|].
  unfold invert in *. cbn [map value length]. rewrite IH, !cap_pow, Bpow_S, pow32 in *.
  replace (w32 (Z.lnot x)) with (BASE - 1 - x); [ring|].
  unfold w32, Z.lnot. rewrite <- (Z.mod_add (Z.pred (- x)) 1 BASE) by (pose proof BASE_pos; lia).
  rewrite Z.mod_small; lia.
Qed.
Lemma sub_alt_value a b : wf a -> wf b -> length a = length b ->
  value (sub_alt a b) = (value a - value b) mod cap (length a).
Proof.
  intros Ha Hb Hl. unfold sub_alt.
  rewrite invert_value by (apply add_wf; auto using invert_wf).
  rewrite add_length, invert_length.
  rewrite add_value by (rewrite ?invert_length; auto using invert_wf).
  rewrite invert_length, invert_value by assumption.
  set (C := cap (length a)). assert (HC : 0 < C) by apply cap_pos.
  set (x := C - 1 - value a + value b).
  pose proof (Z.mod_pos_bound x C HC). pose proof (Z.div_mod x C ltac:(lia)).
  replace (value a - value b) with (C - 1 - x mod C + (- (x / C)) * C) by (unfold x in *; lia).
  rewrite Z.mod_add by lia. symmetry; apply Z.mod_small; lia.
Qed.

(** ** multiplication *)
Lemma mul_inner_inv a b i res0 n k : wf a -> wf b -> wf res0 -> length res0 = n -> (i + k <= n)%nat ->
  let st := fori k (mul_inner a b i) (res0, 0) in
  wf (fst st) /\ length (fst st) = n /\ 0 <= snd st < BASE /\
  (forall p, (i + k <= p)%nat -> aget (fst st) p = aget res0 p) /\
  psum (aget (fst st)) (i + k) + snd st * BASE ^ Z.of_nat (i + k)
   = psum (aget res0) (i + k) + aget a i * BASE ^ Z.of_nat i * psum (aget b) k.
Proof.
  intros Ha Hb Hr Hn Hk. cbv zeta. revert Hk.
  induction k as [|k IH]; intros Hk; cbn [fori].
  - cbn [fst snd psum]. rewrite Nat.add_0_r in *. pose proof BASE_pos. repeat split; auto; try lia.
  - specialize (IH ltac:(lia)). destruct (fori k (mul_inner a b i) (res0, 0)) as [r c].
    cbn [fst snd] in *. destruct IH as (Hw & Hl & Hc & Hab & Hs). unfold mul_inner.
    pose proof (wf_get a i Ha) as Hai. pose proof (wf_get b k Hb) as Hbk.
    pose proof (wf_get r (i + k) Hw) as Hrk.
    assert (Hp : 0 <= aget a i * aget b k <= (BASE - 1) * (BASE - 1)) by (rewrite BASE_val in *; nia).
    rewrite (w64_small (aget a i * aget b k)) by (rewrite BASE_val in *; lia).
    rewrite (w64_small (aget r (i + k) + aget a i * aget b k)) by (rewrite BASE_val in *; lia).
    rewrite (w64_small (aget r (i + k) + aget a i * aget b k + c)) by (rewrite BASE_val in *; lia).
    set (t := aget r (i + k) + aget a i * aget b k + c) in *.
    assert (Ht : 0 <= t < BASE * BASE) by (unfold t; rewrite BASE_val in *; lia).
    rewrite land_mask, w32_mod, shiftr32. cbn [fst snd].
    assert (Hd : 0 <= t / BASE < BASE).
    { split; [apply Z.div_pos; lia|]. apply Z.div_lt_upper_bound; lia. }
    repeat split; try lia.
    + apply wf_aset; [exact Hw|]. apply Z.mod_pos_bound, BASE_pos.
    + rewrite length_aset; exact Hl.
    + intros p Hp2. rewrite aget_aset_neq by lia. apply Hab; lia.
    + replace (i + S k)%nat with (S (i + k)) by lia.
      rewrite psum_S_aset by lia. cbn [psum]. rewrite Bpow_S.
      pose proof (divmodB t) as E. transitivity (psum (aget r) (i + k) + t * BASE ^ Z.of_nat (i + k)).
      * rewrite E at 3. ring.
      * unfold t. rewrite (Hab (i + k)%nat) by lia. rewrite !Z.mul_add_distr_r.
        rewrite Z.mul_add_distr_l. rewrite (Bpow_add i k) in *. nia.
Qed.

Lemma mul_outer_spec a b i res n : wf a -> wf b -> wf res -> length res = n -> (i < n)%nat ->
  wf (mul_outer a b n i res) /\ length (mul_outer a b n i res) = n /\
  value (mul_outer a b n i res) mod cap n = (value res + aget a i * BASE ^ Z.of_nat i * psum (aget b) (n - i)) mod cap n.
Proof.
  intros Ha Hb Hr Hn Hi. unfold mul_outer.
  pose proof (mul_inner_inv a b i res n (n - i) Ha Hb Hr Hn ltac:(lia)) as H. cbv zeta in H.
  destruct (fori (n - i) (mul_inner a b i) (res, 0)) as [r c]. cbn [fst snd] in *.
  destruct H as (Hw & Hl & Hc & Hab & Hs). replace (i + (n - i))%nat with n in Hs by lia.
  repeat split; auto. rewrite !value_psum, Hl, Hn, <- Hs, cap_pow.
  rewrite Z.mod_add by (pose proof (Bpow_pos n); lia). reflexivity.
Qed.

(** truncating the multiplicand changes the product by a multiple of BASE^n *)
Lemma mul_trunc_mod x i b n : (i <= n)%nat -> length b = n ->
  (x * BASE ^ Z.of_nat i * psum (aget b) (n - i)) mod cap n = (x * BASE ^ Z.of_nat i * value b) mod cap n.
Proof.
  intros Hi Hb. rewrite value_psum, Hb.
  replace (psum (aget b) n) with (psum (aget b) ((n - i) + i)) by (f_equal; lia).
  rewrite psum_split. rewrite Z.mul_add_distr_l.
  replace (x * BASE ^ Z.of_nat i * (BASE ^ Z.of_nat (n - i) * psum (fun k => aget b (n - i + k)) i))
    with ((x * psum (fun k => aget b (n - i + k)) i) * (BASE ^ Z.of_nat i * BASE ^ Z.of_nat (n - i))) by ring.
  rewrite <- Bpow_add. replace (i + (n - i))%nat with n by lia. rewrite <- (cap_pow n).
  rewrite Z.mod_add by (pose proof (cap_pos n); lia). reflexivity.
Qed.

Lemma mul_inv a b k : wf a -> wf b -> length a = length b -> (k <= length a)%nat ->
  let n := length a in
  let r := fori k (mul_outer a b n) (repeat 0 n) in
  wf r /\ length r = n /\ value r mod cap n = (psum (aget a) k * value b) mod cap n.
Proof.
  intros Ha Hb Hl Hk. cbv zeta. set (n := length a) in *.
  apply (fori_ind (fun k r => wf r /\ length r = n /\ value r mod cap n = (psum (aget a) k * value b) mod cap n)).
  - repeat split; [apply wf_repeat|apply repeat_length|]. rewrite value_repeat. cbn [psum]. f_equal; lia.
  - intros i r Hi (Hw & Hlr & Hv).
    destruct (mul_outer_spec a b i r n Ha Hb Hw Hlr ltac:(lia)) as (W & L & V).
    repeat split; auto. rewrite V. cbn [psum].
    assert (HC : cap n <> 0) by (clear; pose proof (cap_pos n); lia).
    assert (Hin : (i <= n)%nat) by (clear - Hi Hk; lia).
    rewrite Z.add_mod by exact HC. rewrite mul_trunc_mod by (exact Hin || (symmetry; exact Hl)). rewrite Hv.
    rewrite <- Z.add_mod by exact HC. f_equal. ring.
Qed.

Lemma mul_wf a b : wf a -> wf b -> length a = length b -> wf (mul a b).
Proof. intros Ha Hb Hl. apply (mul_inv a b (length a) Ha Hb Hl ltac:(lia)). Qed.
Lemma mul_length a b : wf a -> wf b -> length a = length b -> length (mul a b) = length a.
Proof. intros Ha Hb Hl. apply (mul_inv a b (length a) Ha Hb Hl ltac:(lia)). Qed.
Lemma mul_value a b : wf a -> wf b -> length a = length b ->
  value (mul a b) = (value a * value b) mod cap (length a).
Proof.
  intros Ha Hb Hl. pose proof (mul_inv a b (length a) Ha Hb Hl ltac:(lia)) as H. cbv zeta in H.
  destruct H as (Hw & Hlen & Hv). fold (mul a b) in *.
  rewrite <- (value_psum a) in Hv. rewrite <- Hv. symmetry. apply Z.mod_small.
  rewrite <- Hlen. apply value_bound. exact Hw.
Qed.

(** ** power *)
Lemma pow_inv self e n : wf self -> length self = n -> 0 <= e ->
  forall fuel base exp acc st,
  wf base -> wf acc -> length base = n -> length acc = n -> 0 <= exp ->
  while fuel (fun '(_, exp, _) => 0 <? exp) pow_body (base, exp, acc) = Some st ->
  wf (snd st) /\ length (snd st) = n /\
  value (snd st) mod cap n = (value acc * value base ^ exp) mod cap n.
Proof.
  intros _ _ _. pose proof (cap_pos n) as HC.
  induction fuel as [|f IH]; intros base exp acc st Hb Ha Lb La He H; cbn [while] in H.
  - destruct (Z.ltb_spec 0 exp); [discriminate|]. injection H as <-. cbn [snd].
    repeat split; auto. replace exp with 0 by lia. rewrite Z.pow_0_r. f_equal; lia.
  - destruct (Z.ltb_spec 0 exp) as [Hpos|Hz].
    + unfold pow_body at 2 in H.
      assert (E1 : w64 (Z.land exp 1) = exp mod 2).
      { change 1 with (Z.ones 1). rewrite Z.land_ones by lia. change (2 ^ 1) with 2.
        apply w64_small. pose proof (Z.mod_pos_bound exp 2 ltac:(lia)). rewrite BASE_val; lia. }
      rewrite E1 in H. rewrite Z.shiftr_div_pow2 in H by lia. change (2 ^ 1) with 2 in H.
      set (acc' := if exp mod 2 =? 1 then mul acc base else acc) in *.
      assert (Wb : wf (mul base base)) by (apply mul_wf; auto).
      assert (Lb' : length (mul base base) = n) by (rewrite mul_length; auto).
      assert (Wa : wf acc') by (unfold acc'; destruct (_ =? _); auto; apply mul_wf; congruence || auto).
      assert (La' : length acc' = n) by (unfold acc'; destruct (_ =? _); auto; rewrite mul_length; congruence || auto).
      assert (He2 : 0 <= exp / 2) by (apply Z.div_pos; lia).
      destruct (IH _ _ _ _ Wb Wa Lb' La' He2 H) as (W & L & V).
      repeat split; auto. rewrite V.
      assert (Vb : value (mul base base) = (value base * value base) mod cap n) by (rewrite mul_value, Lb; auto).
      rewrite Vb.
      assert (Va : value acc' mod cap n = (value acc * value base ^ (exp mod 2)) mod cap n).
      { unfold acc'. destruct (Z.eqb_spec (exp mod 2) 1) as [E|E].
        - rewrite E, Z.pow_1_r, mul_value, La by congruence || auto. apply Z.mod_mod; lia.
        - assert (E0 : exp mod 2 = 0) by (pose proof (Z.mod_pos_bound exp 2 ltac:(lia)); lia).
          rewrite E0, Z.pow_0_r. f_equal; lia. }
      rewrite Z.mul_mod, Va by lia.
      assert (Vp : (((value base * value base) mod cap n) ^ (exp / 2)) mod cap n
                   = (value base ^ (2 * (exp / 2))) mod cap n).
      { rewrite Z.pow_mul_r by (try lia; apply Z.div_pos; lia).
        replace (value base ^ 2) with (value base * value base) by ring.
        assert (Hgen : forall x k, 0 <= k -> ((x mod cap n) ^ k) mod cap n = (x ^ k) mod cap n).
        { intros x k Hk. revert k Hk. apply natlike_ind.
          - reflexivity.
          - intros k Hk IHk. rewrite !Z.pow_succ_r by lia.
            rewrite Z.mul_mod, IHk, Z.mod_mod, <- Z.mul_mod by lia. reflexivity. }
        apply Hgen. apply Z.div_pos; lia. }
      rewrite Vp, <- Z.mul_mod by lia. f_equal.
      rewrite <- Z.mul_assoc, <- Z.pow_add_r; [f_equal; f_equal|..].
      * clear. pose proof (Z.div_mod exp 2 ltac:(lia)). lia.
      * apply Z.mod_pos_bound; reflexivity.
      * clear - He2. lia.
    + injection H as <-. cbn [snd]. repeat split; auto. replace exp with 0 by lia. rewrite Z.pow_0_r. f_equal; lia.
Qed.

Lemma pow_terminates_gen k : forall base exp acc, 0 <= exp < 2 ^ Z.of_nat k ->
  exists st, while k (fun '(_, exp, _) => 0 <? exp) pow_body (base, exp, acc) = Some st.
Proof.
  induction k as [|k IH]; intros base exp acc H; cbn [while].
  - change (2 ^ Z.of_nat 0) with 1 in H. destruct (Z.ltb_spec 0 exp); [lia|]. eauto.
  - destruct (Z.ltb_spec 0 exp); [|eauto]. unfold pow_body at 2. apply IH.
    rewrite Z.shiftr_div_pow2 by lia. change (2 ^ 1) with 2.
    rewrite Nat2Z.inj_succ, Z.pow_succ_r in H by lia. split.
    + apply Z.div_pos; lia.
    + apply Z.div_lt_upper_bound; lia.
Qed.

Lemma pow_value self e : wf self -> 0 <= e < 2 ^ 64 ->
  exists r, pow self e = Some r /\ wf r /\ length r = length self /\
            value r = (value self ^ e) mod cap (length self).
Proof.
  intros Hw He. unfold pow.
  rewrite (w64_small e) by (rewrite BASE_val; exact He).
  destruct (pow_terminates_gen 64 self e (create 1 (length self)) He) as [[[b x] acc] E].
  change (Z.to_nat 64) with 64%nat in *. rewrite E.
  assert (He0 : 0 <= e) by lia.
  destruct (pow_inv self e (length self) Hw eq_refl He0 _ _ _ _ _ Hw (create_wf _ _) eq_refl (create_length _ _) He0 E)
    as (W & L & V). cbn [snd] in *.
  exists acc. repeat split; auto. rewrite <- (Z.mod_small (value acc) (cap (length self))).
  - rewrite V, create_value. rewrite Z.mul_mod_idemp_l by (pose proof (cap_pos (length self)); lia).
    f_equal. lia.
  - rewrite <- L. apply value_bound; exact W.
Qed.

Lemma create_static_call v n : 0 <= v < cap n -> exists d, create_static v n = Some d /\ call d = v.
Proof.
  intros H. exists (create v n). rewrite create_static_eq. destruct (Z.ltb_spec v 0); [lia|].
  split; [reflexivity|]. rewrite call_value, create_value. apply Z.mod_small, H.
Qed.
