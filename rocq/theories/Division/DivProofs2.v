(** Proofs about division, second part: the whole algorithm. *)
From Coq Require Import List ZArith QArith Bool Lia Lqa.
Import ListNotations.
From Verif.QFloat Require Import QFModel QFSpec QFProofs.
From Verif.Order Require Import OrderModel OrderSpec OrderProofs.
From Verif.Division Require Import ThapModel ThapProofs DivModel DivProofs.
Local Open Scope Z_scope.

Lemma x_second bits q s : x_second_last (bits ++ [q; s]) = bits ++ [negb q; s].
Proof.
  unfold x_second_last. cbv zeta. rewrite app_length. cbn [length]. replace (length bits + 2 - 2)%nat with (length bits) by lia. replace (length bits + 2 - 1)%nat with (length bits + 1)%nat by lia.
  rewrite firstn_exact, bit_exact by reflexivity. f_equal. f_equal. change (bits ++ [q; s]) with (bits ++ [q] ++ [s]). rewrite app_assoc. apply skipn_exact. rewrite app_length. reflexivity.
Qed.
Lemma testbit_odd a n : 0 <= n -> Z.testbit a n = Z.odd (a / 2 ^ n).
Proof. intros H. rewrite Z.testbit_odd, Z.shiftr_div_pow2 by exact H. reflexivity. Qed.
Lemma flip_last_word c k z : flip_last c (word (S k) z) = word (S k) (z + 2 ^ Z.of_nat k * Z.b2z c).
Proof.
  unfold flip_last. rewrite word_removelast, word_last, word_S, word_add_high. f_equal. f_equal. rewrite !testbit_odd by lia. rewrite Z.mul_comm, Z.div_add by (pose proof (p2pos (Z.of_nat k)); lia).
  rewrite Z.odd_add. destruct c; cbn [Z.b2z Z.odd]; destruct (Z.odd (z / 2 ^ Z.of_nat k)); reflexivity.
Qed.
Lemma word_cons n b z : b :: word n z = word (S n) (2 * z + Z.b2z b).
Proof.
  unfold word. cbn [seq map]. rewrite <- seq_shift, map_map. f_equal; [change (Z.of_nat 0) with 0; rewrite Z.testbit_0_r; reflexivity|].
  apply map_ext. intros i. rewrite Nat2Z.inj_succ, Z.testbit_succ_r by lia. reflexivity.
Qed.
Lemma decr_word n z : decr (word n z) = word n (z - 1).
Proof. unfold decr. rewrite word_length. apply word_add_code. Qed.
Lemma half_step s n z : flip_by s (decr (flip_by s (true :: word n z))) = false :: word n (z + Z.b2z s).
Proof.
  rewrite word_cons, flip_word, decr_word, flip_word, word_cons. f_equal. destruct s; cbn [Z.b2z]; lia.
Qed.
Lemma set_ex_same d : set_ex d (ex d) = d. Proof. destruct d; reflexivity. Qed.

Lemma sign_scale x e : 0 <= e -> (x * 2 ^ e <? 0) = (x <? 0).
Proof. intros H. pose proof (p2pos e H). destruct (Z.ltb_spec x 0), (Z.ltb_spec (x * 2 ^ e) 0); try reflexivity; nia. Qed.
Lemma mul_bound a v u t : 0 < u -> 0 < v -> 1 <= t -> - v <= a < v -> - (t * (v * u)) <= a * u < t * (v * u).
Proof. intros. assert (v * u <= t * (v * u)) by nia. nia. Qed.
Lemma capacity D K m z : 2 <= K -> 0 <= m -> Z.abs D <= 2 ^ (K - 2) -> - (Z.abs D * 2 ^ (m + 1)) <= z < Z.abs D * 2 ^ (m + 1) -> - 2 ^ (K + m) <= z < 2 ^ (K + m).
Proof.
  intros HK Hm DK B. assert (P : Z.abs D * 2 ^ (m + 1) <= 2 ^ (K - 2) * 2 ^ (m + 1)) by (apply Z.mul_le_mono_nonneg_r; [apply Z.pow_nonneg; lia|exact DK]).
  rewrite <- Z.pow_add_r in P by lia. assert (P2 : 2 ^ (K - 2 + (m + 1)) <= 2 ^ (K + m)) by (apply Z.pow_le_mono_r; lia). lia.
Qed.

Lemma final_eq Nh D c P R (q s : bool) : (if q then Nh - D * P else Nh + D * P) = D * (2 * c - P + 1) + R ->
  Nh = (c - P * Z.b2z (negb q) + Z.b2z s) * (2 * D) + (if s then R - D else R + D).
Proof.
  intros H. destruct q; [assert (E : Nh = D * (2 * c - P + 1) + R + D * P) by lia|assert (E : Nh = D * (2 * c - P + 1) + R - D * P) by lia]; rewrite E; destruct s; cbn [negb Z.b2z]; ring.
Qed.
Lemma wrap_eq c P (x s : bool) : 0 < P -> let q := negb (xorb x s) in
  (c + P * Z.b2z (negb q) + 2 * P * Z.b2z s + Z.b2z s + 2 * P * Z.b2z x) mod (2 * (2 * P)) = (c - P * Z.b2z (negb q) + Z.b2z s) mod (2 * (2 * P)).
Proof.
  intros H q. unfold q. rewrite <- (Z.mod_add (c - P * _ + _) 1) by lia. destruct x, s; cbn [xorb negb Z.b2z]; try (f_equal; lia). rewrite Z.mod_add by lia. f_equal. lia.
Qed.
Lemma rem_range D R : D <> 0 -> - Z.abs D <= R < Z.abs D -> 0 <= (if D <? 0 then R - D else R + D) < 2 * Z.abs D.
Proof. intros H B. destruct (Z.ltb_spec D 0); lia. Qed.
Lemma quot_range c m (q s : bool) : 0 <= c < 2 ^ Z.of_nat m -> - 2 ^ Z.of_nat (S m) <= c - 2 ^ Z.of_nat m * Z.b2z (negb q) + Z.b2z s < 2 ^ Z.of_nat (S m).
Proof. intros H. replace (2 ^ Z.of_nat (S m)) with (2 * 2 ^ Z.of_nat m) by (rewrite <- two_step by lia; f_equal; lia). destruct q, s; cbn [negb Z.b2z]; lia. Qed.
Lemma rem_fits D K : 2 <= K -> Z.abs D <= 2 ^ (K - 2) -> 2 * Z.abs D <= 2 ^ (K - 1).
Proof. intros H B. replace (K - 1) with (K - 2 + 1) by lia. rewrite two_step by lia. lia. Qed.

Lemma int_div_ok num d : wf num -> wf d -> (1 <= msize (form num))%nat -> (1 <= msize (form d))%nat -> 0 <= ex num -> 0 <= ex d -> ex d <= top num -> mant d <> 0 ->
  let re := Z.min (ex num) (ex d - 1) in
  exists m q K R g, q_int_div num d = Some (mkqf (word (S m) q) 0 true, mkqf (word (S K) R) re true, num, d, g) /\ Forall (fun q => q = false) g /\ m = Z.to_nat (top num - ex d + 1) /\ Z.of_nat K = Z.of_nat (msize (form d)) + (ex d - re) /\
    - 2 ^ Z.of_nat m <= q < 2 ^ Z.of_nat m /\ 0 <= R < 2 ^ Z.of_nat K /\
    mant num * 2 ^ (ex num - re) = q * (mant d * 2 ^ (ex d - re)) + R /\ 0 <= R < Z.abs (mant d) * 2 ^ (ex d - re).
Proof.
  intros Wn Wd Mn Md En Ed NT D0 re. unfold q_int_div. replace ((ex num <? 0) || (ex d <? 0)) with false by (symmetry; apply orb_false_iff; split; apply Z.ltb_ge; lia).
  set (n := top num - ex d + 1). fold re. cbv zeta.
  assert (Tex : forall x, top (set_ex d x) = x + Z.of_nat (msize (form d))) by (intros; reflexivity). rewrite Tex.
  set (rm := Z.max (top num) (ex d + (n - 1) + Z.of_nat (msize (form d))) + 1).
  pose proof (top_eq num) as Tn. pose proof (top_eq d) as Td.
  assert (Hre : re <= ex num /\ re <= ex d - 1) by (unfold re; lia). destruct Hre as [Re1 Re2].
  set (m := Z.to_nat (n - 1)). assert (Hm : n = Z.of_nat m + 1) by (unfold m, n; lia).
  set (K := Z.to_nat (rm - re - Z.of_nat m)). assert (HK : Z.of_nat K = rm - re - Z.of_nat m) by (unfold K, rm; lia).
  assert (K1 : ex d + Z.of_nat (msize (form d)) + 1 <= re + Z.of_nat K) by (rewrite HK; unfold rm; lia).
  assert (LEN : S (Z.to_nat (rm - re)) = S (K + m)) by (unfold K; lia). rewrite LEN.
  rewrite init_ok; [|exact Wn|exact Mn|lia|unfold rm in HK; lia]. set (Nh := mant num * 2 ^ (ex num - re)).
  set (D := mant d * 2 ^ (ex d - 1 - re)).
  assert (Dne : D <> 0) by (unfold D; pose proof (p2pos (ex d - 1 - re) ltac:(lia)); nia).
  assert (Dabs : Z.abs D = Z.abs (mant d) * 2 ^ (ex d - 1 - re)) by (unfold D; rewrite Z.abs_mul; f_equal; apply Z.abs_eq, Z.pow_nonneg; lia).
  assert (DK : Z.abs D <= 2 ^ (Z.of_nat K - 2)).
  { rewrite Dabs. pose proof (mant_range d Wd) as RD. assert (A : Z.abs (mant d) <= 2 ^ Z.of_nat (msize (form d))) by lia.
    apply Z.le_trans with (2 ^ Z.of_nat (msize (form d)) * 2 ^ (ex d - 1 - re)); [apply Z.mul_le_mono_nonneg_r; [apply Z.pow_nonneg; lia|exact A]|]. rewrite <- Z.pow_add_r by lia. apply Z.pow_le_mono_r; lia. }
  assert (NB : - (Z.abs D * 2 ^ (Z.of_nat m + 1)) <= Nh < Z.abs D * 2 ^ (Z.of_nat m + 1)).
  { rewrite Dabs, <- Z.mul_assoc, <- Z.pow_add_r by lia. unfold Nh. pose proof (mant_range num Wn) as RN. pose proof (mant_range_top num Wn) as RT.
    assert (P : 2 ^ (ex d - 1 - re + (Z.of_nat m + 1)) = 2 ^ Z.of_nat (msize (form num)) * 2 ^ (ex num - re)) by (rewrite <- Z.pow_add_r by lia; f_equal; lia). rewrite P.
    pose proof (p2pos (ex num - re) ltac:(lia)) as P1. pose proof (p2pos (Z.of_nat (msize (form num))) ltac:(lia)) as P2.
    apply mul_bound; [exact P1|exact P2| |exact (conj (proj1 RN) RT)]. clear - D0. lia. }
  assert (SN : sg num && sign_of num = (Nh <? 0)).
  { rewrite sign_mant by exact Wn. symmetry. apply sign_scale. lia. }
  assert (SD : sg d && sign_of d = (D <? 0)).
  { rewrite sign_mant by exact Wd. symmetry. apply sign_scale. lia. }
  replace (Z.to_nat n) with (S m) by (clear - Hm; lia). cbn [div_loop].
  destruct (step_ok true (set_ex d (ex d + (n - 1))) re [false; sg d && sign_of d] (K + m) Nh) as (g1 & G1 & C1); [exact Wd|exact Md|cbn [ex set_ex]; lia|rewrite Tex; lia| |reflexivity|].
  { rewrite Nat2Z.inj_add. apply (capacity D); [lia|lia|exact DK|exact NB]. }
  cbv iota zeta in G1. rewrite flip_false in G1. change (sg (set_ex d (ex d + (n - 1)))) with (sg d). change (sign_of (set_ex d (ex d + (n - 1)))) with (sign_of d). rewrite G1. cbn [ex set_ex tl].
  rewrite mant_set_ex, !set_ex_twice. change (mkqf (reg d) (ex d + (n - 1) - 1) (sg d)) with (set_ex d (ex d + (n - 1) - 1)). replace (ex d + (n - 1) - 1) with (ex d + Z.of_nat m - 1) by lia.
  assert (A : mant d * 2 ^ (ex d + Z.of_nat m - 1 - re) = D * 2 ^ Z.of_nat m) by (unfold D; rewrite <- Z.mul_assoc, <- Z.pow_add_r by lia; f_equal; f_equal; lia). rewrite A.
  assert (SD' : (mant d <? 0) = (D <? 0)) by (rewrite <- SD; symmetry; apply sign_mant, Wd). rewrite SD'.
  set (q := negb (xorb (Nh <? 0) (D <? 0))). pose proof (next_bound D (Z.of_nat m) Nh ltac:(lia) Dne NB) as B1. cbv zeta in B1. fold q in B1.
  set (z' := if q then Nh - D * 2 ^ Z.of_nat m else Nh + D * 2 ^ Z.of_nat m) in *.
  destruct (loop_ok d re K D Wd Md Re2 ltac:(lia) ltac:(lia) eq_refl Dne DK m (q :: [sg d && sign_of d]) z' B1) as (bits & R0 & g2 & G2 & C2 & LB & Z2 & RB). cbn [hd] in G2. rewrite G2.
  cbn [set_reg reg ex sg set_ex]. rewrite flip_flip_by, xorb_nilpotent, flip_false. rewrite x_second. fold (set_ex d (ex d - 1)).
  change (sign_of (set_ex d (ex d - 1))) with (sign_of d). 
  set (Z0 := code bits + 2 ^ Z.of_nat m * Z.b2z (negb q) + 2 ^ (Z.of_nat m + 1) * Z.b2z (D <? 0)).
  assert (QR : bits ++ [negb q; sg d && sign_of d] = word (S (S m)) Z0).
  { symmetry. rewrite <- (word_code (bits ++ [negb q; sg d && sign_of d]) (S (S m))) by (rewrite app_length; cbn; lia). f_equal. unfold Z0. rewrite code_app, LB, SD. cbn [code]. rewrite two_step by lia. ring. }
  unfold set_reg. cbn [reg ex sg]. rewrite QR. set (sD := D <? 0) in *.
  assert (STEP : (if sg d then (tl (flip_by (sign_of d) (decr (flip_by (sign_of d) (true :: word (S (S m)) Z0)))), mkqf (flip_by (sign_of d) (word K R0)) re true, [hd false (flip_by (sign_of d) (decr (flip_by (sign_of d) (true :: word (S (S m)) Z0))))])
     else (word (S (S m)) Z0, mkqf (word K R0) re true, [])) = (word (S (S m)) (Z0 + Z.b2z sD), mkqf (word K (if sD then - R0 - 1 else R0)) re true, if sg d then [false] else [])).
  { destruct (sg d); cbn [andb] in SD.
    - rewrite half_step, flip_word, SD. reflexivity.
    - rewrite <- SD. cbn [Z.b2z]. rewrite Z.add_0_r. reflexivity. }
  rewrite STEP.
  destruct (add_words K re (set_ex d (ex d - 1)) (if sD then - R0 - 1 else R0)) as (g3 & G3 & C3); [exact Wd|exact Md|cbn [ex set_ex]; lia|rewrite Tex; lia|].
  rewrite G3. cbn [ex set_ex set_reg reg]. rewrite mant_set_ex. fold D.
  set (R := if sD then R0 - D else R0 + D).
  assert (RE : (if sg d then mkqf (flip_by (sign_of d) (word K ((if sD then - R0 - 1 else R0) + D))) re true else mkqf (word K ((if sD then - R0 - 1 else R0) + D)) re true) = mkqf (word K R) re true).
  { destruct (sg d); cbn [andb] in SD.
    - f_equal. rewrite flip_word, SD. f_equal. unfold R. destruct sD; lia.
    - f_equal. f_equal. unfold R. rewrite <- SD. lia. }
  change (sg (set_ex d (ex d - 1))) with (sg d). cbn [sg]. rewrite RE. rewrite set_ex_twice. replace (ex d - 1 + 1) with (ex d) by (clear; lia). rewrite set_ex_same.
  set (qv := code bits - 2 ^ Z.of_nat m * Z.b2z (negb q) + Z.b2z sD).
  assert (CB : 0 <= code bits < 2 ^ Z.of_nat m) by (rewrite <- LB; apply code_range).
  assert (QW : (if sg num then flip_last (sign_of num) (word (S (S m)) (Z0 + Z.b2z sD)) else word (S (S m)) (Z0 + Z.b2z sD)) = word (S (S m)) qv).
  { transitivity (word (S (S m)) (Z0 + Z.b2z sD + 2 ^ Z.of_nat (S m) * Z.b2z (Nh <? 0))).
    - destruct (sg num); cbn [andb] in SN.
      + rewrite flip_last_word, SN. reflexivity.
      + rewrite <- SN. cbn [Z.b2z]. f_equal. lia.
    - apply word_eq. assert (P1 : 2 ^ Z.of_nat (S m) = 2 ^ (Z.of_nat m + 1)) by (f_equal; lia). assert (P2 : 2 ^ Z.of_nat (S (S m)) = 2 * 2 ^ (Z.of_nat m + 1)) by (rewrite <- two_step by lia; f_equal; lia).
      rewrite P1, P2. unfold qv, Z0. rewrite two_step by (clear; lia). unfold q, sD. apply wrap_eq, p2pos. clear; lia. }
  rewrite QW. replace (n - Z.max 0 n) with 0 by (clear - Hm; lia).
  destruct K as [|K']; [clear - K1 Md Re2; lia|]. exists (S m), qv, K', R, (g1 ++ g2 ++ (if sg d then [false] else []) ++ g3).
  assert (R2 : 0 <= R < 2 * Z.abs D) by (unfold R, sD; apply rem_range; assumption).
  split; [|split; [|split; [|split; [|split; [|split; [|split]]]]]].
  - f_equal. f_equal. rewrite <- app_assoc. reflexivity.
  - apply Forall_app; split; [exact C1|]. apply Forall_app; split; [exact C2|]. apply Forall_app; split; [|exact C3]. destruct (sg d); repeat constructor.
  - clear - Hm. unfold n in Hm. lia.
  - clear - HK Hm Tn Md Mn. unfold rm, n in *. lia.
  - apply quot_range. exact CB.
  - split; [exact (proj1 R2)|]. eapply Z.lt_le_trans; [exact (proj2 R2)|]. replace (Z.of_nat K') with (Z.of_nat (S K') - 1) by (clear; lia). apply rem_fits; [lia|exact DK].
  - replace (mant d * 2 ^ (ex d - re)) with (2 * D) by (unfold D; replace (ex d - re) with (ex d - 1 - re + 1) by (clear; lia); rewrite two_step by lia; ring).
    unfold qv, R. apply final_eq. exact Z2.
  - replace (Z.abs (mant d) * 2 ^ (ex d - re)) with (2 * Z.abs D) by (rewrite Dabs; replace (ex d - re) with (ex d - 1 - re + 1) by (clear; lia); rewrite two_step by lia; ring). exact R2.
Qed.
