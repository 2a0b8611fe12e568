(** Proofs: angles, the existence of a fitting multiple, the invariant of the loop. *)
From Coq Require Import Reals Lra Lia List Arith Bool Psatz.
Import ListNotations.
From Verif.Estimate Require Import EstModel EstSpec.
Local Open Scope R_scope.
(** ** Special angles *)
Lemma cos_triple x : cos (3 * x) = 4 * cos x ^ 3 - 3 * cos x.
Proof. replace (3 * x) with (2 * x + x) by ring. rewrite cos_plus, cos_2a, sin_2a. pose proof (sin2_cos2 x) as H. unfold Rsqr in H. transitivity (cos x ^ 3 - 3 * cos x * (sin x * sin x)); [ring|]. replace (sin x * sin x) with (1 - cos x * cos x) by lra. ring. Qed.
Lemma cos_double x : cos (2 * x) = 2 * cos x ^ 2 - 1.
Proof. rewrite cos_2a. pose proof (sin2_cos2 x) as H. unfold Rsqr in H. nra. Qed.
Lemma sin_sq x : sin x ^ 2 = (1 - cos (2 * x)) / 2.
Proof. rewrite cos_2a_sin. field. Qed.
Lemma fifth : let d := cos (PI / 5) in 4 * d ^ 2 = 2 * d + 1 /\ 0.809 < d < 0.8091.
Proof.
  intros d. pose proof PI_RGT_0 as P. assert (D : 0 < d) by (apply cos_gt_0; lra).
  assert (H : cos (2 * (PI / 5)) = - cos (3 * (PI / 5))) by (replace (2 * (PI / 5)) with (PI - 3 * (PI / 5)) by field; rewrite cos_minus, cos_PI, sin_PI; ring).
  rewrite cos_double, cos_triple in H. fold d in H. assert (Q : (d + 1) * (4 * d ^ 2 - 2 * d - 1) = 0) by nra. apply Rmult_integral in Q. assert (Q' : 4 * d ^ 2 - 2 * d - 1 = 0) by (destruct Q; lra). clear Q H. split; [lra|]. split; nra.
Qed.
Lemma seventh : let c := cos (PI / 7) in 8 * c ^ 3 = 4 * c ^ 2 + 4 * c - 1 /\ 0.9 < c < 1.
Proof.
  intros c. pose proof PI_RGT_0 as P. assert (D : cos (PI / 6) < c) by (apply cos_decreasing_1; lra). rewrite cos_PI6 in D.
  assert (S3 : 1.73 < sqrt 3) by (apply Rsqr_incrst_0; [rewrite Rsqr_sqrt by lra; unfold Rsqr; lra|lra|apply sqrt_pos]).
  assert (U : c < 1) by (rewrite <- cos_0; apply cos_decreasing_1; lra).
  assert (H : cos (2 * (2 * (PI / 7))) = - cos (3 * (PI / 7))) by (replace (2 * (2 * (PI / 7))) with (PI - 3 * (PI / 7)) by field; rewrite cos_minus, cos_PI, sin_PI; ring).
  rewrite !cos_double, cos_triple in H. fold c in H. assert (Q : (c + 1) * (8 * c ^ 3 - 4 * c ^ 2 - 4 * c + 1) = 0) by nra. apply Rmult_integral in Q. assert (Q' : 8 * c ^ 3 - 4 * c ^ 2 - 4 * c + 1 = 0) by (destruct Q; lra). clear Q H. split; [lra|]. split; [|exact U].
  assert (0.865 < c) by lra. destruct (Rlt_or_le 0.9 c) as [|G]; [assumption|exfalso]. assert (Z : (c - 0.865) * (0.9 - c) >= 0) by nra. assert (Z' : (c - 0.865) * (0.9 - c) * c >= 0) by nra. nra.
Qed.
Lemma E_value : 2 * E = 1 / 4 - cos (3 * (PI / 7)) / 2.
Proof. unfold E. rewrite !sin_sq. replace (2 * (PI * 3 / 14)) with (3 * (PI / 7)) by field. replace (2 * (PI * 1 / 6)) with (PI / 3) by field. rewrite cos_PI3. field. Qed.
Lemma E_pos : 0 < E < 1 / 2.
Proof. pose proof E_value as V. rewrite cos_triple in V. destruct seventh as [A B]. set (c := cos (PI / 7)) in *. split; nra. Qed.
Lemma gap_low : 2 * E <= sin (PI / 6) ^ 2 - sin (PI / 10) ^ 2.
Proof.
  rewrite E_value, cos_triple, !sin_sq. replace (2 * (PI / 6)) with (PI / 3) by field. replace (2 * (PI / 10)) with (PI / 5) by field. rewrite cos_PI3. destruct seventh as [A B]. destruct fifth as [A' B']. set (c := cos (PI / 7)) in *. set (d := cos (PI / 5)) in *. nra.
Qed.
Lemma gap_middle : 2 * E <= sin (PI / 5) ^ 2 - sin (PI / 7) ^ 2.
Proof.
  rewrite E_value, cos_triple, !sin_sq, !cos_double. destruct seventh as [A B]. destruct fifth as [A' B']. set (c := cos (PI / 7)) in *. set (d := cos (PI / 5)) in *. nra.
Qed.
Lemma gap_high : 2 * E = sin (3 * PI / 14) ^ 2 - sin (PI / 6) ^ 2.
Proof. unfold E. replace (PI * 3 / 14) with (3 * PI / 14) by field. replace (PI * 1 / 6) with (PI / 6) by field. field. Qed.
(** ** Squares of sines grow *)
Lemma sq_le x y : 0 <= x -> x <= y -> y <= PI / 2 -> sin x ^ 2 <= sin y ^ 2.
Proof. intros A B D. pose proof PI_RGT_0. assert (0 <= sin x) by (apply sin_ge_0; lra). assert (sin x <= sin y) by (apply sin_incr_1; lra). nra. Qed.
Lemma sq_lt x y : 0 <= x -> x < y -> y <= PI / 2 -> sin x ^ 2 < sin y ^ 2.
Proof. intros A B D. pose proof PI_RGT_0. assert (0 <= sin x) by (apply sin_ge_0; lra). assert (sin x < sin y) by (apply sin_increasing_1; lra). nra. Qed.
Lemma half x y : 0 <= x -> x < PI / 6 -> PI / 6 < y -> y <= PI / 2 -> sin y ^ 2 - sin x ^ 2 <= 2 * E ->
  (PI / 10 <= x /\ y <= PI / 5) \/ (PI / 7 <= x /\ y <= 3 * PI / 14).
Proof.
  intros A B D G H. pose proof PI_RGT_0. destruct (Rle_or_lt (PI / 10) x) as [X|X].
  2: { exfalso. pose proof gap_low. pose proof (sq_lt x (PI / 10) A X ltac:(lra)). pose proof (sq_lt (PI / 6) y ltac:(lra) D G). lra. }
  destruct (Rle_or_lt y (PI / 5)) as [Y|Y]; [left; split; assumption|]. destruct (Rle_or_lt (PI / 7) x) as [X'|X'].
  2: { exfalso. pose proof gap_middle. pose proof (sq_lt x (PI / 7) A X' ltac:(lra)). pose proof (sq_lt (PI / 5) y ltac:(lra) Y G). lra. }
  destruct (Rle_or_lt y (3 * PI / 14)) as [Y'|Y']; [right; split; assumption|]. exfalso. pose proof gap_high. pose proof (sq_lt x (PI / 6) A B ltac:(lra)). pose proof (sq_lt (3 * PI / 14) y ltac:(lra) Y' G). lra.
Qed.
Lemma fit_exists x y : 0 <= x -> x <= y -> y <= PI / 2 -> sin y ^ 2 - sin x ^ 2 <= 2 * E ->
  exists L j, In (L, j) (combine L_arr m_arr) /\ INR j * (PI / 2) <= INR L * x /\ INR L * y <= (INR j + 1) * (PI / 2).
Proof.
  intros A B D H. pose proof PI_RGT_0. assert (W : forall L j, In (L, j) (combine L_arr m_arr) -> INR j * (PI / 2) <= INR L * x /\ INR L * y <= (INR j + 1) * (PI / 2) ->
    exists L j, In (L, j) (combine L_arr m_arr) /\ INR j * (PI / 2) <= INR L * x /\ INR L * y <= (INR j + 1) * (PI / 2)) by (intros L j I Q; exists L, j; split; assumption).
  destruct (Rle_or_lt y (PI / 6)) as [Y|Y]; [apply (W 3%nat 0%nat); [cbn; tauto|cbn; lra]|]. destruct (Rle_or_lt (PI / 3) x) as [X|X]; [apply (W 3%nat 2%nat); [cbn; tauto|cbn; lra]|].
  destruct (Rle_or_lt (PI / 6) x) as [X'|X'].
  - destruct (Rle_or_lt y (PI / 3)) as [Y'|Y']; [apply (W 3%nat 1%nat); [cbn; tauto|cbn; lra]|].
    destruct (half (PI / 2 - y) (PI / 2 - x)) as [[U V]|[U V]]; try lra.
    + rewrite !sin_shift. pose proof (sin2_cos2 x) as P. pose proof (sin2_cos2 y) as Q. unfold Rsqr in P, Q. nra.
    + apply (W 5%nat 3%nat); [cbn; tauto|cbn; lra].
    + apply (W 7%nat 4%nat); [cbn; tauto|cbn; lra].
  - destruct (half x y) as [[U V]|[U V]]; try assumption.
    + apply (W 5%nat 1%nat); [cbn; tauto|cbn; lra].
    + apply (W 7%nat 2%nat); [cbn; tauto|cbn; lra].
Qed.
(** ** asin of roots *)
Lemma root_angle b : 0 <= b <= 1 -> 0 <= asin (sqrt b) <= PI / 2 /\ sin (asin (sqrt b)) ^ 2 = b.
Proof.
  intros H. assert (S : 0 <= sqrt b <= 1) by (split; [apply sqrt_pos|rewrite <- sqrt_1; apply sqrt_le_1; lra]). rewrite sin_asin by lra. split; [|rewrite <- Rsqr_pow2; apply Rsqr_sqrt; lra]. split; [|apply asin_bound].
  destruct (Rle_or_lt 0 (asin (sqrt b))) as [|N]; [assumption|]. exfalso. pose proof (sin_asin (sqrt b) ltac:(lra)) as Q. pose proof (asin_bound (sqrt b)). pose proof PI_RGT_0. assert (sin (asin (sqrt b)) < 0) by (apply sin_lt_0_var; lra). lra.
Qed.
Lemma root_order x v : 0 <= x <= PI / 2 -> 0 <= v <= PI / 2 -> sin x ^ 2 <= sin v ^ 2 -> x <= v.
Proof. intros A B H. destruct (Rle_or_lt x v) as [|G]; [assumption|]. pose proof (sq_lt v x ltac:(lra) G ltac:(lra)). lra. Qed.
Lemma width x y : 0 <= x -> x <= y -> y <= PI / 2 -> sin y ^ 2 - sin x ^ 2 <= 2 * E -> y - x <= 2 * F.
Proof.
  intros A B D H. unfold F. pose proof PI_RGT_0. destruct (root_angle (2 * E)) as [R1 R2]; [pose proof E_pos; lra|]. replace (2 * (1 / 2 * asin (sqrt (2 * E)))) with (asin (sqrt (2 * E))) by field.
  apply root_order; [lra|exact R1|]. rewrite R2. eapply Rle_trans; [|exact H].
  assert (I : sin y ^ 2 - sin x ^ 2 = sin (y + x) * sin (y - x)) by (rewrite sin_plus, sin_minus; pose proof (sin2_cos2 x) as P; pose proof (sin2_cos2 y) as Q; unfold Rsqr in P, Q; transitivity (sin y * sin y * (cos x * cos x) - cos y * cos y * (sin x * sin x)); [replace (cos x * cos x) with (1 - sin x * sin x) by lra; replace (cos y * cos y) with (1 - sin y * sin y) by lra; ring|ring]).
  rewrite I. assert (0 <= sin (y - x)) by (apply sin_ge_0; lra). assert (sin (y - x) <= sin (y + x)) by (rewrite sin_plus, sin_minus; assert (0 <= cos y) by (apply cos_ge_0; lra); assert (0 <= sin x) by (apply sin_ge_0; lra); nra). nra.
Qed.
(** ** Quadrants *)
Lemma sin_quadrant m u : sin (INR m * (PI / 2) + u) ^ 2 = if Nat.odd m then cos u ^ 2 else sin u ^ 2.
Proof.
  revert u. induction m as [|m IH]; intros u; [change (INR 0) with 0; rewrite Rmult_0_l, Rplus_0_l; reflexivity|]. rewrite S_INR. replace ((INR m + 1) * (PI / 2) + u) with (INR m * (PI / 2) + (PI / 2 + u)) by ring. rewrite IH, Nat.odd_succ, <- Nat.negb_odd. destruct (Nat.odd m); cbn [negb].
  - rewrite cos_plus, cos_PI2, sin_PI2. ring.
  - rewrite sin_plus, cos_PI2, sin_PI2. ring.
Qed.
Definition turned (m : nat) (x : R) : R := if Nat.odd m then PI / 2 - x else x.
Lemma angle_turned m K b : (0 < K)%nat -> INR K * angle m K b = INR m * (PI / 2) + turned m (asin (sqrt b)).
Proof.
  intros H. assert (INR K <> 0) by (apply not_0_INR; lia). unfold angle, turned. destruct (Nat.odd m) eqn:O.
  - assert (M : (m mod 2 = 1)%nat) by (apply Nat.odd_spec in O; destruct O as [q ->]; rewrite Nat.add_mod, Nat.mul_comm, Nat.mod_mul by lia; reflexivity). rewrite M, plus_INR. cbn [INR pow]. field. assumption.
  - assert (M : (m mod 2 = 0)%nat) by (rewrite <- Nat.negb_even in O; apply negb_false_iff, Nat.even_spec in O; destruct O as [q ->]; rewrite Nat.mul_comm; apply Nat.mod_mul; lia). rewrite M, Nat.add_0_r. cbn [pow]. field. assumption.
Qed.
(** ** One pass *)
Definition bounds (A : R) : R * R := (Rmax (A - E) 0, Rmin (A + E) 1).
Lemma bounds_ok A : 0 <= A <= 1 -> let '(b, s) := bounds A in 0 <= b /\ b <= s /\ s <= 1 /\ s - b <= 2 * E.
Proof. intros H. cbn. pose proof E_pos. unfold Rmax, Rmin. destruct (Rle_dec (A - E) 0), (Rle_dec (A + E) 1); lra. Qed.
Lemma fits_spec m K tb tsh L j : fits m K tb tsh (L, j) = true <->
  (INR (L * m + j) * (PI / 2) <= INR L * (INR K * tb) <= INR (L * m + j) * (PI / 2) + PI / 2) /\ (INR (L * m + j) * (PI / 2) <= INR L * (INR K * tsh) <= INR (L * m + j) * (PI / 2) + PI / 2).
Proof.
  unfold fits. replace (INR L * (INR K * tb)) with (INR L * INR K * tb) by ring. replace (INR L * (INR K * tsh)) with (INR L * INR K * tsh) by ring. replace (INR (L * m + j) * (PI / 2)) with (INR (L * m + j) * PI / 2) by field.
  destruct (Rle_dec _ (INR L * INR K * tb)), (Rle_dec (INR L * INR K * tb) _), (Rle_dec _ (INR L * INR K * tsh)), (Rle_dec (INR L * INR K * tsh) _); cbn [andb]; split; intros Q; try discriminate; try tauto; repeat split; assumption.
Qed.
Lemma pass m K A : (0 < K)%nat -> 0 <= A <= 1 -> let '(tb, tsh) := compute_thetas m K A in
  INR K * Rabs (tb - tsh) <= 2 * F /\
  exists L j, compute_Li m K tb tsh = (L, L * m + j)%nat /\ In (L, j) (combine L_arr m_arr) /\ fits m K tb tsh (L, j) = true.
Proof.
  intros HK HA. unfold compute_thetas. pose proof (bounds_ok A HA) as Bd. cbn in Bd. set (b := Rmax (A - E) 0) in *. set (s := Rmin (A + E) 1) in *. destruct Bd as (B1 & B2 & B3 & B4).
  destruct (root_angle b ltac:(lra)) as [X1 X2]. destruct (root_angle s ltac:(lra)) as [Y1 Y2]. pose proof (angle_turned m K b HK) as TB. pose proof (angle_turned m K s HK) as TS. set (x := asin (sqrt b)) in *. set (y := asin (sqrt s)) in *.
  assert (XY : x <= y) by (apply root_order; lra). assert (D : sin y ^ 2 - sin x ^ 2 <= 2 * E) by lra. assert (KP : 0 < INR K) by (apply lt_0_INR, HK). set (tb := angle m K b) in *. set (tsh := angle m K s) in *. pose proof PI_RGT_0 as PP.
  split.
  - rewrite <- (Rabs_right (INR K)) at 1 by lra. rewrite <- Rabs_mult, Rmult_minus_distr_l, TB, TS. pose proof (width x y ltac:(lra) XY ltac:(lra) D). unfold turned. destruct (Nat.odd m); unfold Rabs; destruct (Rcase_abs _); lra.
  - assert (Ex : exists c, In c (combine L_arr m_arr) /\ fits m K tb tsh c = true).
    { assert (T : exists p q, 0 <= p /\ p <= q /\ q <= PI / 2 /\ sin q ^ 2 - sin p ^ 2 <= 2 * E /\ p <= turned m x <= q /\ p <= turned m y <= q).
      { unfold turned. destruct (Nat.odd m); [exists (PI / 2 - y), (PI / 2 - x)|exists x, y]; repeat split; try lra. rewrite !sin_shift. pose proof (sin2_cos2 x) as P. pose proof (sin2_cos2 y) as Q. unfold Rsqr in P, Q. nra. }
      destruct T as (p & q & P1 & P2 & P3 & P4 & P5 & P6). destruct (fit_exists p q P1 P2 P3 P4) as (L & j & I & J1 & J2). exists (L, j). split; [exact I|]. apply fits_spec. rewrite TB, TS, plus_INR, mult_INR. pose proof (pos_INR L). split; split; nra. }
    unfold compute_Li. destruct (find (fits m K tb tsh) (combine L_arr m_arr)) as [[L j]|] eqn:Fd.
    + exists L, j. apply find_some in Fd. split; [reflexivity|exact Fd].
    + exfalso. destruct Ex as (c & I & T). rewrite (find_none _ _ Fd c I) in T. discriminate.
Qed.
Lemma candidates_odd L j : In (L, j) (combine L_arr m_arr) -> Nat.odd L = true /\ (3 <= L)%nat.
Proof. cbn. intros H. repeat destruct H as [H|H]; try (injection H as <- <-; split; [reflexivity|lia]). destruct H. Qed.
(** the angle that is looked for stays between the bounds *)
Lemma between m K A t : (0 < K)%nat -> 0 <= A <= 1 -> INR m * (PI / 2) <= INR K * t <= INR m * (PI / 2) + PI / 2 -> Rabs (A - sin (INR K * t) ^ 2) <= E ->
  let '(tb, tsh) := compute_thetas m K A in (tb <= t <= tsh) \/ (tsh <= t <= tb).
Proof.
  intros HK HA HT HE. unfold compute_thetas. pose proof (bounds_ok A HA) as Bd. cbn in Bd. assert (IN : Rmax (A - E) 0 <= sin (INR K * t) ^ 2 <= Rmin (A + E) 1).
  { assert (0 <= sin (INR K * t) ^ 2 <= 1) by (pose proof (sin2_cos2 (INR K * t)) as P; unfold Rsqr in P; nra). unfold Rabs in HE. unfold Rmax, Rmin. destruct (Rle_dec (A - E) 0), (Rle_dec (A + E) 1), (Rcase_abs _); lra. }
  set (b := Rmax (A - E) 0) in *. set (s := Rmin (A + E) 1) in *. destruct Bd as (B1 & B2 & B3 & B4).
  destruct (root_angle b ltac:(lra)) as [X1 X2]. destruct (root_angle s ltac:(lra)) as [Y1 Y2]. pose proof (angle_turned m K b HK) as TB. pose proof (angle_turned m K s HK) as TS. set (x := asin (sqrt b)) in *. set (y := asin (sqrt s)) in *.
  assert (KP : 0 < INR K) by (apply lt_0_INR, HK). set (tb := angle m K b) in *. set (tsh := angle m K s) in *. pose proof PI_RGT_0 as PP.
  set (u := INR K * t - INR m * (PI / 2)) in *. assert (KT : INR K * t = INR m * (PI / 2) + u) by (unfold u; ring). rewrite KT, sin_quadrant in IN. unfold turned in TB, TS. destruct (Nat.odd m).
  - rewrite <- sin_shift in IN. assert (x <= PI / 2 - u) by (apply root_order; lra). assert (PI / 2 - u <= y) by (apply root_order; lra). right. split; apply (Rmult_le_reg_l (INR K)); lra.
  - assert (x <= u) by (apply root_order; lra). assert (u <= y) by (apply root_order; lra). left. split; apply (Rmult_le_reg_l (INR K)); lra.
Qed.
(** ** The loop *)
Section runs.
Variable measure : nat -> nat -> R.
Variables alpha eps : R.
Hypothesis SH : shares measure.
Notation body := (body_fun measure alpha eps).
Notation loop := (loop measure alpha eps).
(** the sum of the K of the calls *)
Definition Ksum (l : list (nat * Z)) : R := rsum (map (fun c => 2 * INR (fst c) + 1) l).
Lemma rsum_app l r : rsum (l ++ r) = rsum l + rsum r.
Proof. induction l as [|x l IH]; cbn; [ring|rewrite IH; ring]. Qed.
Lemma Ksum_snoc l k N : Ksum (l ++ [(k, N)]) = Ksum l + (2 * INR k + 1).
Proof. unfold Ksum. rewrite map_app, rsum_app. cbn. ring. Qed.
Lemma odd_half K : Nat.odd K = true -> 2 * INR ((K - 1) / 2) + 1 = INR K.
Proof.
  intros H. apply Nat.odd_spec in H. destruct H as [q ->]. replace (2 * q + 1 - 1)%nat with (q * 2)%nat by lia. rewrite Nat.div_mul by lia. rewrite plus_INR, mult_INR. cbn. ring.
Qed.
Lemma odd_pos K : Nat.odd K = true -> (0 < K)%nat. Proof. destruct K; [discriminate|lia]. Qed.
Lemma F_pos : 0 < F.
Proof.
  unfold F. pose proof E_pos. destruct (root_angle (2 * E) ltac:(lra)) as [[A B] D]. destruct A as [A|A]; [lra|]. rewrite <- A, sin_0 in D. lra.
Qed.
Definition growing (s : state) : Prop := Nat.odd (K_i s) = true /\ Ksum (calls s) <= INR (K_i s) / 2 /\ 3 ^ (length (calls s)) <= INR (K_i s) /\
  (calls s <> [] -> INR (K_i s) * brk s <= PI / 2 /\ Ksum (calls s) * brk s <= 3 * F).
Lemma grow s : growing s -> growing (body s) /\ length (calls (body s)) = S (length (calls s)).
Proof.
  intros (O & S1 & S3 & _). pose proof (odd_pos _ O) as KP. assert (KR : 0 < INR (K_i s)) by (apply lt_0_INR, KP). unfold body_fun. set (k := ((K_i s - 1) / 2)%nat). set (A := measure (length (calls s)) k). pose proof (pass (m_i s) (K_i s) A KP (SH _ _)) as P. destruct (compute_thetas (m_i s) (K_i s) A) as [tb tsh]. destruct P as (W & L & j & -> & I & Ft).
  destruct (candidates_odd L j I) as [OL L3]. assert (L3' : 3 <= INR L) by (replace 3 with (INR 3) by (cbn; ring); apply le_INR, L3). unfold growing. cbn [K_i calls brk m_i]. rewrite !Ksum_snoc, app_length, mult_INR. unfold k. rewrite (odd_half _ O). cbn [length]. split; [|lia]. split; [rewrite Nat.odd_mul, OL, O; reflexivity|]. split; [nra|].
  rewrite Nat.add_1_r. cbn [pow]. split; [nra|]. intros _. apply fits_spec in Ft. pose proof (Rabs_pos (tb - tsh)) as RP. split.
  - rewrite <- (Rabs_right (INR L * INR (K_i s))) by nra. rewrite <- Rabs_mult. unfold Rabs. destruct (Rcase_abs _); nra.
  - nra.
Qed.
Lemma grow_start : growing (start eps).
Proof. unfold growing, start. cbn. repeat split; try lra. all: exfalso; congruence. Qed.
Lemma loop_ends fuel : forall s, growing s -> calls s <> [] -> PI <= 4 * eps * 3 ^ fuel * INR (K_i s) -> exists t, loop fuel s = Some t /\ (length (calls t) <= length (calls s) + fuel)%nat.
Proof.
  induction fuel as [|fuel IH]; intros s G NE H; cbn [EstModel.loop].
  - destruct (Rlt_dec (2 * eps) (brk s)) as [B|B]; [exfalso|exists s; split; [reflexivity|lia]]. destruct G as (O & _ & _ & G). destruct (G NE) as [G1 _]. assert (0 < INR (K_i s)) by (apply lt_0_INR, odd_pos, O). cbn [pow] in H. nra.
  - destruct (Rlt_dec (2 * eps) (brk s)) as [B|B]; [|exists s; split; [reflexivity|lia]]. destruct (grow s G) as [G' L'].
    destruct (IH (body s) G') as (t & T & LT).
    + intros Q. rewrite Q in L'. discriminate.
    + clear IH. destruct G as (O & _). pose proof (pass (m_i s) (K_i s) (measure (length (calls s)) ((K_i s - 1) / 2)) (odd_pos _ O) (SH _ _)) as P. unfold body_fun. destruct (compute_thetas _ _ _) as [tb tsh]. destruct P as (_ & L & j & -> & I & _). destruct (candidates_odd L j I) as [_ L3]. cbn [K_i]. rewrite mult_INR. assert (L3' : 3 <= INR L) by (replace 3 with (INR 3) by (cbn; ring); apply le_INR, L3).
      cbn [pow] in H. assert (0 < INR (K_i s)) by (apply lt_0_INR, odd_pos, O). assert (0 < 3 ^ fuel) by (apply pow_lt; lra). pose proof PI_RGT_0. assert (EP : 0 < eps). { destruct (Rlt_or_le 0 eps); [assumption|exfalso]. assert (0 < 3 * 3 ^ fuel * INR (K_i s)) by nra. nra. }
      assert (0 < eps * 3 ^ fuel * INR (K_i s)) by (apply Rmult_lt_0_compat; [apply Rmult_lt_0_compat|]; assumption). nra.
    + exists t. split; [exact T|]. lia.
Qed.
(** what holds of all calls *)
Definition small (s : state) : Prop := growing s /\ (calls s = [] \/ eps * Ksum (calls s) <= (6 * F + PI) / 4) /\ forall k N, In (k, N) (calls s) -> N = shots alpha eps (2 * k + 1) /\ (k = 0%nat \/ (2 * INR k + 1) * (4 * eps) < PI).
Lemma small_step s : 0 < eps <= 1 / 2 -> (calls s = [] -> s = start eps) -> 2 * eps < brk s -> small s -> small (body s).
Proof.
  intros EP ST B (G & _ & Sm). destruct (grow s G) as [G' _]. split; [exact G'|]. assert (Cs : calls (body s) = calls s ++ [(((K_i s - 1) / 2)%nat, shots alpha eps (K_i s))]).
  { unfold body_fun. destruct (compute_thetas _ _ _). destruct (compute_Li _ _ _ _). reflexivity. }
  rewrite Cs, Ksum_snoc. destruct G as (O & _ & _ & G). rewrite (odd_half _ O). pose proof F_pos. assert (P3 : 3 < PI) by (pose proof PI2_3_2; lra). assert (KP : 0 < INR (K_i s)) by (apply lt_0_INR, odd_pos, O).
  destruct (calls s) as [|c l] eqn:Ca.
  - rewrite (ST eq_refl). cbn [K_i start]. split; [right; unfold Ksum; cbn; lra|]. intros k N [Q|[]]. injection Q as <- <-. split; [reflexivity|left; reflexivity].
  - rewrite <- Ca in *. destruct G as [G1 G2]; [congruence|]. assert (0 <= Ksum (calls s)). { unfold Ksum. clear. induction (calls s) as [|[k N] l IH]; cbn; [lra|]. pose proof (pos_INR k). lra. }
    split; [right; nra|]. intros k N I. apply in_app_iff in I. destruct I as [I|[Q|[]]]; [apply Sm, I|]. assert (Qk : k = ((K_i s - 1) / 2)%nat) by congruence. assert (QN : N = shots alpha eps (K_i s)) by congruence. rewrite Qk, QN. clear Qk QN Q k N. split.
    + f_equal. apply INR_eq. rewrite plus_INR, mult_INR. rewrite <- (odd_half _ O) at 1. cbn. ring.
    + right. rewrite (odd_half _ O). nra.
Qed.
Lemma small_loop fuel : forall s t, 0 < eps <= 1 / 2 -> (calls s = [] -> s = start eps) -> small s -> loop fuel s = Some t -> small t.
Proof.
  induction fuel as [|fuel IH]; intros s t EP ST Sm H; cbn [EstModel.loop] in H; destruct (Rlt_dec (2 * eps) (brk s)) as [B|B]; try discriminate; try (injection H as <-; exact Sm).
  apply (IH (body s) t EP); [|apply small_step; assumption|exact H]. intros Q. destruct (grow s (proj1 Sm)) as [_ L]. rewrite Q in L. discriminate.
Qed.
(** the angle *)
Variable t : R.
Hypothesis AC : forall i k, Rabs (measure i k - sin ((2 * INR k + 1) * t) ^ 2) <= E.
Definition holds (s : state) : Prop := Nat.odd (K_i s) = true /\ INR (m_i s) * (PI / 2) <= INR (K_i s) * t <= INR (m_i s) * (PI / 2) + PI / 2 /\
  (2 * eps < brk s \/ brk s = Rabs (theta_b s - theta_sh s) /\ (theta_b s <= t <= theta_sh s \/ theta_sh s <= t <= theta_b s)).
Lemma hold s : holds s -> holds (body s).
Proof.
  intros (O & M & _). pose proof (odd_pos _ O) as KP. unfold body_fun. set (k := ((K_i s - 1) / 2)%nat). set (A := measure (length (calls s)) k).
  assert (HA : Rabs (A - sin (INR (K_i s) * t) ^ 2) <= E) by (rewrite <- (odd_half _ O); apply AC). pose proof (pass (m_i s) (K_i s) A KP (SH _ _)) as P. pose proof (between (m_i s) (K_i s) A t KP (SH _ _) M HA) as Bt.
  destruct (compute_thetas (m_i s) (K_i s) A) as [tb tsh]. destruct P as (W & L & j & -> & I & Ft). destruct (candidates_odd L j I) as [OL L3]. unfold holds. cbn [K_i m_i brk theta_b theta_sh]. split; [rewrite Nat.odd_mul, OL, O; reflexivity|]. split; [|right; split; [reflexivity|exact Bt]].
  apply fits_spec in Ft. rewrite mult_INR. assert (0 < INR L) by (apply lt_0_INR; lia). assert (0 < INR (K_i s)) by (apply lt_0_INR, KP). assert (0 < INR L * INR (K_i s)) by nra. destruct Bt as [[U V]|[U V]]; split; nra.
Qed.
Lemma hold_loop fuel : forall s r, holds s -> loop fuel s = Some r -> holds r /\ brk r <= 2 * eps.
Proof.
  induction fuel as [|fuel IH]; intros s r Hs H; cbn [EstModel.loop] in H; destruct (Rlt_dec (2 * eps) (brk s)) as [B|B]; try discriminate; try (injection H as <-; split; [exact Hs|lra]).
  apply (IH (body s) r); [apply hold, Hs|exact H].
Qed.
End runs.
Lemma abs_sin z : Rabs (sin z) <= Rabs z.
Proof.
  assert (P : forall z, 0 < z -> Rabs (sin z) <= z).
  { intros y Y. assert (sin y < y) by (apply sin_lt_x, Y). pose proof PI2_3_2. destruct (Rlt_or_le y PI) as [L|L]; [assert (0 < sin y) by (apply sin_gt_0; assumption); rewrite Rabs_right by lra; lra|]. pose proof (SIN_bound y). unfold Rabs. destruct (Rcase_abs _); lra. }
  destruct (Rtotal_order z 0) as [N|[->|N]].
  - replace (sin z) with (- sin (- z)) by (rewrite sin_neg; ring). rewrite Rabs_Ropp, <- (Rabs_Ropp z). eapply Rle_trans; [apply (P (- z)); lra|apply Rle_abs].
  - rewrite sin_0. apply Rle_refl.
  - eapply Rle_trans; [apply P, N|apply Rle_abs].
Qed.
Lemma sq_lipschitz x y : Rabs (sin x ^ 2 - sin y ^ 2) <= Rabs (x - y).
Proof.
  assert (I : sin x ^ 2 - sin y ^ 2 = sin (x + y) * sin (x - y)) by (rewrite sin_plus, sin_minus; pose proof (sin2_cos2 x) as P; pose proof (sin2_cos2 y) as Q; unfold Rsqr in P, Q; transitivity (sin x * sin x * (cos y * cos y) - cos x * cos x * (sin y * sin y)); [replace (cos x * cos x) with (1 - sin x * sin x) by lra; replace (cos y * cos y) with (1 - sin y * sin y) by lra; ring|ring]).
  rewrite I, Rabs_mult. pose proof (abs_sin (x - y)). pose proof (Rabs_pos (sin (x - y))). assert (Rabs (sin (x + y)) <= 1) by (pose proof (SIN_bound (x + y)); unfold Rabs; destruct (Rcase_abs _); lra). pose proof (Rabs_pos (sin (x + y))). nra.
Qed.
Lemma ceil_ge x : x <= IZR (ceil x).
Proof. unfold ceil. rewrite opp_IZR. pose proof (base_Int_part (- x)). lra. Qed.
Lemma shots_enough alpha eps K : 0 < alpha -> 0 < eps -> (0 < K)%nat -> hoeffding E (shots alpha eps K) <= C * alpha * eps * INR K.
Proof.
  intros HA HE HK. unfold hoeffding, shots. set (alp := C * alpha * eps * INR K). assert (CP : 0 < C) by (unfold C; pose proof F_pos; pose proof PI_RGT_0; apply Rdiv_lt_0_compat; lra). assert (0 < INR K) by (apply lt_0_INR, HK). assert (AP : 0 < alp) by (unfold alp; apply Rmult_lt_0_compat; [apply Rmult_lt_0_compat; [apply Rmult_lt_0_compat|]|]; assumption).
  pose proof (ceil_ge (1 / (2 * E ^ 2) * ln (2 / alp))) as Q. set (N := IZR (ceil _)) in *. pose proof E_pos as EP. assert (E2 : 0 < E ^ 2) by (apply pow_lt; lra).
  assert (H1 : - 2 * N * E ^ 2 <= - ln (2 / alp)) by (assert (X : 1 / (2 * E ^ 2) * ln (2 / alp) * (2 * E ^ 2) = ln (2 / alp)) by (field; lra); nra).
  assert (H2 : exp (- 2 * N * E ^ 2) <= alp / 2).
  { replace (alp / 2) with (exp (- ln (2 / alp))); [destruct H1 as [H1|H1]; [left; apply exp_increasing, H1|rewrite H1; apply Rle_refl]|]. rewrite exp_Ropp, exp_ln by (apply Rdiv_lt_0_compat; lra). field. lra. }
  lra.
Qed.
