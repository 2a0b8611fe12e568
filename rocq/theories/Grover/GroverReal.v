(** Real analysis: the default number of iterations, and the phase of the exact algorithm. *)
From Coq Require Import Reals Lra List ZArith Lia.
From Verif.Grover Require Import GroverModel.
Local Open Scope R_scope.

Lemma sin_below x : 0 <= x <= 4 -> x - x * x * x / 6 <= sin x.
Proof.
  intros [H0 H4]. destruct (pre_sin_bound x 0 H0 H4) as [H _]. unfold sin_approx, sin_term in H. cbn in H. lra.
Qed.
Lemma sin_abs x : sin x * sin x <= x * x.
Proof.
  assert (P : forall y, 0 < y -> - y <= sin y <= y).
  { intros y Hy. split; [|left; apply sin_lt_x, Hy]. destruct (Rle_dec y PI) as [L|L]; [pose proof (sin_ge_0 y ltac:(lra) L); lra|].
    pose proof (SIN_bound y). pose proof PI2_3_2. unfold Rdiv in *. lra. }
  destruct (Rtotal_order x 0) as [L|[->|G]].
  - pose proof (P (- x) ltac:(lra)) as H. rewrite sin_neg in H. nra.
  - rewrite sin_0. lra.
  - pose proof (P x G). nra.
Qed.
Lemma default_success N M k theta : (0 < M)%nat -> (8 * M <= N)%nat -> default_iterations N M k -> 0 <= theta <= PI / 2 -> sin theta * sin theta = INR M / INR N ->
  1 - 5 * (INR M / INR N) <= sin (INR (2 * k + 1) * theta) * sin (INR (2 * k + 1) * theta).
Proof.
  intros HM HN (v & D1 & D2) [T0 T1] HS. assert (PM : 0 < INR M) by (apply lt_0_INR; lia). assert (PN : 8 * INR M <= INR N).
  { apply le_INR in HN. rewrite mult_INR in HN. cbn [INR] in HN. lra. }
  set (s := sin theta) in *. assert (S0 : 0 <= s) by (apply sin_ge_0; pose proof PI_RGT_0; lra).
  assert (S2 : s * s <= / 8). { rewrite HS. apply Rmult_le_reg_r with (INR N); [lra|]. unfold Rdiv. rewrite Rmult_assoc, Rinv_l by lra. lra. }
  assert (SP : 0 < s). { assert (0 < s * s) by (rewrite HS; apply Rdiv_lt_0_compat; lra). nra. }
  assert (SQ : sqrt (INR N / INR M) = / s).
  { apply sqrt_lem_1; [apply Rlt_le, Rdiv_lt_0_compat; lra|apply Rlt_le, Rinv_0_lt_compat, SP|]. rewrite <- Rinv_mult. rewrite HS. unfold Rdiv. rewrite Rinv_mult, Rinv_inv. ring. }
  rewrite SQ in D1. set (y := INR k - PI / 4 * / s). assert (Y : -51 / 100 <= y <= 51 / 100).
  { unfold y. unfold Rabs in D1, D2. destruct (Rcase_abs _) in D1; destruct (Rcase_abs _) in D2; lra. }
  pose proof PI_4 as P4. pose proof PI2_3_2 as P3. assert (TB : theta < 37 / 100).
  { destruct (Rlt_le_dec theta (37 / 100)) as [L|L]; [exact L|]. exfalso. assert (I : sin (37 / 100) <= s) by (apply sin_incr_1; unfold Rdiv in *; lra). pose proof (sin_below (37 / 100) ltac:(lra)) as SB. nra. }
  pose proof (sin_below theta ltac:(lra)) as SB. fold s in SB. assert (TP : 0 < theta). { destruct T0 as [T0|<-]; [exact T0|]. unfold s in SP. rewrite sin_0 in SP. lra. }
  assert (ST : s < theta) by (apply sin_lt_x, TP).
  set (r := theta * / s). assert (RT : r * s = theta) by (unfold r; rewrite Rmult_assoc, Rinv_l by lra; ring).
  assert (R1 : 1 <= r) by (destruct (Rle_lt_dec 1 r) as [|L]; [assumption|exfalso; nra]).
  assert (R2 : r * (1 - theta * theta / 6) <= 1). { destruct (Rle_lt_dec (r * (1 - theta * theta / 6)) 1) as [|L]; [assumption|exfalso]. assert (r * (1 - theta * theta / 6) * s > 1 * s) by nra. nra. }
  assert (T2 : theta * theta / 6 <= 229 / 10000) by nra. assert (R3 : r <= 10235 / 10000) by nra.
  assert (R4 : r - 1 <= 64 / 1000 * theta) by nra.
  set (d := INR (2 * k + 1) * theta - PI / 2). assert (Ed : d = 2 * theta * y + theta + PI / 2 * (r - 1)).
  { unfold d, y, r. rewrite plus_INR, mult_INR. cbn [INR]. field. lra. }
  assert (B1 : 0 <= PI / 2 * (r - 1) <= 128 / 1000 * theta) by (split; unfold Rdiv in *; nra). assert (B2 : - (102 / 100 * theta) <= 2 * theta * y <= 102 / 100 * theta) by (split; nra).
  assert (B3 : - (2148 / 1000 * theta) <= d <= 2148 / 1000 * theta) by lra. assert (B4 : theta <= 10235 / 10000 * s) by nra.
  assert (B5 : d * d <= 5 * (s * s)) by nra. rewrite <- HS. replace (INR (2 * k + 1) * theta) with (PI / 2 + d) by (unfold d; ring).
  replace (sin (PI / 2 + d)) with (cos d) by (rewrite cos_sin; f_equal; ring) . pose proof (sin_abs d). pose proof (sin2_cos2 d) as E. unfold Rsqr in E. lra.
Qed.
Lemma default_three_quarters n k : (0 < n)%nat -> default_iterations (4 * n) (3 * n) k -> k = 1%nat.
Proof.
  intros Hn (v & D1 & D2). assert (P : 0 < INR n) by (apply lt_0_INR; exact Hn). rewrite !mult_INR in D1. cbn [INR] in D1. set (q := sqrt ((1 + 1 + 1 + 1) * INR n / ((1 + 1 + 1) * INR n))) in *.
  assert (Q0 : 0 <= q) by apply sqrt_pos. assert (Q2 : q * q = 4 / 3) by (unfold q; rewrite sqrt_sqrt; [field; lra|apply Rlt_le, Rdiv_lt_0_compat; lra]).
  assert (Q : 115 / 100 <= q <= 116 / 100) by (split; destruct (Rle_lt_dec q (116/100)); destruct (Rle_lt_dec (115/100) q); nra).
  pose proof PI_4. pose proof PI2_3_2. unfold Rabs in D1, D2. assert (X : 3 / 4 * (115 / 100) <= PI / 4 * q <= 116 / 100) by (unfold Rdiv in *; split; nra).
  assert (K : 0 < INR k < 2) by (destruct (Rcase_abs _) in D1; destruct (Rcase_abs _) in D2; lra). destruct K as [K1 K2].
  destruct k as [|[|k]]; [cbn in K1; lra|reflexivity|]. rewrite !S_INR in K2. pose proof (pos_INR k). lra.
Qed.
