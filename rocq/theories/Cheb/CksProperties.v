(** Properties of the coefficients of the CKS algorithm. *)
From Coq Require Import Reals Lra Lia List Arith Bool ZArith Psatz.
Import ListNotations.
From Verif.Cheb Require Import ChebSpec ChebProofs CksModel CksSpec CksProofs.
Local Open Scope R_scope.
Lemma odd_app a : forall n b x, odd_series n (a ++ b) x = odd_series n a x + odd_series (n + length a) b x.
Proof. induction a as [|u a IH]; intros n b x; cbn [app odd_series length]; [rewrite Nat.add_0_r; ring|]. rewrite IH. replace (S n + length a)%nat with (n + S (length a))%nat by lia. ring. Qed.
Lemma odd_sum b x : forall j0, odd_series 0 (cks_coeffs j0 b) x = sum (S j0) (fun j => (-1) ^ j * (4 * sf (b + j) (2 * b)) * T (2 * j + 1) x).
Proof.
  unfold cks_coeffs. assert (G : forall k, odd_series 0 (map (fun j => 4 * sf (b + j) (2 * b)) (seq 0 k)) x = sum k (fun j => (-1) ^ j * (4 * sf (b + j) (2 * b)) * T (2 * j + 1) x)).
  { induction k as [|k IH]; [reflexivity|]. rewrite seq_S, map_app, odd_app, IH, map_length, seq_length. cbn [map odd_series sum Nat.add]. ring. }
  intros j0. apply G.
Qed.
Lemma nth_coeff b j0 j : (j <= j0)%nat -> nth j (cks_coeffs j0 b) 0 = 4 * sf (b + j) (2 * b).
Proof. intros H. unfold cks_coeffs. set (f := fun j => 4 * sf (b + j) (2 * b)). rewrite (nth_indep _ 0 (f 0%nat)) by (rewrite map_length, seq_length; lia). rewrite (map_nth f), seq_nth by lia. reflexivity. Qed.
Lemma beyond b j : (b <= j)%nat -> sf (b + j) (2 * b) = 0.
Proof. intros H. rewrite sf_tail, tail_end by exact H. unfold Rdiv. ring. Qed.
Lemma sum_more b x : forall d, sum (b + d) (fun j => (-1) ^ j * (4 * sf (b + j) (2 * b)) * T (2 * j + 1) x) = sum b (fun j => (-1) ^ j * (4 * sf (b + j) (2 * b)) * T (2 * j + 1) x).
Proof. induction d as [|d IH]; [rewrite Nat.add_0_r; reflexivity|]. rewrite Nat.add_succ_r. cbn [sum]. rewrite IH, (beyond b (b + d)) by lia. ring. Qed.
Lemma full b x : -1 <= x <= 1 -> x * sum b (fun j => (-1) ^ j * (4 * sf (b + j) (2 * b)) * T (2 * j + 1) x) = 1 - (1 - x ^ 2) ^ b.
Proof.
  intros X. pose proof (cos_acos x X) as C. set (t := acos x) in *. rewrite <- C. rewrite (sum_ext b _ (fun j => (-1) ^ j * (4 * sf (b + j) (2 * b)) * cos (INR (2 * j + 1) * t))) by (intros j _; rewrite (proj1 (T_cos _ _)); reflexivity). rewrite identity. do 2 f_equal. pose proof (sin2_cos2 t) as Q. unfold Rsqr in Q. lra.
Qed.
(** With j0 >= b - 1 the series is (1 - (1 - x^2)^b) / x, the approximation of 1/x of the paper *)
Theorem C97_series : forall b j0 x, (b <= S j0)%nat -> -1 <= x <= 1 -> x * odd_series 0 (cks_coeffs j0 b) x = 1 - (1 - x ^ 2) ^ b.
Proof. intros b j0 x H X. rewrite odd_sum. replace (S j0) with (b + (S j0 - b))%nat by lia. rewrite sum_more. apply full, X. Qed.
Example C97_series_example : cks_coeffs 1 2 = [5 / 4; 1 / 4].
Proof. unfold cks_coeffs, sf. cbn. apply (f_equal2 (@cons R)); [field|apply (f_equal2 (@cons R)); [field|reflexivity]]. Qed.
(** A shorter series differs by at most the sum of the coefficients that are left out *)
Theorem C97_cut : forall b j0 x, -1 <= x <= 1 -> Rabs (odd_series 0 (cks_coeffs (j0 + b) b) x - odd_series 0 (cks_coeffs j0 b) x) <= sum b (fun i => nth (S j0 + i) (cks_coeffs (j0 + b) b) 0).
Proof.
  intros b j0 x X. rewrite !odd_sum. rewrite (sum_ext b (fun i => nth (S j0 + i) (cks_coeffs (j0 + b) b) 0) (fun i => 4 * sf (b + (S j0 + i)) (2 * b))) by (intros i Hi; apply nth_coeff; lia).
  assert (G : forall k f g, (forall i, Rabs (f (S j0 + i)%nat) <= g i) -> Rabs (sum (S j0 + k) f - sum (S j0) f) <= sum k g).
  { clear. induction k as [|k IH]; intros f g H; [rewrite Nat.add_0_r; unfold Rminus; rewrite Rplus_opp_r, Rabs_R0; cbn; lra|]. rewrite Nat.add_succ_r. cbn [sum] in *. replace (_ - _) with ((sum (S j0 + k) f - (sum j0 f + f j0)) + f (S j0 + k)%nat) by (cbn [Nat.add sum]; ring). eapply Rle_trans; [apply Rabs_triang|]. apply Rplus_le_compat; [apply IH, H|apply H]. }
  apply (G b). intros i. rewrite !Rabs_mult. pose proof (T_bound (2 * (S j0 + i) + 1) x X) as B. rewrite pow_1_abs, Rmult_1_l. rewrite (Rabs_pos_eq 4) by lra. assert (0 <= sf (b + (S j0 + i)) (2 * b)) by (rewrite sf_tail; apply Rmult_le_pos; [apply tail_nonneg|apply Rlt_le, Rinv_0_lt_compat, pow_lt; lra]). rewrite (Rabs_pos_eq (sf _ _)) by assumption. pose proof (Rabs_pos (T (2 * (S j0 + i) + 1) x)). nra.
Qed.
(** The whole series is within kappa exp(-b / kappa^2) of 1 / x for 1 / kappa <= |x| <= 1 *)
Theorem C97_inverse : forall b j0 x kappa, (b <= S j0)%nat -> 0 < kappa -> / kappa <= Rabs x <= 1 -> Rabs (odd_series 0 (cks_coeffs j0 b) x - / x) <= kappa * exp (- (INR b / kappa ^ 2)).
Proof.
  intros b j0 x kappa H K [X1 X2]. pose proof (Rinv_0_lt_compat kappa K) as IK. assert (X : -1 <= x <= 1) by (unfold Rabs in X2; destruct (Rcase_abs x); lra). assert (NZ : x <> 0) by (intros ->; rewrite Rabs_R0 in X1; lra).
  pose proof (C97_series b j0 x H X) as S. replace (odd_series 0 (cks_coeffs j0 b) x - / x) with (- ((1 - x ^ 2) ^ b * / x)) by (apply (Rmult_eq_reg_l x); [|exact NZ]; rewrite Rmult_minus_distr_l, S; field; exact NZ).
  rewrite Rabs_Ropp, Rabs_mult, Rabs_inv. assert (Q2 : (/ kappa) ^ 2 <= x ^ 2) by (rewrite <- (pow2_abs x); apply pow_incr; lra). assert (Q0 : 0 <= 1 - x ^ 2) by nra. rewrite (Rabs_pos_eq ((1 - x ^ 2) ^ b)) by (apply pow_le; exact Q0).
  assert (P : (1 - x ^ 2) ^ b <= exp (- (/ kappa) ^ 2) ^ b) by (apply pow_incr; split; [exact Q0|]; pose proof (exp_ineq1_le (- (/ kappa) ^ 2)); lra).
  assert (PE : exp (- (/ kappa) ^ 2) ^ b = exp (- (INR b * (/ kappa) ^ 2))). { clear. induction b as [|b IH]; [cbn [pow INR]; rewrite Rmult_0_l, Ropp_0, exp_0; reflexivity|]. rewrite S_INR. cbn [pow] in *. rewrite IH, <- exp_plus. f_equal. ring. }
  replace (INR b / kappa ^ 2) with (INR b * (/ kappa) ^ 2) by (field; lra). rewrite PE in P. assert (PX : / Rabs x <= kappa) by (rewrite <- (Rinv_inv kappa); apply Rinv_le_contravar; assumption). rewrite Rmult_comm. apply Rmult_le_compat; [apply Rlt_le, Rinv_0_lt_compat; lra|apply pow_le; exact Q0|exact PX|exact P].
Qed.
(** Precision with the parameter b that cks_params chooses, and any j0: at most eps exp(1 / kappa^2) (the factor is due to rounding b down) and what is cut *)
Theorem C97_precision : forall eps kappa j0 x, 0 < eps -> 0 < kappa -> / kappa <= Rabs x <= 1 -> let b := snd (cks_params eps kappa) in
  Rabs (odd_series 0 (cks_coeffs j0 b) x - / x) <= eps * exp (/ kappa ^ 2) + sum b (fun i => nth (S j0 + i) (cks_coeffs (j0 + b) b) 0).
Proof.
  intros eps kappa j0 x E K XX b. assert (B : kappa ^ 2 * ln (kappa / eps) < INR b + 1).
  { unfold b, cks_params, int. cbn [snd]. set (r := kappa ^ 2 * ln (kappa / eps)). destruct (base_Int_part r) as [_ G]. destruct (Z_le_gt_dec 0 (Int_part r)) as [N|N]; [rewrite INR_IZR_INZ, Z2Nat.id by exact N; lra|]. apply Z.gt_lt in N. assert (IZR (Int_part r) <= -1) by (apply IZR_le; lia). pose proof (pos_INR (Z.to_nat (Int_part r))). lra. }
  assert (X : -1 <= x <= 1) by (destruct XX as [_ X2]; unfold Rabs in X2; destruct (Rcase_abs x); lra). pose proof (C97_inverse b (j0 + b) x kappa ltac:(lia) K XX) as A. pose proof (C97_cut b j0 x X) as C.
  assert (D : kappa * exp (- (INR b / kappa ^ 2)) <= eps * exp (/ kappa ^ 2)).
  { assert (KE : 0 < kappa / eps) by (apply Rmult_lt_0_compat; [exact K|apply Rinv_0_lt_compat, E]). assert (K2 : 0 < kappa ^ 2) by (apply pow_lt, K).
    replace (eps * exp (/ kappa ^ 2)) with (kappa * exp (- ln (kappa / eps) + / kappa ^ 2)) by (rewrite exp_plus, exp_Ropp, exp_ln by exact KE; field; lra). apply Rmult_le_compat_l; [lra|]. apply Rlt_le, exp_increasing. apply (Rmult_lt_reg_l (kappa ^ 2)); [exact K2|]. replace (kappa ^ 2 * - (INR b / kappa ^ 2)) with (- INR b) by (field; lra). replace (kappa ^ 2 * (- ln (kappa / eps) + / kappa ^ 2)) with (1 - kappa ^ 2 * ln (kappa / eps)) by (field; lra). lra. }
  replace (odd_series 0 (cks_coeffs j0 b) x - / x) with ((odd_series 0 (cks_coeffs (j0 + b) b) x - / x) - (odd_series 0 (cks_coeffs (j0 + b) b) x - odd_series 0 (cks_coeffs j0 b) x)) by ring. unfold Rminus at 1. eapply Rle_trans; [apply Rabs_triang|]. rewrite Rabs_Ropp. apply Rplus_le_compat; [eapply Rle_trans; [exact A|exact D]|exact C].
Qed.
(** the hypotheses hold for kappa = 2, eps = 1 and x = 3 / 4 *)
Example C97_precision_example : / 2 <= Rabs (3 / 4) <= 1. Proof. rewrite Rabs_pos_eq; lra. Qed.
(** The coefficients with index below b are positive, so that the unary state (C96) can be prepared from them; those from b on are 0 *)
Theorem C97_positive : forall b j0 j, (j <= j0)%nat -> ((j < b)%nat -> 0 < nth j (cks_coeffs j0 b) 0) /\ ((b <= j)%nat -> nth j (cks_coeffs j0 b) 0 = 0).
Proof.
  intros b j0 j H. rewrite nth_coeff by exact H. split; intros B; [|rewrite beyond by exact B; ring]. rewrite sf_tail. apply Rmult_lt_0_compat; [lra|]. apply Rmult_lt_0_compat; [apply tail_pos, B|apply Rinv_0_lt_compat, pow_lt; lra].
Qed.
(** The documentation says that the coefficients are positive. For j0 >= b they are not (their ratios, which the angles of the unary state are made of, are then 0 / 0) *)
Theorem C97_positive_refuted : exists b j0, (0 < b)%nat /\ exists c, In c (cks_coeffs j0 b) /\ ~ 0 < c.
Proof. exists 2%nat, 3%nat. split; [lia|]. exists (nth 3 (cks_coeffs 3 2) 0). split; [apply nth_In; unfold cks_coeffs; rewrite map_length, seq_length; lia|]. rewrite (proj2 (C97_positive 2 3 3 ltac:(lia))) by lia. lra. Qed.
Print Assumptions C97_series.
Print Assumptions C97_cut.
Print Assumptions C97_inverse.
Print Assumptions C97_precision.
Print Assumptions C97_positive.
Print Assumptions C97_positive_refuted.
