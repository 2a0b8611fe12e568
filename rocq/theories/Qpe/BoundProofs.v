(** The probability of the best estimate, over the complex numbers. *)
From Coq Require Import Reals Lra List ZArith Bool Lia QArith Qreals Qcanon.
Import ListNotations.
From Verif.CtrlOps Require Import CtrlModel CtrlSpec CtrlProofs CtrlComplex.
From Verif.Fourier Require Import FourierModel FourierSpec RegProofs FourierProofs FourierFinal.
From Verif.Qpe Require Import QpeBound.
Local Open Scope R_scope.

Lemma norm_mul a b : norm_sq (cmul a b) = norm_sq a * norm_sq b.
Proof. unfold norm_sq, cmul. cbn. ring. Qed.
Lemma norm_one_plus a : norm_sq (cadd c1 (cexpi a)) = 4 * (cos (CtrlComplex.angle a / 2) * cos (CtrlComplex.angle a / 2)).
Proof.
  unfold norm_sq, cadd, c1, cexpi. cbn [fst snd]. set (u := CtrlComplex.angle a / 2). replace (CtrlComplex.angle a) with (2 * u) by (unfold u; field).
  rewrite cos_2a, sin_2a. pose proof (sin2_cos2 u) as H. unfold Rsqr in H. replace (sin u * sin u) with (1 - cos u * cos u) by lra.
  transitivity ((1 + (2 * (cos u * cos u) - 1)) * (1 + (2 * (cos u * cos u) - 1)) + 4 * (sin u * sin u) * (cos u * cos u)); [ring|]. replace (sin u * sin u) with (1 - cos u * cos u) by lra. ring.
Qed.
(** cos u cos 2u ... cos 2^(n-1) u *)
Fixpoint cosines (n : nat) (u : R) : R := match n with O => 1 | S n => cos u * cosines n (2 * u) end.
Lemma cosines_sin n : forall u, sin (2 ^ n * u) = 2 ^ n * sin u * cosines n u.
Proof.
  induction n as [|n IH]; intros u; [cbn; rewrite Rmult_1_l; ring|]. replace (2 ^ S n * u) with (2 ^ n * (2 * u)) by (cbn; ring). rewrite IH, sin_2a. cbn [pow cosines]. ring.
Qed.
Lemma cosines_mono n : forall u v, 0 <= u <= v -> 2 ^ n * v <= PI / 2 -> 0 <= cosines n v <= cosines n u.
Proof.
  induction n as [|n IH]; intros u v H B; [cbn; lra|]. cbn [cosines]. cbn [pow] in B.
  assert (P1 : 1 <= 2 ^ n) by (apply pow_R1_Rle; lra). pose proof PI_RGT_0 as PP.
  assert (Bv : v <= PI / 2).
  { apply Rle_trans with (2 * 2 ^ n * v); [|exact B]. assert (0 <= v) by lra. nra. }
  destruct (IH (2 * u) (2 * v)) as [I1 I2]; [lra|lra|].
  assert (C0 : 0 <= cos v) by (apply cos_ge_0; lra).
  assert (C1 : cos v <= cos u) by (apply cos_decr_1; lra).
  split; [apply Rmult_le_pos; assumption|]. apply Rmult_le_compat; assumption.
Qed.
Lemma cosines_bound n u : 0 <= u -> 2 ^ n * u <= PI / 2 -> 2 <= PI * cosines n u.
Proof.
  intros H B. pose proof PI_RGT_0 as PP. assert (P0 : 0 < 2 ^ n) by (apply pow_lt; lra). set (v := PI / 2 / 2 ^ n).
  assert (Pv : 0 < v) by (unfold v; apply Rdiv_lt_0_compat; lra). assert (Ev : 2 ^ n * v = PI / 2) by (unfold v; field; lra).
  assert (uv : u <= v) by (apply Rmult_le_reg_l with (2 ^ n); lra).
  destruct (cosines_mono n u v) as [C0 C1]; [lra|lra|].
  pose proof (cosines_sin n v) as S. rewrite Ev, sin_PI2 in S. pose proof (sin_lt_x v Pv) as SL.
  (* 1 = 2^n sin v C <= 2^n v C = pi / 2 * C *)
  assert (K : 1 <= PI / 2 * cosines n v).
  { rewrite <- Ev. rewrite S at 1. apply Rmult_le_compat_r; [exact C0|]. apply Rmult_le_compat_l; lra. }
  nra.
Qed.
Lemma cosines_neg n : forall u, cosines n (- u) = cosines n u.
Proof. induction n as [|n IH]; intros u; [reflexivity|]. cbn [cosines]. rewrite cos_neg. replace (2 * - u) with (- (2 * u)) by ring. rewrite IH. reflexivity. Qed.

Notation total := (total c0 cadd).
Lemma angle_mul_2 a : CtrlComplex.angle (zq 2 * a)%Qc = 2 * CtrlComplex.angle a.
Proof. rewrite zq_2. replace ((1 + 1) * a)%Qc with (a + a)%Qc by ring. rewrite CtrlComplex.angle_add. ring. Qed.
Lemma sum_norm n : forall d, norm_sq (total (all_bits n) (fun b => cexpi (zq (number b) * d)%Qc)) = (2 ^ n * cosines n (CtrlComplex.angle d / 2)) * (2 ^ n * cosines n (CtrlComplex.angle d / 2)).
Proof.
  induction n as [|n IH]; intros d.
  - cbn [all_bits FourierSpec.total fold_right number cosines pow]. rewrite zq_0. replace (0 * d)%Qc with 0%Qc by ring. rewrite (CtrlProofs.e_0 c0 c1 cadd cmul copp cexpi ccos csin ci complex_euler). unfold norm_sq, cadd, c1, c0. cbn. ring.
  - rewrite (FourierProofs.total_bits c0 c1 cadd cmul csub copp complex_ring).
    assert (E : forall b0 : bool, total (all_bits n) (fun b => cexpi (zq (number (b0 :: b)) * d)%Qc) = cmul (if b0 then cexpi d else c1) (total (all_bits n) (fun b => cexpi (zq (number b) * (zq 2 * d))%Qc))).
    { intros b0. rewrite <- (FourierProofs.total_scale c0 c1 cadd cmul csub copp complex_ring). apply FourierProofs.total_ext. intros b _. cbn [number].
      rewrite zq_add, zq_mul. replace ((zq (if b0 then 1 else 0) + zq 2 * zq (number b)) * d)%Qc with (zq (if b0 then 1 else 0) * d + zq (number b) * (zq 2 * d))%Qc by ring.
      rewrite (CtrlProofs.e_add c0 c1 cadd cmul copp cexpi ccos csin ci complex_euler). f_equal. destruct b0; [rewrite zq_1; f_equal; ring|]. rewrite zq_0. replace (0 * d)%Qc with 0%Qc by ring. apply (CtrlProofs.e_0 c0 c1 cadd cmul copp cexpi ccos csin ci complex_euler). }
    rewrite (E false), (E true). set (s := total _ _). transitivity (norm_sq (cmul (cadd c1 (cexpi d)) s)).
    { f_equal. unfold cmul, cadd, c1. cbn. f_equal; ring. }
    rewrite norm_mul, norm_one_plus. unfold s. rewrite IH, angle_mul_2. cbn [cosines pow]. replace (2 * CtrlComplex.angle d / 2) with (2 * (CtrlComplex.angle d / 2)) by field. ring.
Qed.
Lemma q2r_zq z : Q2R (this (zq z)) = IZR z.
Proof. unfold zq. cbn [this Q2Qc]. rewrite q2r_red. unfold Q2R. cbn. field. Qed.
Lemma q2r_mul a b : Q2R (this (a * b)%Qc) = Q2R (this a) * Q2R (this b).
Proof. unfold Qcmult. cbn [this Q2Qc]. rewrite q2r_red. apply Q2R_mult. Qed.
Lemma q2r_half_pow n : Q2R (this (half ^ n)%Qc) * 2 ^ n = 1.
Proof.
  pose proof (half_pow n) as H. apply (f_equal (fun q => Q2R (this q))) in H. rewrite q2r_mul, q2r_zq in H. rewrite <- pow_IZR in H. rewrite H. unfold Q2R. cbn. field.
Qed.
(** angles at most pi / 2^n *)
Lemma sum_bound n d : (- half ^ n <= d)%Qc -> (d <= half ^ n)%Qc ->
  4 * (2 ^ n * 2 ^ n) <= PI * PI * norm_sq (total (all_bits n) (fun b => cexpi (zq (number b) * d)%Qc)).
Proof.
  intros H1 H2. rewrite sum_norm. set (u := CtrlComplex.angle d / 2). pose proof PI_RGT_0 as PP. assert (P0 : 0 < 2 ^ n) by (apply pow_lt; lra).
  assert (B : Rabs u * 2 ^ n <= PI / 2).
  { pose proof (q2r_half_pow n) as HP. apply Qle_Rle in H1. apply Qle_Rle in H2. change (this (- half ^ n)%Qc) with (Qred (- this (half ^ n)%Qc)) in H1. rewrite q2r_red, Q2R_opp in H1.
    set (h := Q2R (this (half ^ n)%Qc)) in *. set (e := Q2R (this d)) in *. unfold u, CtrlComplex.angle. fold e.
    replace (PI * e / 2) with (PI / 2 * e) by field. rewrite Rabs_mult, (Rabs_right (PI / 2)) by lra.
    assert (A : Rabs e <= h) by (apply Rabs_le; lra). assert (A0 : 0 <= Rabs e) by apply Rabs_pos.
    apply Rle_trans with (PI / 2 * h * 2 ^ n); [apply Rmult_le_compat_r; [lra|]; apply Rmult_le_compat_l; lra|]. rewrite Rmult_assoc, HP. lra. }
  assert (C : cosines n u = cosines n (Rabs u)).
  { unfold Rabs. destruct (Rcase_abs u); [rewrite cosines_neg; reflexivity|reflexivity]. }
  rewrite C. pose proof (cosines_bound n (Rabs u) (Rabs_pos u)) as K. rewrite (Rmult_comm (2 ^ n)) in K. specialize (K B). set (c := cosines n (Rabs u)) in *.
  replace (PI * PI * (2 ^ n * c * (2 ^ n * c))) with ((PI * c) * (PI * c) * (2 ^ n * 2 ^ n)) by ring. apply Rmult_le_compat_r; [nra|]. nra.
Qed.
