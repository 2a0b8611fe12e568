(** Real and complex numbers. *)
From Coq Require Import List ZArith Reals Ratan Lra Lia Bool.
Import ListNotations.
From Verif.CtrlOps Require Import CtrlComplex.
From Verif.StatePrep Require Import PrepModel.
Local Open Scope R_scope.
Add Ring cplx_ring : complex_ring.

Definition real (r : R) : cplx := (r, 0).
Lemma scale_real r z : scale r z = cmul (real r) z. Proof. apply cplx_eq; cbn; ring. Qed.
Lemma real_mul a b : real (a * b) = cmul (real a) (real b). Proof. apply cplx_eq; cbn; ring. Qed.
Lemma real_0 : real 0 = c0. Proof. reflexivity. Qed.
Lemma real_1 : real 1 = c1. Proof. reflexivity. Qed.
Lemma turn_add a b : turn (a + b) = cmul (turn a) (turn b).
Proof. unfold turn. rewrite cos_plus, sin_plus. apply cplx_eq; cbn; ring. Qed.
Lemma turn_0 : turn 0 = c1. Proof. unfold turn. rewrite cos_0, sin_0. reflexivity. Qed.
Lemma turn_opp a : cmul (turn a) (turn (- a)) = c1. Proof. rewrite <- turn_add. replace (a + - a) with 0 by ring. apply turn_0. Qed.
Lemma norm2_pos z : 0 <= norm2 z. Proof. unfold norm2. nra. Qed.
Lemma norm2_zero z : norm2 z = 0 -> z = c0.
Proof. unfold norm2. intros H. apply cplx_eq; cbn; nra. Qed.
Lemma modulus_pos z : 0 <= modulus z. Proof. apply sqrt_pos. Qed.
Lemma modulus_sq z : modulus z * modulus z = norm2 z. Proof. apply sqrt_sqrt, norm2_pos. Qed.
Lemma arg_ok z : scale (modulus z) (turn (arg z)) = z.
Proof.
  unfold arg. destruct (Req_EM_T (norm2 z) 0) as [E|E].
  - pose proof (norm2_zero z E) as ->. unfold modulus. rewrite E, sqrt_0. apply cplx_eq; cbn; ring.
  - pose proof (norm2_pos z) as P0. assert (P : 0 < norm2 z) by lra. assert (M : 0 < modulus z) by (apply sqrt_lt_R0; exact P). pose proof (modulus_sq z) as Q. unfold norm2 in Q.
    set (t := fst z / modulus z). assert (T : fst z = modulus z * t) by (unfold t; field; lra).
    assert (TT : t * t <= 1).
    { apply (Rmult_le_reg_l (modulus z * modulus z)); [nra|]. replace (modulus z * modulus z * (t * t)) with ((modulus z * t) * (modulus z * t)) by ring. rewrite <- T. nra. }
    assert (B : -1 <= t <= 1) by (split; nra).
    assert (S : sqrt (1 - t²) = Rabs (snd z) / modulus z).
    { apply sqrt_lem_1; [unfold Rsqr; lra|apply Rmult_le_pos; [apply Rabs_pos|left; apply Rinv_0_lt_compat; exact M]|].
      assert (A : Rabs (snd z) * Rabs (snd z) = snd z * snd z) by (rewrite <- Rabs_mult; apply Rabs_pos_eq; nra).
      unfold Rsqr. apply (Rmult_eq_reg_l (modulus z * modulus z)); [|nra]. replace (modulus z * modulus z * (Rabs (snd z) / modulus z * (Rabs (snd z) / modulus z))) with (Rabs (snd z) * Rabs (snd z)) by (field; lra). rewrite A.
      replace (modulus z * modulus z * (1 - t * t)) with (modulus z * modulus z - (modulus z * t) * (modulus z * t)) by ring. rewrite <- T. lra. }
    destruct (Rle_dec 0 (snd z)) as [G|G]; unfold turn, scale; cbn [fst snd].
    + rewrite cos_acos, sin_acos by exact B. rewrite S, Rabs_pos_eq by exact G. apply cplx_eq; cbn; [unfold t|]; field; lra.
    + rewrite cos_neg, sin_neg, cos_acos, sin_acos by exact B. rewrite S, Rabs_left by lra. apply cplx_eq; cbn; [unfold t|]; field; lra.
Qed.
Lemma turn_arg z : cmul (real (modulus z)) (turn (arg z)) = z.
Proof. rewrite <- scale_real. apply arg_ok. Qed.
Lemma norm2_turn a z : norm2 (cmul (turn a) z) = norm2 z.
Proof.
  unfold norm2, turn. cbn. pose proof (sin2_cos2 a) as H. unfold Rsqr in H.
  replace (_ + _) with ((sin a * sin a + cos a * cos a) * (fst z * fst z + snd z * snd z)) by ring. rewrite H. ring.
Qed.
Lemma norm2_scale r z : norm2 (scale r z) = r * r * norm2 z. Proof. unfold norm2. cbn. ring. Qed.
Lemma sum2_cons z v : sum2 (z :: v) = norm2 z + sum2 v. Proof. reflexivity. Qed.
Lemma sum2_nil : sum2 [] = 0. Proof. reflexivity. Qed.
Lemma sum2_pos v : 0 <= sum2 v. Proof. induction v as [|z v IH]; [rewrite sum2_nil; lra|]. rewrite sum2_cons. pose proof (norm2_pos z). lra. Qed.
Lemma sum2_app u v : sum2 (u ++ v) = sum2 u + sum2 v. Proof. induction u as [|z u IH]; cbn [app]; [rewrite sum2_nil; lra|]. rewrite !sum2_cons, IH. ring. Qed.
Lemma sum2_scale r v : sum2 (map (scale r) v) = r * r * sum2 v. Proof. induction v as [|z v IH]; cbn [map]; [rewrite sum2_nil; ring|]. rewrite !sum2_cons, IH, norm2_scale. ring. Qed.
Lemma sum2_zero v : sum2 v = 0 -> forall z, In z v -> z = c0.
Proof. induction v as [|a v IH]; [easy|]. rewrite sum2_cons. pose proof (norm2_pos a). pose proof (sum2_pos v). intros H1 z [<-|I]; [apply norm2_zero; lra|apply IH; [lra|exact I]]. Qed.
Lemma sum2_in v z : In z v -> norm2 z <= sum2 v.
Proof. induction v as [|a v IH]; [easy|]. rewrite sum2_cons. pose proof (norm2_pos a). pose proof (sum2_pos v). intros [->|I]; [lra|]. specialize (IH I). lra. Qed.
Lemma norm_pos v : 0 <= norm v. Proof. apply sqrt_pos. Qed.
Lemma norm_sq v : norm v * norm v = sum2 v. Proof. apply sqrt_sqrt, sum2_pos. Qed.
Lemma norm_unit v : 0 < norm v -> norm (map (scale (/ norm v)) v) = 1.
Proof.
  intros H. unfold norm at 1. rewrite sum2_scale, <- norm_sq. replace (/ norm v * / norm v * (norm v * norm v)) with 1 by (field; lra). apply sqrt_1.
Qed.
Lemma nth_scale r v i : nth i (map (scale r) v) c0 = scale r (nth i v c0).
Proof. rewrite <- (map_nth (scale r) v c0 i). f_equal. apply cplx_eq; cbn; ring. Qed.
Lemma norm_zero v : norm v = 0 -> forall i, nth i v c0 = c0.
Proof.
  intros H i. pose proof (norm_sq v) as Q. rewrite H in Q. destruct (Nat.lt_ge_cases i (length v)) as [L|L]; [|apply nth_overflow; exact L]. apply (sum2_zero v); [lra|]. apply nth_In, L.
Qed.
Lemma modulus_scale r z : 0 <= r -> modulus (scale r z) = r * modulus z.
Proof. intros H. unfold modulus. rewrite norm2_scale, sqrt_mult by (pose proof (norm2_pos z); nra). rewrite sqrt_square by exact H. reflexivity. Qed.
(** rotation angles *)
Lemma half_acos a : 0 <= a <= 1 -> cos (2 * acos a / 2) = a /\ sin (2 * acos a / 2) = sqrt (1 - a * a).
Proof. intros H. replace (2 * acos a / 2) with (acos a) by field. rewrite cos_acos, sin_acos by lra. split; reflexivity. Qed.
Lemma clip_id a : 0 <= a <= 1 -> clip a = a.
Proof. intros H. unfold clip. rewrite Rmin_right, Rmax_right by lra. reflexivity. Qed.
