(** The complex numbers as pairs of real numbers: the numbers that [euler] asks for. *)
From Coq Require Import Reals Qreals Ring_theory QArith Qcanon.
From Verif.CtrlOps Require Import CtrlSpec.
Local Open Scope R_scope.
Definition cplx : Type := R * R.
Definition c0 : cplx := (0, 0).
Definition c1 : cplx := (1, 0).
Definition ci : cplx := (0, 1).
Definition cadd (a b : cplx) : cplx := (fst a + fst b, snd a + snd b).
Definition cmul (a b : cplx) : cplx := (fst a * fst b - snd a * snd b, fst a * snd b + snd a * fst b).
Definition copp (a : cplx) : cplx := (- fst a, - snd a).
Definition csub (a b : cplx) : cplx := (fst a - fst b, snd a - snd b).
Definition angle (a : Qc) : R := PI * Q2R (this a).
Definition cexpi (a : Qc) : cplx := (cos (angle a), sin (angle a)).
Definition ccos (a : Qc) : cplx := (cos (angle a / 2), 0).
Definition csin (a : Qc) : cplx := (sin (angle a / 2), 0).

Lemma cplx_eq (a b : cplx) : fst a = fst b -> snd a = snd b -> a = b.
Proof. destruct a, b. cbn. intros -> ->. reflexivity. Qed.
Lemma complex_ring : ring_theory c0 c1 cadd cmul csub copp (@eq cplx).
Proof. constructor; intros; apply cplx_eq; cbn; ring. Qed.
Lemma q2r_red q : Q2R (Qred q) = Q2R q.
Proof. apply Qeq_eqR, Qred_correct. Qed.
Lemma angle_add a b : angle (a + b)%Qc = angle a + angle b.
Proof. unfold angle, Qcplus. cbn [this Q2Qc]. rewrite q2r_red, Q2R_plus. ring. Qed.
Lemma angle_opp a : angle (- a)%Qc = - angle a.
Proof. unfold angle, Qcopp. cbn [this Q2Qc]. rewrite q2r_red, Q2R_opp. ring. Qed.
Lemma angle_0 : angle 0%Qc = 0.
Proof. unfold angle. cbn. unfold Q2R. cbn. field. Qed.
Lemma angle_1 : angle 1%Qc = PI.
Proof. unfold angle. cbn. unfold Q2R. cbn. field. Qed.
Lemma angle_half a : angle (a / (1 + 1))%Qc = angle a / 2.
Proof.
  assert (E : angle (a / (1 + 1) + a / (1 + 1))%Qc = angle a).
  { f_equal. field. discriminate. }
  rewrite angle_add in E. rewrite <- E. field.
Qed.
Lemma complex_euler : euler c0 c1 cadd cmul copp cexpi ccos csin ci.
Proof.
  repeat split.
  - intros a b. unfold cexpi. rewrite angle_add. apply cplx_eq; cbn; rewrite ?cos_plus, ?sin_plus; ring.
  - unfold cexpi. rewrite angle_0, cos_0, sin_0. reflexivity.
  - unfold cexpi. rewrite angle_1, cos_PI, sin_PI. apply cplx_eq; cbn; ring.
  - unfold cexpi. rewrite angle_half, angle_1, cos_PI2, sin_PI2. reflexivity.
  - intros a. unfold cexpi. rewrite angle_half. apply cplx_eq; cbn; ring.
  - intros a. unfold ccos. rewrite angle_opp. replace (- angle a / 2) with (- (angle a / 2)) by field. rewrite cos_neg. reflexivity.
  - intros a. unfold csin. rewrite angle_opp. replace (- angle a / 2) with (- (angle a / 2)) by field. rewrite sin_neg. apply cplx_eq; cbn; ring.
  - exists (1 / 2, 0). apply cplx_eq; cbn; field.
Qed.
Lemma complex_nontrivial : c1 <> c0.
Proof. intros E. injection E. exact R1_neq_R0. Qed.
