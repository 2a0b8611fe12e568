(** Amplitude amplification over the complex numbers: a rotation. *)
From Coq Require Import Reals Lra List ZArith Bool Lia QArith Qcanon Ring_theory Ring.
Import ListNotations.
From Verif.Inverse Require Import InvModel InvSpec InvProofs.
From Verif.CtrlOps Require Import CtrlModel CtrlSpec CtrlProofs CtrlComplex.
From Verif.Fourier Require Import FourierModel FourierSpec RegProofs FourierProofs FourierFinal AdderProofs.
From Verif.Qpe Require Import QpeModel QpeSpec QpeProofs QpeMain.
From Verif.Amplify Require Import AmpModel AmpSpec UnitaryProofs RefProofs AmpProofs Conj.
Local Open Scope nat_scope.
Add Ring complex_numbers : complex_ring.
Notation crun := (run_circuit Qcplus c0 c1 cadd cmul copp cexpi ccos csin ci).
Notation cbasis := (basis c0 c1).
Notation cinner := (inner c0 cadd cmul cconj).
Notation ctags := (tags c0 c1 cadd cmul copp cexpi ccos csin ci).
Definition re (r : R) : cplx := (r, 0%R).
Lemma re_add a b : re (a + b) = cadd (re a) (re b). Proof. unfold re, cadd. cbn. f_equal; ring. Qed.
Lemma re_sub a b : re (a - b) = csub (re a) (re b). Proof. unfold re, csub. cbn. f_equal; ring. Qed.
Lemma re_mul a b : re (a * b) = cmul (re a) (re b). Proof. unfold re, cmul. cbn. f_equal; ring. Qed.
Lemma re_opp a : re (- a) = copp (re a). Proof. unfold re, copp. cbn. f_equal; ring. Qed.
Lemma re_1 : re 1 = c1. Proof. reflexivity. Qed.
Lemma re_0 : re 0 = c0. Proof. reflexivity. Qed.
Lemma conj_re a : cconj (re a) = re a. Proof. unfold cconj, re. cbn. f_equal. ring. Qed.

(** norms *)
Lemma conj_self w : cmul (cconj w) w = re (fst w * fst w + snd w * snd w). Proof. unfold cmul, cconj, re. cbn. f_equal; ring. Qed.
Lemma norm_real N psi : exists r, (0 <= r)%R /\ cinner N psi psi = re r.
Proof.
  unfold inner. induction (all_bits N) as [|x l (r & P & E)]; cbn [total fold_right]; [exists 0%R; split; [lra|reflexivity]|]. unfold total in E. rewrite E, conj_self, <- re_add.
  eexists. split; [|reflexivity]. nra.
Qed.
Lemma norm_zero N psi : cinner N psi psi = c0 -> forall x, length x = N -> psi x = c0.
Proof.
  unfold inner. intros H x L. assert (I : In x (all_bits N)) by (apply all_bits_in, L). clear L.
  assert (G : forall l, exists r, (0 <= r)%R /\ total c0 cadd l (fun x => cmul (cconj (psi x)) (psi x)) = re r).
  { induction l as [|y l (r & P & E)]; cbn [total fold_right]; [exists 0%R; split; [lra|reflexivity]|]. unfold total in E. rewrite E, conj_self, <- re_add. eexists. split; [|reflexivity]. nra. }
  induction (all_bits N) as [|y l IH]; [destruct I|]. cbn [total fold_right] in H. destruct (G l) as (r & P & E). unfold total in E, H. rewrite E, conj_self, <- re_add in H.
  unfold re in H. injection H as H. assert (r = 0%R) by nra. subst r. assert (Z : (fst (psi y) * fst (psi y) + snd (psi y) * snd (psi y) = 0)%R) by lra.
  destruct I as [->|I]; [|apply IH; [unfold total; rewrite E; reflexivity|exact I]]. destruct (psi x) as [p q]. cbn in Z. assert (p = 0%R) by nra. assert (q = 0%R) by nra. subst. reflexivity.
Qed.
(** the signs of the arguments *)
Lemma sign_power n : FourierSpec.power c1 cmul (copp c1) (S n) = if Nat.odd n then c1 else copp c1.
Proof. rewrite (phase_odd c0 c1 cadd cmul csub copp complex_ring). rewrite Nat.even_succ. reflexivity. Qed.

Lemma repeat_end {A} (c : list A) j : concat (repeat c (S j)) = concat (repeat c j) ++ c.
Proof. induction j as [|j IH]; [cbn; rewrite app_nil_r; reflexivity|]. change (concat (repeat c (S (S j)))) with (c ++ concat (repeat c (S j))). rewrite IH at 1. cbn [repeat concat]. rewrite <- app_assoc. reflexivity. Qed.

Section amplify.
Context (N : nat) (a : list qarg) (u oracle r : body) (z : list bool).
Let qs := chosen a None.
Context (HR : reflection a (Some u) 1%Qc None = Some r) (NE : a <> []).
Context (ND : NoDup qs) (B : forall q, In q qs -> q < N) (Wu : within N qs u) (Wo : within N qs oracle).
Context (Lz : length z = N) (Zz : zero_on qs z = true).
Let Psi := crun u (cbasis z).
Context (good bad : list bool -> cplx) (T : ctags N oracle Psi good bad) (theta : R) (share : cinner N good good = re (sin theta * sin theta)).
Let sg : R := if Nat.odd (length (first_entry a)) then 1%R else (-1)%R.
Lemma inv_exists : exists v, invert_circuit u = Some v.
Proof.
  pose proof (reflection_some _ _ _ _ _ HR NE) as _. destruct (invert_circuit u) eqn:E; [eauto|]. exfalso. clear - HR NE E. destruct a as [|a0 a']; [congruence|].
  cbn beta iota delta [reflection] in HR. rewrite E in HR. destruct (reflected (a0 :: a') None); [|discriminate]. destruct (split_last l) as [[]|]; [|discriminate]. destruct (phase_qubits (a0 :: a')); discriminate.
Qed.
Lemma step_cc al be psi x : length x = N -> (forall y, length y = N -> psi y = cadd (cmul al (good y)) (cmul be (bad y))) ->
  crun (oracle ++ r) psi x = cadd (cmul (cmul (re sg) (cadd (cmul (re (cos (2 * theta))) al) (cmul (re (2 * (cos theta * cos theta))) be))) (good x))
    (cmul (cmul (re sg) (csub (cmul (re (cos (2 * theta))) be) (cmul (re (2 * (sin theta * sin theta))) al))) (bad x)).
Proof.
  intros L E. destruct inv_exists as [v Hv]. pose proof (entry_phase a (reflection_some _ _ _ _ _ HR NE)) as HP.
  rewrite (AmpProofs.step c0 c1 cadd cmul csub copp complex_ring cexpi ccos csin ci complex_euler cconj complex_conjugation N a u oracle r v _ z HR NE HP Hv ND B Wu Wo Lz Zz good bad T al be psi x L E).
  rewrite share, sign_power. replace (if Nat.odd (length (first_entry a)) then c1 else copp c1) with (re sg) by (unfold sg; destruct (Nat.odd _); [reflexivity|unfold re, copp, c1; cbn; f_equal; ring]).
  rewrite cos_2a. replace (cos theta * cos theta)%R with (1 - sin theta * sin theta)%R by (pose proof (sin2_cos2 theta) as H; unfold Rsqr in H; lra).
  rewrite !re_sub, !re_mul, !re_sub, re_1. change (re 2) with (re (1 + 1)). rewrite re_add, re_1, !re_mul. ring.
Qed.
Lemma step_c al be psi x : length x = N -> (forall y, length y = N -> psi y = cadd (cmul (re al) (good y)) (cmul (re be) (bad y))) ->
  crun (oracle ++ r) psi x = cadd (cmul (re (sg * (cos (2 * theta) * al + 2 * (cos theta * cos theta) * be))) (good x)) (cmul (re (sg * (cos (2 * theta) * be - 2 * (sin theta * sin theta) * al))) (bad x)).
Proof. intros L E. rewrite (step_cc (re al) (re be) psi x L E). rewrite !re_mul, !re_add, !re_sub, !re_mul. reflexivity. Qed.
(** j iterations *)
Lemma rotation (HS : sg = 1%R) j : exists al be, (sin theta * al = sin (INR (2 * j + 1) * theta))%R /\ (cos theta * be = cos (INR (2 * j + 1) * theta))%R /\
  forall x, length x = N -> crun (concat (repeat (oracle ++ r) j)) Psi x = cadd (cmul (re al) (good x)) (cmul (re be) (bad x)).
Proof.
  induction j as [|j (al & be & HA & HB & E)].
  - exists 1%R, 1%R. cbn [Nat.mul Nat.add INR repeat concat]. rewrite !Rmult_1_l, !Rmult_1_r. split; [reflexivity|]. split; [reflexivity|]. intros x L. rewrite re_1. unfold run_circuit. cbn [fold_left].
    rewrite (proj1 (T x L)). ring.
  - eexists. eexists. split; [|split].
    3: { intros x L. rewrite repeat_end, (FourierProofs.run_app c0 c1 cadd cmul copp cexpi ccos csin ci). rewrite (step_c al be _ x L E). reflexivity. }
    + rewrite HS, !Rmult_1_l. replace (INR (2 * S j + 1) * theta)%R with (INR (2 * j + 1) * theta + 2 * theta)%R by (rewrite !plus_INR, !mult_INR, (S_INR j); cbn [INR]; ring).
      rewrite sin_plus, sin_2a, <- HA, <- HB. ring.
    + rewrite HS, !Rmult_1_l. replace (INR (2 * S j + 1) * theta)%R with (INR (2 * j + 1) * theta + 2 * theta)%R by (rewrite !plus_INR, !mult_INR, (S_INR j); cbn [INR]; ring).
      rewrite cos_plus, sin_2a, <- HA, <- HB. ring.
Qed.
End amplify.
