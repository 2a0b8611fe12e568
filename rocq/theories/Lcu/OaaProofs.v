(** Proofs about oblivious amplitude amplification. *)
From Coq Require Import Reals Lra List ZArith Bool Lia QArith Qcanon Ring_theory Ring.
Import ListNotations.
From Verif.Inverse Require Import InvModel InvSpec InvProofs.
From Verif.CtrlOps Require Import CtrlModel CtrlSpec CtrlProofs CtrlComplex.
From Verif.Fourier Require Import FourierModel FourierSpec RegProofs FourierProofs FourierFinal AdderProofs.
From Verif.Qpe Require Import QpeModel QpeSpec QpeProofs QpeMain.
From Verif.Amplify Require Import AmpModel AmpSpec UnitaryProofs RefProofs AmpProofs Conj AmpComplex.
From Verif.Grover Require Import GroverModel GroverSpec TagProofs GroverProofs.
From Verif.Switch Require Import SwitchModel SwitchSpec BitProofs SwitchProofs SwitchFinal.
From Verif.Lcu Require Import LcuModel LcuSpec LcuProofs.
Local Open Scope nat_scope.
Add Ring complex_numbers_o : complex_ring.
Notation crun_lin := (RefProofs.run_lin c0 c1 cadd cmul csub copp complex_ring cexpi ccos csin ci).
Notation crun_iso := (UnitaryProofs.run_iso c0 c1 cadd cmul csub copp complex_ring cexpi ccos csin ci complex_euler cconj complex_conjugation).
Notation cinner_ext := (UnitaryProofs.inner_ext c0 cadd cmul cconj).

(** an abstract version: u a circuit with inverse v, the qubits case and fresh *)
Section oaa.
Context (N : nat) (case fresh : list nat) (u v oracle r : body) (psi : list bool -> cplx) (theta : R).
Context (Wu : wf_circuit N u) (Hv : invert_circuit u = Some v) (Wo : wf_circuit N oracle).
Context (Zpsi : czeroed N (case ++ fresh) psi) (Zu : czeroed N fresh (crun u psi)).
Context (Zv : forall chi, czeroed N fresh chi -> czeroed N fresh (crun v chi)).
Notation Pi := (zero_part c0 case).
Context (iso : forall phi chi, czeroed N (case ++ fresh) phi -> czeroed N (case ++ fresh) chi ->
  cinner N (Pi (crun u phi)) (Pi (crun u chi)) = cmul (re (sin theta * sin theta)) (cinner N phi chi)).
Context (HO : forall chi x, length x = N -> crun oracle chi x = if zero_on case x then copp (chi x) else chi x).
Context (HR : forall chi x, length x = N -> crun r chi x = csub (cmul (re 2) (crun u (Pi (crun v chi)) x)) (chi x)).
Let Psi := crun u psi.
Let good := Pi Psi.
Let bad := fun x => if zero_on case x then c0 else Psi x.
Lemma split_psi x : Psi x = cadd (good x) (bad x).
Proof. unfold good, bad, zero_part. destruct (zero_on case x); ring. Qed.
Lemma zero_basis y : length y = N -> zero_on (case ++ fresh) y = true -> czeroed N (case ++ fresh) (cbasis y).
Proof. intros L Z x Lx (q & I & G). unfold basis. destruct (bits_eqb x y) eqn:E; [|reflexivity]. apply bits_eqb_true in E. subst x. rewrite (proj1 (zero_on_true _ _) Z q I) in G. discriminate. Qed.
Lemma back_good y : length y = N -> Pi (crun v good) y = cmul (re (sin theta * sin theta)) (psi y).
Proof.
  intros L. assert (Zp := Zpsi). apply zeroed_app in Zp as [Zc Zf]. unfold zero_part at 1. destruct (zero_on case y) eqn:Ec.
  2: { rewrite (Zc y L (zero_on_false _ _ Ec)). ring. }
  destruct (zero_on fresh y) eqn:Ef.
  - assert (Zy : zero_on (case ++ fresh) y = true) by (unfold zero_on in *; rewrite forallb_app, Ec, Ef; reflexivity).
    rewrite <- (cinner_basis N y (crun v good) L), (cadjoint N u v Wu Hv).
    transitivity (cinner N (Pi (crun u (cbasis y))) (Pi (crun u psi))).
    + unfold inner. apply total_ext. intros x _. unfold good, Psi, zero_part. destruct (zero_on case x); [reflexivity|ring].
    + rewrite (iso _ _ (zero_basis y L Zy) Zpsi), (cinner_basis N y psi L). reflexivity.
  - rewrite (Zv good); [rewrite (Zf y L (zero_on_false _ _ Ef)); ring| |exact L|apply zero_on_false, Ef].
    intros x Lx H. unfold good, zero_part. destruct (zero_on case x); [|reflexivity]. apply Zu; assumption.
Qed.
Lemma back_psi y : length y = N -> crun v Psi y = psi y.
Proof. intros L. apply (cundo N u v Wu Hv). exact L. Qed.
Lemma Wv : wf_circuit N v. Proof. apply (cundo N u v Wu Hv). Qed.
Lemma back al be chi y : length y = N -> (forall w, length w = N -> chi w = cadd (cmul (re al) (good w)) (cmul (re be) (bad w))) ->
  Pi (crun v chi) y = cmul (re ((al - be) * (sin theta * sin theta) + be)) (psi y).
Proof.
  intros L E. assert (Zp := Zpsi). apply zeroed_app in Zp as [Zc _]. pose proof (back_good y L) as G. unfold zero_part in *. destruct (zero_on case y) eqn:Ec.
  - rewrite (crun_lin N v (re (al - be)) (re be) good Psi chi y Wv L); [rewrite G, back_psi by exact L; rewrite re_add, (re_mul (al - be)); ring|].
    intros w Lw. rewrite (E w Lw), split_psi, re_sub. ring.
  - rewrite (Zc y L (zero_on_false _ _ Ec)). ring.
Qed.
Lemma oaa_step al be chi x : length x = N -> (forall w, length w = N -> chi w = cadd (cmul (re al) (good w)) (cmul (re be) (bad w))) ->
  crun (oracle ++ r) chi x = cadd (cmul (re (cos (2 * theta) * al + 2 * (cos theta * cos theta) * be)) (good x)) (cmul (re (cos (2 * theta) * be - 2 * (sin theta * sin theta) * al)) (bad x)).
Proof.
  intros L E. rewrite crun_app, HR by exact L.
  assert (EO : forall w, length w = N -> crun oracle chi w = cadd (cmul (re (- al)) (good w)) (cmul (re be) (bad w))).
  { intros w Lw. rewrite HO, (E w Lw) by exact Lw. unfold good, bad, zero_part. rewrite re_opp. destruct (zero_on case w); ring. }
  set (k := ((- al - be) * (sin theta * sin theta) + be)%R).
  rewrite (crun_lin N u (re k) c0 psi psi _ x Wu L).
  2: { intros w Lw. rewrite (back (- al) be _ w Lw EO). unfold k. ring. }
  change (crun u psi x) with (Psi x). rewrite split_psi, (EO x L). unfold k. rewrite cos_2a.
  replace (cos theta * cos theta)%R with (1 - sin theta * sin theta)%R by (pose proof (sin2_cos2 theta) as H; unfold Rsqr in H; lra).
  set (s := (sin theta * sin theta)%R). set (g := good x). set (b := bad x). unfold re, cadd, csub, cmul, copp, c0. cbn. destruct g as [g1 g2], b as [b1 b2]. cbn. f_equal; ring.
Qed.
Lemma oaa_rotation j : exists al be, (sin theta * al = sin (INR (2 * j + 1) * theta))%R /\ (cos theta * be = cos (INR (2 * j + 1) * theta))%R /\
  forall x, length x = N -> crun (concat (repeat (oracle ++ r) j)) Psi x = cadd (cmul (re al) (good x)) (cmul (re be) (bad x)).
Proof.
  induction j as [|j (al & be & HA & HB & E)].
  - exists 1%R, 1%R. cbn [Nat.mul Nat.add INR repeat concat]. rewrite !Rmult_1_l, !Rmult_1_r. split; [reflexivity|]. split; [reflexivity|]. intros x L. rewrite re_1. unfold run_circuit. cbn [fold_left].
    rewrite split_psi. ring.
  - eexists. eexists. split; [|split].
    3: { intros x L. rewrite repeat_end, crun_app. rewrite (oaa_step al be _ x L E). reflexivity. }
    + replace (INR (2 * S j + 1) * theta)%R with (INR (2 * j + 1) * theta + 2 * theta)%R by (rewrite !plus_INR, !mult_INR, (S_INR j); cbn [INR]; ring).
      rewrite sin_plus, sin_2a, <- HA, <- HB. ring.
    + replace (INR (2 * S j + 1) * theta)%R with (INR (2 * j + 1) * theta + 2 * theta)%R by (rewrite !plus_INR, !mult_INR, (S_INR j); cbn [INR]; ring).
      rewrite cos_plus, sin_2a, <- HA, <- HB. ring.
Qed.
End oaa.
