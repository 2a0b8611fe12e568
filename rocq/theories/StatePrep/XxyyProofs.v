(** The XX+YY gate. *)
From Coq Require Import List ZArith Reals Lra Lia Bool FunctionalExtensionality.
Import ListNotations.
From Verif.Inverse Require Import InvSpec InvProofs.
From Verif.Fourier Require Import RegProofs.
From Verif.CtrlOps Require Import CtrlComplex.
From Verif.StatePrep Require Import PrepModel PrepSpec PrepNum.
Local Open Scope R_scope.

(** ** gates on two qubits *)
Definition pair := bool -> bool -> cplx.
Definition g0 (m : bool -> bool -> cplx) (F : pair) : pair := fun a b => cadd (cmul (m a false) (F false b)) (cmul (m a true) (F true b)).
Definition g1 (m : bool -> bool -> cplx) (F : pair) : pair := fun a b => cadd (cmul (m b false) (F a false)) (cmul (m b true) (F a true)).
Definition gx (F : pair) : pair := fun a b => F (xorb a b) b.
Section two.
Context (q0 q1 : nat) (x : list bool) (D : q0 <> q1) (B0 : (q0 < length x)%nat) (B1 : (q1 < length x)%nat).
Definition view (psi : state) : pair := fun a b => psi (setbit (setbit x q0 a) q1 b).
Lemma view_0 u psi : view (apply (U u q0) psi) = g0 (u3m u) (view psi).
Proof.
  extensionality a. extensionality b. unfold view, apply, act, on_qubit, g0. rewrite (setbit_comm x q0 q1) by exact D. rewrite getbit_set_same by (rewrite setbit_length; exact B0). rewrite !setbit_twice.
  rewrite !(setbit_comm x q1 q0) by congruence. reflexivity.
Qed.
Lemma view_1 u psi : view (apply (U u q1) psi) = g1 (u3m u) (view psi).
Proof. extensionality a. extensionality b. unfold view, apply, act, on_qubit, g1. rewrite getbit_set_same by (rewrite setbit_length; exact B1). rewrite !setbit_twice. reflexivity. Qed.
Lemma view_x psi : view (apply (CNot q1 q0) psi) = gx (view psi).
Proof.
  extensionality a. extensionality b. unfold view, apply, gx. rewrite getbit_set_same by (rewrite setbit_length; exact B1). rewrite (setbit_comm x q0 q1) by exact D. rewrite getbit_set_same by (rewrite setbit_length; exact B0).
  rewrite setbit_twice, (setbit_comm x q1 q0) by congruence. reflexivity.
Qed.
Lemma view_here psi : psi x = view psi (getbit x q0) (getbit x q1).
Proof. unfold view. rewrite (setbit_get x q0), setbit_get. reflexivity. Qed.
End two.
(** ** matrices *)
Lemma m_diag (u : u3) : theta u = 0 -> forall a b, u3m u a b = if xorb a b then c0 else turn ((if a then phi u + lam u else 0) + gp u).
Proof.
  intros E a b. unfold u3m, u3_matrix. rewrite E. replace (0 / 2) with 0 by field. rewrite cos_0, sin_0. destruct a, b; cbn [xorb].
  - rewrite turn_add. unfold turn. apply cplx_eq; cbn; ring.
  - apply cplx_eq; cbn; ring.
  - apply cplx_eq; cbn; ring.
  - rewrite turn_add, turn_0. unfold turn. apply cplx_eq; cbn; ring.
Qed.
Lemma m_ry a o i : u3m (ry a) o i = match o, i with false, true => real (- sin (a / 2)) | true, false => real (sin (a / 2)) | _, _ => real (cos (a / 2)) end.
Proof. unfold u3m, u3_matrix, ry. cbn [theta phi lam gp]. rewrite Rplus_0_l, cos_0, sin_0. destruct o, i; apply cplx_eq; cbn; ring. Qed.
Lemma turn_half : turn (PI / 2) = ci. Proof. unfold turn. rewrite cos_PI2, sin_PI2. reflexivity. Qed.
Lemma turn_mhalf : turn (- PI / 2) = copp ci. Proof. replace (- PI / 2) with (- (PI / 2)) by field. unfold turn. rewrite cos_neg, sin_neg, cos_PI2, sin_PI2. apply cplx_eq; cbn; ring. Qed.
Lemma m_rx a o i : u3m (rx a) o i = match o, i with false, true | true, false => cmul (copp ci) (real (sin (a / 2))) | _, _ => real (cos (a / 2)) end.
Proof.
  unfold u3m, u3_matrix, rx. cbn [theta phi lam gp]. replace (- PI / 2 + PI / 2) with 0 by field. change (cos (PI / 2), sin (PI / 2)) with (turn (PI / 2)). change (cos (- PI / 2), sin (- PI / 2)) with (turn (- PI / 2)).
  rewrite turn_half, turn_mhalf, cos_0, sin_0. destruct o, i; apply cplx_eq; cbn; ring.
Qed.
Lemma m_rz a o i : u3m (rz a) o i = if xorb o i then c0 else turn (if o then a / 2 else - a / 2).
Proof. rewrite m_diag by reflexivity. unfold rz. cbn [phi lam gp]. destruct o, i; try reflexivity; cbn [xorb]; f_equal; field. Qed.
Lemma m_p a o i : u3m (pg a) o i = if xorb o i then c0 else if o then turn a else c1.
Proof. rewrite m_diag by reflexivity. unfold pg. cbn [phi lam gp]. destruct o, i; try reflexivity; cbn [xorb]; [f_equal; ring|]. rewrite Rplus_0_l. apply turn_0. Qed.
(** RZ(pi/2) RX(a) RZ(-pi/2) = RY(a) *)
Lemma conj_ry a F : g1 (u3m (rz (PI / 2))) (g1 (u3m (rx a)) (g1 (u3m (rz (- PI / 2))) F)) = g1 (u3m (ry a)) F.
Proof.
  assert (E : forall o i, cmul (turn (if o : bool then PI / 2 / 2 else - (PI / 2) / 2)) (cmul (u3m (rx a) o i) (turn (if i : bool then - PI / 2 / 2 else - (- PI / 2) / 2))) = u3m (ry a) o i).
  { intros o i. rewrite m_rx, m_ry. transitivity (cmul (cmul (turn (if o : bool then PI / 2 / 2 else - (PI / 2) / 2)) (turn (if i : bool then - PI / 2 / 2 else - (- PI / 2) / 2)))
      match o, i with false, true | true, false => cmul (copp ci) (real (sin (a / 2))) | _, _ => real (cos (a / 2)) end); [ring|]. rewrite <- turn_add.
    destruct o, i.
    - replace (PI / 2 / 2 + - PI / 2 / 2) with 0 by field. rewrite turn_0. ring.
    - replace (PI / 2 / 2 + - (- PI / 2) / 2) with (PI / 2) by field. rewrite turn_half. apply cplx_eq; cbn; ring.
    - replace (- (PI / 2) / 2 + - PI / 2 / 2) with (- PI / 2) by field. rewrite turn_mhalf. apply cplx_eq; cbn; ring.
    - replace (- (PI / 2) / 2 + - (- PI / 2) / 2) with 0 by field. rewrite turn_0. ring. }
  extensionality x. extensionality o. unfold g1. rewrite <- !E, !m_rz. destruct o; cbn [xorb]; ring.
Qed.
(** the middle of the gate *)
Section core.
Context (F : pair) (k c s d0 d1 e0 e1 : cplx) (Y Y' Rm Dm Em : bool -> bool -> cplx).
Context (Hk : cadd (cmul k k) (cmul k k) = c1) (Hcs : cadd (cmul c c) (cmul s s) = c1) (H0 : cmul e0 d0 = c1) (H1 : cmul e1 d1 = c1).
Context (HY : forall o i, Y o i = match o, i with false, true => copp k | _, _ => k end).
Context (HY' : forall o i, Y' o i = match o, i with true, false => copp k | _, _ => k end).
Context (HR : forall o i, Rm o i = match o, i with false, true => s | true, false => copp s | _, _ => c end).
Context (HD : forall o i, Dm o i = if xorb o i then c0 else if o then d1 else d0).
Context (HE : forall o i, Em o i = if xorb o i then c0 else if o then e1 else e0).
Let k2 := cadd (cmul k k) (cmul k k).
Let n2 := cadd (cmul c c) (cmul s s).
Let cc := csub (cmul c c) (cmul s s).
Let ss := cadd (cmul c s) (cmul c s).
Lemma core_ok a b : g0 Em (g1 Y' (gx (g0 Rm (g1 Rm (gx (g0 Dm (g1 Y F))))))) a b =
    match a, b with
    | true, false => cadd (cmul cc (F true false)) (cmul ss (cmul (cmul e1 d0) (F false true)))
    | false, true => csub (cmul cc (F false true)) (cmul ss (cmul (cmul e0 d1) (F true false)))
    | _, _ => F a b end.
Proof using Hk Hcs H0 H1 HY HY' HR HD HE.
  unfold g0, g1, gx. rewrite !HE, !HY', !HR, !HD, !HY. destruct a, b; cbn [xorb].
  - transitivity (cmul (cmul k2 n2) (cmul (cmul e1 d1) (F true true))); [unfold k2, n2; ring|]. unfold k2, n2. rewrite Hk, Hcs, H1. ring.
  - transitivity (cmul k2 (cadd (cmul (cmul e1 d1) (cmul cc (F true false))) (cmul ss (cmul (cmul e1 d0) (F false true))))); [unfold k2, cc, ss; ring|]. unfold k2. rewrite Hk, H1. ring.
  - transitivity (cmul k2 (csub (cmul (cmul e0 d0) (cmul cc (F false true))) (cmul ss (cmul (cmul e0 d1) (F true false))))); [unfold k2, cc, ss; ring|]. unfold k2. rewrite Hk, H0. ring.
  - transitivity (cmul (cmul k2 n2) (cmul (cmul e0 d0) (F false false))); [unfold k2, n2; ring|]. unfold k2, n2. rewrite Hk, Hcs, H0. ring.
Qed.
End core.
Lemma g0_g1 m m' F : g0 m (g1 m' F) = g1 m' (g0 m F).
Proof. extensionality a. extensionality b. unfold g0, g1. ring. Qed.
Lemma g0_g0 m m' F : g0 m (g0 m' F) = g0 (fun o i => cadd (cmul (m o false) (m' false i)) (cmul (m o true) (m' true i))) F.
Proof. extensionality a. extensionality b. unfold g0. ring. Qed.
Lemma inv_sx : inv sx = rx (- PI / 2).
Proof. unfold inv, sx, rx. cbn [theta phi lam gp]. f_equal; field. Qed.
Lemma quarter_sum : cadd (cmul (real (cos (PI / 2 / 2))) (real (cos (PI / 2 / 2)))) (cmul (real (cos (PI / 2 / 2))) (real (cos (PI / 2 / 2)))) = c1.
Proof.
  replace (PI / 2 / 2) with (PI / 4) by field. assert (H := sin2_cos2 (PI / 4)). rewrite sin_cos_PI4 in H. unfold Rsqr in H. apply cplx_eq; cbn; lra.
Qed.
Lemma sin_quarter : sin (PI / 2 / 2) = cos (PI / 2 / 2).
Proof. replace (PI / 2 / 2) with (PI / 4) by field. apply sin_cos_PI4. Qed.
Definition xxyy_map (a beta : R) (F : pair) : pair := fun x y =>
  match x, y with
  | true, false => cadd (cmul (real (cos (a / 2))) (F true false)) (cmul (cmul (copp ci) (turn (- beta))) (cmul (real (sin (a / 2))) (F false true)))
  | false, true => cadd (cmul (real (cos (a / 2))) (F false true)) (cmul (cmul (copp ci) (turn beta)) (cmul (real (sin (a / 2))) (F true false)))
  | _, _ => F x y
  end.
Lemma view_xxyy q0 q1 x a beta psi : q0 <> q1 -> (q0 < length x)%nat -> (q1 < length x)%nat ->
  view q0 q1 x (run (xxyy a beta q0 q1) psi) = xxyy_map a beta (view q0 q1 x psi).
Proof.
  intros D B0 B1. unfold run, xxyy. cbn [fold_left]. repeat first [rewrite view_0 by assumption | rewrite view_1 by assumption | rewrite view_x by assumption].
  set (F := view q0 q1 x psi). rewrite inv_sx. unfold sx. rewrite <- !g0_g1, !conj_ry, !g0_g0.
  extensionality o. extensionality i.
  match goal with |- g0 ?Em (g1 ?Y' (gx (g0 ?Rm (g1 _ (gx (g0 ?Dm (g1 ?Y _))))))) _ _ = _ =>
    rewrite (core_ok F (real (cos (PI / 2 / 2))) (real (cos (a / 4))) (real (sin (a / 4))) (turn (- beta / 2)) (cmul ci (turn (beta / 2))) (turn (beta / 2)) (cmul (copp ci) (turn (- beta / 2))) Y Y' Rm Dm Em) end.
  - assert (Ec : cos (a / 2) = cos (a / 4) * cos (a / 4) - sin (a / 4) * sin (a / 4)) by (replace (a / 2) with (2 * (a / 4)) by field; apply cos_2a).
    assert (Es : sin (a / 2) = 2 * sin (a / 4) * cos (a / 4)) by (replace (a / 2) with (2 * (a / 4)) by field; apply sin_2a).
    assert (T : forall t, turn t = cmul (turn (t / 2)) (turn (t / 2))) by (intros t; rewrite <- turn_add; f_equal; field).
    unfold xxyy_map. rewrite (T beta), (T (- beta)). destruct o, i; try reflexivity.
    + rewrite Ec, Es. destruct (F true false) as [u v], (F false true) as [u' v'], (turn (- beta / 2)) as [p q]. unfold real. apply cplx_eq; cbn; ring.
    + rewrite Ec, Es. destruct (F true false) as [u v], (F false true) as [u' v'], (turn (beta / 2)) as [p q]. unfold real. apply cplx_eq; cbn; ring.
  - apply quarter_sum.
  - assert (H := sin2_cos2 (a / 4)). unfold Rsqr in H. unfold real. apply cplx_eq; cbn; lra.
  - rewrite <- turn_add. replace (beta / 2 + - beta / 2) with 0 by field. apply turn_0.
  - transitivity (cmul (turn (- beta / 2)) (turn (beta / 2))); [destruct (turn (- beta / 2)), (turn (beta / 2)); apply cplx_eq; cbn; ring|]. rewrite <- turn_add. replace (- beta / 2 + beta / 2) with 0 by field. apply turn_0.
  - intros u v. rewrite m_ry, sin_quarter. destruct u, v; try reflexivity. unfold real. apply cplx_eq; cbn; ring.
  - intros u v. rewrite m_ry. replace (- PI / 2 / 2) with (- (PI / 2 / 2)) by field. rewrite cos_neg, sin_neg, sin_quarter. destruct u, v; try reflexivity; unfold real; apply cplx_eq; cbn; ring.
  - intros u v. rewrite m_ry. replace (- a / 2 / 2) with (- (a / 4)) by field. rewrite cos_neg, sin_neg. destruct u, v; try reflexivity; unfold real; apply cplx_eq; cbn; ring.
  - intros u v. rewrite !m_rz. rewrite !(m_diag sg) by reflexivity. unfold sg. cbn [phi lam gp]. destruct u, v; cbn [xorb]; try ring.
    + replace (0 + PI / 2 + 0) with (PI / 2) by ring. rewrite turn_half. ring.
    + replace (0 + 0) with 0 by ring. rewrite turn_0. ring.
  - intros u v. rewrite !m_rz. rewrite !(m_diag (inv sg)) by (unfold inv, sg; cbn; ring). unfold inv, sg. cbn [phi lam gp]. destruct u, v; cbn [xorb]; try ring.
    + replace (- (PI / 2) + - 0 + - 0) with (- PI / 2) by field. rewrite turn_mhalf. ring.
    + replace (0 + - 0) with 0 by ring. rewrite turn_0. replace (- - beta / 2) with (beta / 2) by field. ring.
Qed.
