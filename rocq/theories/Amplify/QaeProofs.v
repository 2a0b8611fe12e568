(** Amplitude estimation. *)
From Coq Require Import Reals Lra List ZArith Bool Lia QArith Qreals Qcanon Ring_theory Ring.
Import ListNotations.
From Verif.Inverse Require Import InvModel InvSpec InvProofs.
From Verif.CtrlOps Require Import CtrlModel CtrlSpec CtrlProofs CtrlComplex.
From Verif.Fourier Require Import FourierModel FourierSpec RegProofs FourierProofs FourierFinal AdderProofs.
From Verif.PhasePoly Require Import PhaseModel.
From Verif.Hybrid Require Import HybridSpec HybridFinal.
From Verif.Qpe Require Import QpeModel QpeSpec QpeProofs QpeMain QpeProperties.
From Verif.Amplify Require Import AmpModel AmpSpec UnitaryProofs RefProofs AmpProofs Conj AmpComplex.
Local Open Scope nat_scope.
Local Notation value := FourierSpec.value.
Add Ring complex_numbers : complex_ring.

(** ** the circuit acts on the arguments only *)
Lemma within_1 N qs (o : qop) l : well_formed o -> NoDup l -> length l = arity o -> (forall q, In q l -> q < N) -> incl l qs -> within N qs [(o, l)].
Proof. intros W ND L B I. split; [constructor; auto; constructor|]. intros o' l' q [E|[]] J. injection E as <- <-. apply I, J. Qed.
Lemma within_nil N qs : within N qs []. Proof. split; [constructor|intros o l q []]. Qed.
Lemma inner_within N front last phase : NoDup (front ++ [last]) -> (forall q, In q (front ++ [last]) -> q < N) -> within N (front ++ [last]) (inner_reflection front last phase).
Proof.
  intros ND B. set (qs := front ++ [last]) in *. assert (IL : incl [last] qs) by (intros q [<-|[]]; apply in_or_app; right; left; reflexivity). assert (BL : last < N) by (apply B, IL; left; reflexivity).
  assert (X : within N qs [qX last]) by (apply within_1; [constructor|repeat constructor; intros []|reflexivity|intros q [<-|[]]; exact BL|exact IL]).
  assert (G : forall o, well_formed o -> arity o = 1 -> within N qs [(o, [last])]) by (intros o W A; apply within_1; [exact W|repeat constructor; intros []|rewrite A; reflexivity|intros q [<-|[]]; exact BL|exact IL]).
  assert (C : forall o, well_formed o -> arity o = 1 -> within N qs [(Ctrl (repeat false (length front)) o, front ++ [last])]).
  { intros o W A. apply within_1; [constructor; exact W|exact ND|cbn [arity]; rewrite repeat_length, app_length, A; reflexivity|exact B|apply incl_refl]. }
  unfold inner_reflection. destruct (Qc_eq_bool phase 1).
  - apply within_app; [exact X|]. apply within_app; [|exact X]. destruct front as [|f front]; [apply G; constructor|].
    apply (within_app N qs [qH last] [_; qH last]); [apply G; constructor|]. apply (within_app N qs [_] [qH last]); [apply C; constructor|apply G; constructor].
  - apply within_app; [exact X|]. apply within_app; [|exact X]. destruct front as [|f front]; [apply G; constructor|apply C; constructor].
Qed.
Lemma entry_incl a : has_entry a -> incl (first_entry a) (chosen a None).
Proof.
  intros H. unfold chosen, registers. destruct a as [|[[|q l]|[|r rs]] a]; try destruct H; cbn [first_entry map concat app]; intros p I.
  - destruct I as [<-|[]]. left. reflexivity.
  - apply in_or_app. left. exact I.
Qed.
Lemma reflection_within N a u r : reflection a (Some u) 1%Qc None = Some r -> a <> [] -> NoDup (chosen a None) -> (forall q, In q (chosen a None) -> q < N) -> within N (chosen a None) u -> within N (chosen a None) r.
Proof.
  intros H NE ND B Wu. pose proof (entry_phase a (reflection_some _ _ _ _ _ H NE)) as HP. pose proof (entry_incl a (reflection_some _ _ _ _ _ H NE)) as HI. remember (first_entry a) as fe eqn:EF. clear EF. destruct a as [|a0 a']; [congruence|].
  cbn beta iota delta [reflection] in H. set (a := a0 :: a') in *. set (qs := chosen a None) in *. destruct (reflected a None) as [l|] eqn:ER; [|discriminate].
  apply reflected_chosen in ER. fold qs in ER. subst l. destruct (split_last qs) as [[front last]|] eqn:ES; [|discriminate]. apply split_last_eq in ES. rewrite HP in H.
  destruct (invert_circuit u) as [v|] eqn:Hv; [|discriminate]. unfold conjugate in H. destruct (invert_circuit v) as [w|] eqn:Hw; [|discriminate].
  remember (inner_reflection front last 1%Qc) as inn eqn:EI. injection H as <-.
  destruct (AdderProofs.undo c0 c1 cadd cmul csub copp complex_ring cexpi ccos csin ci complex_euler N u v (proj1 Wu) Hv) as [Wv _].
  destruct (AdderProofs.undo c0 c1 cadd cmul csub copp complex_ring cexpi ccos csin ci complex_euler N v w Wv Hw) as [Ww _].
  assert (V : within N qs v) by (apply (within_inverse N qs u); assumption). assert (W : within N qs w) by (apply (within_inverse N qs v); assumption).
  apply within_app.
  - apply within_app; [exact V|]. apply within_app; [|exact W]. rewrite EI, ES. apply inner_within; rewrite <- ES; assumption.
  - clear - HI B. clearbody qs. induction fe as [|q l IH]; [apply within_nil|]. cbn [map]. apply (within_app N qs [_]); [|apply IH; intros p I; apply HI; right; exact I].
    apply within_1; [constructor|repeat constructor; intros []|reflexivity| |]; intros p [<-|[]]; [apply B|]; apply HI; left; reflexivity.
Qed.
Lemma within_repeat N qs c k : within N qs c -> within N qs (concat (repeat c k)).
Proof. intros W. induction k as [|k IH]; [apply within_nil|]. cbn [repeat concat]. apply within_app; assumption. Qed.
Lemma within_off N qs res c : within N qs c -> (forall q, In q qs -> ~ In q res) -> acts_off N res c.
Proof. intros [W O] D. split; [exact W|]. intros o l q I J. apply D, (O o l q I J). Qed.

(** ** angles *)
Lemma angle_frac k n : CtrlComplex.angle (angle k n) = (2 * (PI * IZR k / 2 ^ n))%R.
Proof.
  unfold CtrlComplex.angle, angle. cbn [this Q2Qc]. rewrite q2r_red. unfold Qdiv. rewrite Q2R_mult, Q2R_inv.
  - unfold Q2R, inject_Z. cbn [Qnum Qden]. rewrite mult_IZR. rewrite <- (pow_IZR 2 n). field. apply pow_nonzero. lra.
  - unfold inject_Z, Qeq. cbn. pose proof (Z.pow_pos_nonneg 2 (Z.of_nat n)). lia.
Qed.
Lemma cexpi_frac k n : cexpi (angle k n) = (cos (2 * (PI * IZR k / 2 ^ n)), sin (2 * (PI * IZR k / 2 ^ n))).
Proof. unfold cexpi. rewrite angle_frac. reflexivity. Qed.
Lemma odd_off qs x y q : ~ In q qs -> getbit x q = false -> getbit y q = true -> same_off qs x y = false.
Proof.
  intros NI GX GY. unfold same_off. destruct (bits_eqb _ _) eqn:E; [|reflexivity]. apply bits_eqb_eq in E. apply (f_equal (fun w => getbit w q)) in E.
  rewrite !write_other in E by exact NI. congruence.
Qed.
Lemma wf_qpe N U iter res f : qpe U iter res = Some f -> NoDup res -> (forall q, In q res -> q < N) -> (forall i, acts_off N res (U i)) -> wf_circuit N f.
Proof.
  intros H ND B OFF. unfold qpe in H. destruct (QFT true res true true 1) as [w|] eqn:EW; [|discriminate]. injection H as <-. apply wf_app; [|apply wf_app].
  - clear - B. induction res as [|q res IH]; [constructor|]. cbn [map]. apply (wf_app N [_]); [apply wf_h, B; left; reflexivity|]. apply IH. intros p I. apply B. right. exact I.
  - apply wf_flat. intros i I. apply in_seq in I. assert (J : In (nth i res 0) res) by (apply nth_In; lia).
    apply wf_control; [apply B, J|]. apply (off_sub N res); [apply off_applications, OFF|]. intros q [<-|[]]. exact J.
  - unfold QFT in EW. destruct (qft_inner res true true 1) as [v|] eqn:EV; [|discriminate].
    apply (AdderProofs.undo c0 c1 cadd cmul csub copp complex_ring cexpi ccos csin ci complex_euler N v w); [|exact EW]. apply (wf_qft N res true true 1 v EV ND B).
Qed.
Lemma some_amplitude N c z : wf_circuit N c -> length z = N -> exists x, length x = N /\ crun c (cbasis z) x <> c0.
Proof.
  intros W L. pose proof (run_iso c0 c1 cadd cmul csub copp complex_ring cexpi ccos csin ci complex_euler cconj complex_conjugation N c W (cbasis z) (cbasis z)) as H.
  rewrite (inner_basis c0 c1 cadd cmul csub copp complex_ring cexpi ccos csin cconj complex_conjugation) in H by exact L.
  assert (E : bits_eqb z z = true) by (apply bits_eqb_eq; reflexivity). unfold AmpSpec.basis at 3 in H. rewrite E in H.
  assert (D : forall w : cplx, {w = c0} + {w <> c0}).
  { intros [p q]. destruct (Req_EM_T p 0) as [->|P]; [|right; intros C; injection C; congruence]. destruct (Req_EM_T q 0) as [->|Q]; [left; reflexivity|right; intros C; injection C; congruence]. }
  destruct (Exists_dec (fun x => crun c (cbasis z) x <> c0) (all_bits N)) as [X|X]; [intros x; destruct (D (crun c (cbasis z) x)) as [Z|Z]; [right; congruence|left; exact Z]| |].
  - apply Exists_exists in X. destruct X as (x & I & NZ). exists x. split; [apply FourierProofs.all_bits_length, I|exact NZ].
  - exfalso. assert (Z : forall x, In x (all_bits N) -> crun c (cbasis z) x = c0) by (intros x I; destruct (D (crun c (cbasis z) x)) as [Y|Y]; [exact Y|exfalso; apply X, Exists_exists; eauto]).
    assert (G : cinner N (crun c (cbasis z)) (crun c (cbasis z)) = c0).
    { unfold inner. rewrite (FourierProofs.total_ext c0 cadd _ _ (fun _ => c0)); [|intros x I; rewrite (Z x I); apply cplx_eq; cbn; ring]. clear. induction (all_bits N) as [|y l IH]; [reflexivity|]. cbn [total fold_right]. unfold total in IH. rewrite IH. ring. }
    rewrite G in H. unfold c0, c1 in H. injection H as H. lra.
Qed.
Section estimate.
Context (N : nat) (a : list qarg) (u oracle r : body) (z : list bool) (res : list nat).
Let qs := chosen a None.
Context (HR : reflection a (Some u) 1%Qc None = Some r) (NE : a <> []).
Context (ND : NoDup qs) (B : forall q, In q qs -> q < N) (Wu : within N qs u) (Wo : within N qs oracle).
Context (Lz : length z = N) (Zz : zero_on qs z = true).
Context (NR : NoDup res) (BR : forall q, In q res -> q < N) (DR : forall q, In q qs -> ~ In q res) (ZR : forall q, In q res -> getbit z q = false).
Let Psi := crun u (cbasis z).
Context (good bad : list bool -> cplx) (T : ctags N oracle Psi good bad).
Let n := length res.
Context (k : Z).
Let theta := (PI * IZR k / 2 ^ n)%R.
Context (share : cinner N good good = re (sin theta * sin theta)).
Let sg : R := if Nat.odd (length (first_entry a)) then 1%R else (-1)%R.
Context (d : Z) (HD : cexpi (angle d n) = re sg).
Let c := oracle ++ r.
Definition mix (al be : cplx) : list bool -> cplx := fun x => if (length x =? N)%nat then cadd (cmul al (good x)) (cmul be (bad x)) else c0.
Lemma mix_eq al be x : length x = N -> mix al be x = cadd (cmul al (good x)) (cmul be (bad x)).
Proof. intros L. unfold mix. rewrite L, Nat.eqb_refl. reflexivity. Qed.
Lemma mix_blank al be : blank c0 (mix al be) res.
Proof.
  intros y q I G. unfold mix. destruct (Nat.eqb_spec (length y) N) as [L|]; [|reflexivity].
  destruct (parts_off c0 c1 cadd cmul csub copp complex_ring cexpi ccos csin ci complex_euler N a u oracle z Wu Wo good bad T y L) as [-> ->].
  - apply (odd_off _ z y q); [intros J; apply (DR q J I)|apply ZR, I|exact G].
  - ring.
Qed.
Lemma within_c : within N qs c.
Proof. apply within_app; [exact Wo|]. apply (reflection_within N a u r HR NE ND B Wu). Qed.
Lemma mix_eig m al be :
  (forall x, length x = N -> cadd (cmul (cmul (re sg) (cadd (cmul (re (cos (2 * theta))) al) (cmul (re (2 * (cos theta * cos theta))) be))) (good x))
    (cmul (cmul (re sg) (csub (cmul (re (cos (2 * theta))) be) (cmul (re (2 * (sin theta * sin theta))) al))) (bad x)) =
    cmul (cexpi (angle m n)) (cadd (cmul al (good x)) (cmul be (bad x)))) ->
  eigenstate c0 c1 cadd cmul copp cexpi ccos csin ci N c (angle m n) (mix al be).
Proof.
  intros H x L. rewrite mix_eq, <- H by exact L. apply (step_cc N a u oracle r z HR NE ND B Wu Wo Lz Zz good bad T theta share al be _ x L). intros y Ly. apply mix_eq, Ly.
Qed.
Lemma parts : exists ps : list (Z * (list bool -> cplx)),
  (forall m phi, In (m, phi) ps -> (m = d + k \/ m = d - k)%Z /\ blank c0 phi res /\ eigenstate c0 c1 cadd cmul copp cexpi ccos csin ci N c (angle m n) phi) /\
  (forall x, mix c1 c1 x = total c0 cadd ps (fun part => snd part x)).
Proof.
  assert (EP : forall m, (m = d + k)%Z -> cexpi (angle m n) = cmul (re sg) (cos (2 * theta), sin (2 * theta))%R).
  { intros m ->. rewrite angle_add, (CtrlProofs.e_add c0 c1 cadd cmul copp cexpi ccos csin ci complex_euler), HD, cexpi_frac. reflexivity. }
  assert (EM : forall m, (m = d - k)%Z -> cexpi (angle m n) = cmul (re sg) (cos (2 * theta), - sin (2 * theta))%R).
  { intros m ->. unfold Z.sub. rewrite angle_add, (CtrlProofs.e_add c0 c1 cadd cmul copp cexpi ccos csin ci complex_euler), HD, cexpi_frac, opp_IZR.
    replace (2 * (PI * - IZR k / 2 ^ n))%R with (- (2 * theta))%R by (unfold theta; field; apply pow_nonzero; lra). rewrite cos_neg, sin_neg. reflexivity. }
  clearbody theta. pose proof (cos_2a theta) as C2. pose proof (sin_2a theta) as S2. pose proof (sin2_cos2 theta) as SC. unfold Rsqr in SC.
  destruct (Req_EM_T (sin theta) 0) as [S0|S0].
  { exists [((d + k)%Z, mix c1 c1)]. split.
    - intros m phi [E|[]]. injection E as <- <-. split; [left; reflexivity|]. split; [apply mix_blank|]. apply mix_eig. intros x L. rewrite (EP _ eq_refl).
      assert (G : good x = c0) by (apply (norm_zero N); [rewrite share, S0, Rmult_0_l; reflexivity|exact L]). rewrite G, S2, S0. apply cplx_eq; cbn; ring.
    - intros x. cbn. ring. }
  destruct (Req_EM_T (cos theta) 0) as [K0|K0].
  { exists [((d + k)%Z, mix c1 c1)]. split.
    - intros m phi [E|[]]. injection E as <- <-. split; [left; reflexivity|]. split; [apply mix_blank|]. apply mix_eig. intros x L. rewrite (EP _ eq_refl).
      assert (G : bad x = c0).
      { apply (norm_zero N); [|exact L]. rewrite (bad_bad c0 c1 cadd cmul csub copp complex_ring cexpi ccos csin ci complex_euler cconj complex_conjugation N a u oracle z Wu Wo Lz good bad T), share.
        unfold csub, c1, re, c0. cbn. f_equal; [rewrite K0 in SC; lra|ring]. }
      rewrite G, S2, K0. apply cplx_eq; cbn; ring.
    - intros x. cbn. ring. }
  set (t := (cos theta / sin theta)%R). set (w := (sin theta / cos theta)%R).
  exists [((d + k)%Z, mix (1 / 2, - t / 2)%R (1 / 2, w / 2)%R); ((d - k)%Z, mix (1 / 2, t / 2)%R (1 / 2, - w / 2)%R)]. split.
  - intros m phi [E|[E|[]]]; injection E as <- <-; (split; [lia|]; split; [apply mix_blank|]); apply mix_eig; intros x L; [rewrite (EP _ eq_refl)|rewrite (EM _ eq_refl)]; rewrite C2, S2; unfold t, w;
      apply cplx_eq; cbn; field; split; assumption.
  - intros x. cbn [total fold_right snd]. unfold mix. destruct (length x =? N)%nat; apply cplx_eq; cbn; field.
Qed.
Definition power_of (i : option nat) : body := match amplitude_amplification a u oracle (match i with Some i => i | None => 1 end) None with Some c => c | None => [] end.
Lemma power_eq i : power_of i = concat (repeat c (match i with Some i => i | None => 1 end)).
Proof. unfold power_of, amplitude_amplification. destruct i as [[|i]|]; [reflexivity| |]; rewrite HR; reflexivity. Qed.
Lemma estimate e : qae a u oracle res = Some e -> forall x, length x = N -> crun e (cbasis z) x <> c0 ->
  (value x res = (d + k) mod 2 ^ Z.of_nat n \/ value x res = (d - k) mod 2 ^ Z.of_nat n)%Z.
Proof.
  intros H x L NZ. unfold qae in H. destruct (amplitude_amplification a u oracle 1 None); [|discriminate]. fold power_of in H. destruct (qpe power_of true res) as [f|] eqn:HQ; [|discriminate]. injection H as <-.
  rewrite (FourierProofs.run_app c0 c1 cadd cmul copp cexpi ccos csin ci) in NZ.
  destruct parts as (ps & HP & HS).
  assert (OFF : forall i, acts_off N res (power_of i)) by (intros i; rewrite power_eq; apply (within_off N qs); [apply within_repeat, within_c|exact DR]).
  assert (E : crun f (mix c1 c1) x = total c0 cadd ps (fun '(m, phi) => if (value x res =? m mod 2 ^ Z.of_nat (length res))%Z then phi (store x res 0) else c0)).
  { apply (C71_superposition c0 c1 cadd cmul csub copp complex_ring cexpi ccos csin ci complex_euler N res power_of true ps (mix c1 c1) f HQ NR BR); [exact OFF| |exact HS|exact L].
    - intros m phi I. destruct (HP m phi I) as (_ & BL & EG). split; [exact BL|]. unfold repeats. intros i Hi. rewrite power_eq.
      replace (Q2Qc (inject_Z (2 ^ Z.of_nat i)) * angle m (length res))%Qc with (zq (Z.of_nat (2 ^ i)) * angle m n)%Qc.
      + apply (eig_repeat c0 c1 cadd cmul csub copp complex_ring cexpi ccos csin ci complex_euler); [apply within_c|exact EG].
      + unfold zq. rewrite Nat2Z.inj_pow. reflexivity. }
  rewrite (AdderProofs.run_ext c0 c1 cadd cmul copp cexpi ccos csin ci N f _ (mix c1 c1) x) in NZ; [| |intros y Ly; rewrite mix_eq by exact Ly; change (run_circuit _ _ _ _ _ _ _ _ _ _ u (cbasis z) y) with (Psi y); rewrite (proj1 (T y Ly)); ring|exact L].
  2: { apply (wf_qpe N power_of true res f HQ NR BR OFF). }
  rewrite E in NZ. clear - HP NZ. unfold n. induction ps as [|[m phi] ps IH]; [destruct NZ; reflexivity|].
  destruct (value x res =? m mod 2 ^ Z.of_nat (length res))%Z eqn:V.
  - apply Z.eqb_eq in V. destruct (HP m phi (or_introl eq_refl)) as [[->| ->] _]; [left|right]; exact V.
  - apply IH; [|intros m' phi' I; apply HP; right; exact I]. cbn [total fold_right] in NZ. rewrite V in NZ. intros C. apply NZ. unfold total in C. rewrite C. ring.
Qed.
Lemma outcomes e : qae a u oracle res = Some e -> exists x, length x = N /\ crun e (cbasis z) x <> c0.
Proof.
  intros H. unfold qae in H. destruct (amplitude_amplification a u oracle 1 None); [|discriminate]. fold power_of in H. destruct (qpe power_of true res) as [f|] eqn:HQ; [|discriminate]. injection H as <-.
  assert (OFF : forall i, acts_off N res (power_of i)) by (intros i; rewrite power_eq; apply (within_off N qs); [apply within_repeat, within_c|exact DR]).
  assert (W : wf_circuit N (u ++ f)) by (apply wf_app; [apply Wu|apply (wf_qpe N power_of true res f HQ NR BR OFF)]).
  apply some_amplitude; assumption.
Qed.
End estimate.
Lemma sin2_period t m : (sin (t + PI * IZR m) * sin (t + PI * IZR m) = sin t * sin t)%R.
Proof.
  assert (S0 : forall m, sin (PI * IZR m) = 0%R) by (intros j; apply sin_eq_0_1; exists j; ring). rewrite sin_plus, S0, Rmult_0_r, Rplus_0_r.
  pose proof (sin2_cos2 (PI * IZR m)) as H. rewrite S0 in H. unfold Rsqr in H. assert (C : (cos (PI * IZR m) * cos (PI * IZR m) = 1)%R) by lra.
  transitivity (sin t * sin t * (cos (PI * IZR m) * cos (PI * IZR m)))%R; [ring|]. rewrite C. ring.
Qed.
Lemma sin2_value v n : (sin (PI * IZR (v mod 2 ^ Z.of_nat n) / 2 ^ n) * sin (PI * IZR (v mod 2 ^ Z.of_nat n) / 2 ^ n) = sin (PI * IZR v / 2 ^ n) * sin (PI * IZR v / 2 ^ n))%R.
Proof.
  rewrite Z.mod_eq by (pose proof (Z.pow_pos_nonneg 2 (Z.of_nat n)); lia). set (j := (v / 2 ^ Z.of_nat n)%Z). rewrite minus_IZR, mult_IZR, <- pow_IZR.
  replace (PI * (IZR v - 2 ^ n * IZR j) / 2 ^ n)%R with (PI * IZR v / 2 ^ n + PI * IZR (- j))%R by (rewrite opp_IZR; field; apply pow_nonzero; lra). apply sin2_period.
Qed.
Lemma sin2_mod v k n : (v = 0 + k \/ v = 0 - k)%Z -> (sin (PI * IZR (v mod 2 ^ Z.of_nat n) / 2 ^ n) * sin (PI * IZR (v mod 2 ^ Z.of_nat n) / 2 ^ n) = sin (PI * IZR k / 2 ^ n) * sin (PI * IZR k / 2 ^ n))%R.
Proof.
  intros H. rewrite sin2_value. destruct H as [->| ->]; [reflexivity|]. rewrite Z.sub_0_l, opp_IZR. replace (PI * - IZR k / 2 ^ n)%R with (- (PI * IZR k / 2 ^ n))%R by (field; apply pow_nonzero; lra). rewrite sin_neg. ring.
Qed.
