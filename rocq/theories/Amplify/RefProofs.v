(** The reflection. *)
From Coq Require Import List ZArith Bool Lia Arith QArith Qcanon Field Ring Ring_theory.
Import ListNotations.
From Verif.Inverse Require Import InvModel InvSpec InvProofs.
From Verif.CtrlOps Require Import CtrlModel CtrlSpec CtrlProofs.
From Verif.Fourier Require Import FourierModel FourierSpec RegProofs FourierProofs AdderProofs.
From Verif.Sbp Require Import CircProofs.
From Verif.PhasePoly Require Import PhaseModel PhaseProofs.
From Verif.Qpe Require Import QpeModel QpeSpec QpeProofs QpeMain.
From Verif.Amplify Require Import AmpModel AmpSpec UnitaryProofs.
Local Open Scope nat_scope.

Lemma flattened_registers a : flattened a = registers a.
Proof. unfold flattened, registers. apply flat_map_concat_map. Qed.
Lemma pick_all : forall vs pre, pick (pre ++ vs) (seq (length pre) (length vs)) = Some (concat vs).
Proof.
  induction vs as [|v vs IH]; intros pre; [reflexivity|]. cbn [length seq pick concat]. rewrite nth_error_app2, Nat.sub_diag by lia. cbn [nth_error].
  specialize (IH (pre ++ [v])). rewrite <- app_assoc, app_length in IH. cbn [length app] in IH. rewrite Nat.add_1_r in IH. rewrite IH. reflexivity.
Qed.
Lemma pick_some vs : forall is l, pick vs is = Some l -> l = concat (map (fun i => nth i vs []) is) /\ forall i, In i is -> i < length vs.
Proof.
  induction is as [|i is IH]; intros l H; [injection H as <-; split; [reflexivity|intros i []]|]. cbn [pick] in H. destruct (nth_error vs i) as [r|] eqn:E; [|discriminate].
  destruct (pick vs is) as [m|]; [|discriminate]. injection H as <-. destruct (IH m eq_refl) as [-> B]. cbn [map concat]. rewrite (nth_error_nth _ _ _ E). split; [reflexivity|].
  intros j [<-|I]; [apply nth_error_Some; congruence|apply B, I].
Qed.
Lemma pick_defined vs : forall is, (forall i, In i is -> i < length vs) -> pick vs is <> None.
Proof.
  induction is as [|i is IH]; intros B; [discriminate|]. cbn [pick]. destruct (nth_error vs i) eqn:E; [|apply nth_error_None in E; specialize (B i (or_introl eq_refl)); lia].
  destruct (pick vs is) eqn:P; [discriminate|]. exfalso. apply IH; auto. intros j I. apply B. right. exact I.
Qed.
Lemma reflected_chosen a indices l : reflected a indices = Some l -> l = chosen a indices.
Proof.
  unfold reflected, chosen. rewrite flattened_registers. destruct indices as [is|]; intros H; [apply pick_some in H; apply H|].
  pose proof (pick_all (registers a) []) as P. cbn [app length] in P. rewrite P in H. injection H as <-. reflexivity.
Qed.
Lemma split_last_eq l f q : split_last l = Some (f, q) -> l = f ++ [q].
Proof. unfold split_last. destruct (rev l) as [|a r] eqn:E; [discriminate|]. intros H. injection H as <- <-. rewrite <- (rev_involutive l), E. reflexivity. Qed.
Lemma split_last_none l : split_last l = None <-> l = [].
Proof. unfold split_last. split; [|intros ->; reflexivity]. destruct (rev l) eqn:E; [|discriminate]. intros _. rewrite <- (rev_involutive l), E. reflexivity. Qed.
Lemma zero_on_app a b x : zero_on (a ++ b) x = (zero_on a x && zero_on b x)%bool.
Proof. apply forallb_app. Qed.
Lemma zero_on_set qs x q b : ~ In q qs -> zero_on qs (setbit x q b) = zero_on qs x.
Proof.
  intros NI. unfold zero_on. induction qs as [|p qs IH]; [reflexivity|]. cbn [forallb]. cbn [In] in NI. rewrite getbit_set_other, IH by (auto; intros ->; auto). reflexivity.
Qed.
Lemma zero_on_bits qs x : bits_eqb (map (getbit x) qs) (repeat false (length qs)) = zero_on qs x.
Proof. unfold zero_on. induction qs as [|q qs IH]; [reflexivity|]. cbn. rewrite IH. destruct (getbit x q); reflexivity. Qed.
Lemma zero_on_true qs x : zero_on qs x = true <-> forall q, In q qs -> getbit x q = false.
Proof.
  unfold zero_on. rewrite forallb_forall. split; intros H q I; specialize (H q I); destruct (getbit x q); auto; discriminate.
Qed.
Lemma wf_1 N (o : qop) l : well_formed o -> NoDup l -> length l = arity o -> (forall q, In q l -> q < N) -> wf_circuit N [(o, l)].
Proof. intros. constructor; auto. constructor. Qed.

Lemma inverse_again : forall (o o' : qop), inverse Qcopp Qcplus o = Some o' -> inverse Qcopp Qcplus o' <> None.
Proof.
  assert (BD : forall body l, Forall (fun i : qop * list nat => forall o', inverse Qcopp Qcplus (fst i) = Some o' -> inverse Qcopp Qcplus o' <> None) body -> inverse_onto Qcopp Qcplus body [] = Some l ->
    forall i, In i l -> inverse Qcopp Qcplus (fst i) <> None).
  { intros body l F H [o' loc] I. apply inverse_onto_shape in H as (e & -> & F2). rewrite app_nil_r in I. apply in_rev in I. destruct (shape_In _ _ _ _ _ _ F2 I) as (o & J & K).
    rewrite Forall_forall in F. exact (F _ J _ K). }
  induction o as [n t p l g ps|p|s b IH|s b body IH IHb|n nq ncl body ps IHb| | |n|n a b] using op_ind'; intros o' H.
  - injection H as <-. discriminate.
  - injection H as <-. discriminate.
  - cbn [inverse] in H. destruct (inverse Qcopp Qcplus b) as [b'|]; [|discriminate]. injection H as <-. cbn [inverse]. specialize (IH b' eq_refl). destruct (inverse Qcopp Qcplus b'); congruence.
  - rewrite inverse_pt in H. destruct (inverse Qcopp Qcplus b) as [b'|]; [|discriminate]. destruct (inverse_onto Qcopp Qcplus body []) as [l|] eqn:D; [|discriminate]. injection H as <-.
    rewrite inverse_pt. specialize (IH b' eq_refl). destruct (inverse Qcopp Qcplus b'); [|congruence]. destruct (inverse_onto Qcopp Qcplus l []) eqn:D2; [discriminate|].
    apply inverse_onto_none in D2 as (i & I & N). exfalso. exact (BD body l IHb D i I N).
  - rewrite inverse_comp in H. destruct ncl; [|discriminate]. destruct (inverse_onto Qcopp Qcplus body []) as [l|] eqn:D; [|discriminate]. injection H as <-. rewrite inverse_comp.
    destruct (inverse_onto Qcopp Qcplus (filter _ l) []) eqn:D2; [discriminate|]. apply inverse_onto_none in D2 as (i & I & N). apply filter_In in I as [I _]. exfalso. exact (BD body l IHb D i I N).
  - injection H as <-. discriminate.
  - injection H as <-. discriminate.
  - injection H as <-. discriminate.
  - discriminate.
Qed.
Lemma invert_again u v : invert_circuit u = Some v -> invert_circuit v <> None.
Proof.
  intros H N. apply circuit_shape in H. unfold invert_circuit, inverse_circuit in N. apply inverse_onto_none in N as ([o' loc] & I & N). apply in_rev in I.
  destruct (shape_In _ _ _ _ _ _ H I) as (o & _ & K). exact (inverse_again o o' K N).
Qed.
Lemma entry_phase a : has_entry a -> phase_qubits a = Some (first_entry a).
Proof. destruct a as [|[[|q l]|[|r rs]] a]; intros H; try destruct H; reflexivity. Qed.
Lemma phase_entry a ps : phase_qubits a = Some ps -> has_entry a /\ ps = first_entry a /\ a <> [].
Proof. destruct a as [|[[|q l]|[|r rs]] a]; intros H; try discriminate; injection H as <-; repeat split; discriminate. Qed.
Lemma reflection_some a state phase indices c : reflection a state phase indices = Some c -> a <> [] -> has_entry a.
Proof.
  intros H NE. destruct a as [|a0 a']; [congruence|]. cbn beta iota delta [reflection] in H. destruct (reflected (a0 :: a') indices); [|discriminate].
  destruct (split_last l) as [[]|]; [|discriminate]. destruct (phase_qubits (a0 :: a')) eqn:E; [|discriminate]. apply phase_entry in E. apply E.
Qed.

Section ring.
Context {R : Type} (rO rI : R) (radd rmul rsub : R -> R -> R) (ropp : R -> R) (RT : ring_theory rO rI radd rmul rsub ropp eq).
Context (expi chalf shalf : Qc -> R) (im : R) (EU : euler rO rI radd rmul ropp expi chalf shalf im).
Add Ring rrR : RT.
Notation amp := (list bool -> R).
Notation effect := (effect Qcplus rO rI radd rmul ropp expi chalf shalf im).
Notation run := (run_circuit Qcplus rO rI radd rmul ropp expi chalf shalf im).
Notation power := (power rI rmul).
Notation rt := (FourierProofs.rt chalf).
Notation run_app := (FourierProofs.run_app rO rI radd rmul ropp expi chalf shalf im).
Notation run_cons := (FourierProofs.run_cons rO rI radd rmul ropp expi chalf shalf im).
Notation run_h := (FourierProofs.run_h rO rI radd rmul rsub ropp RT expi chalf shalf im EU).
Notation run_p := (FourierProofs.run_p rO rI radd rmul rsub ropp RT expi chalf shalf im EU).
Notation e_1 := (CtrlProofs.e_1 rO rI radd rmul ropp expi chalf shalf im EU).
Notation e_0 := (CtrlProofs.e_0 rO rI radd rmul ropp expi chalf shalf im EU).
Notation zero_part := (zero_part rO).

Lemma run_x q psi x : effect gX [q] psi x = psi (setbit x q (negb (getbit x q))).
Proof. cbn. unfold on_qubit. destruct (getbit x q); cbn [negb pauli_matrix]; ring. Qed.
Lemma run_x' q psi x : effect (Pauli PX) [q] psi x = psi (setbit x q (negb (getbit x q))).
Proof. apply run_x. Qed.
Lemma run_z q psi x : effect (Pauli PZ) [q] psi x = rmul (if getbit x q then ropp rI else rI) (psi x).
Proof. cbn. unfold on_qubit. destruct (getbit x q) eqn:E; cbn [pauli_matrix]; rewrite <- E, setbit_get; ring. Qed.
Lemma ctrl0 o front last psi x : effect (Ctrl (repeat false (length front)) o) (front ++ [last]) psi x = if zero_on front x then effect o [last] psi x else psi x.
Proof.
  cbn [InvSpec.effect]. rewrite repeat_length, firstn_app, Nat.sub_diag, firstn_all, app_nil_r, zero_on_bits, skipn_app, Nat.sub_diag, skipn_all. reflexivity.
Qed.
Lemma two_rt : rmul rt (radd rt rt) = rI.
Proof. pose proof (FourierProofs.rt_2 rO rI radd rmul rsub ropp RT expi chalf shalf im EU) as H. rewrite <- H. ring. Qed.
(** the inner reflection multiplies the part with the qubits at 0 with exp(i phase) *)
Lemma run_inner front last phase psi x : ~ In last front -> last < length x ->
  run (inner_reflection front last phase) psi x = if zero_on (front ++ [last]) x then rmul (expi phase) (psi x) else psi x.
Proof.
  intros NI Hl. rewrite zero_on_app. cbn [zero_on forallb]. rewrite andb_true_r. unfold inner_reflection. destruct (Qc_eq_bool phase 1) eqn:EP.
  - apply Qc_eq_bool_correct in EP. subst phase. rewrite e_1. set (b := getbit x last). destruct front as [|f front].
    + cbn [app]. unfold qX. rewrite !run_cons. unfold run_circuit. cbn [fold_left]. rewrite run_x, run_z, run_x, getbit_set_same, setbit_twice, negb_involutive by exact Hl.
      unfold b. rewrite setbit_get. cbn [zero_on forallb andb]. destruct (getbit x last); cbn [negb]; ring.
    + set (fr := f :: front) in *. clearbody fr. cbn [app]. unfold qX, qH. rewrite !run_cons. unfold run_circuit. cbn [fold_left].
      pose proof two_rt as T. assert (G : psi x = psi (setbit x last (getbit x last))) by (rewrite setbit_get; reflexivity).
      assert (ZF : forall y c, zero_on fr (setbit y last c) = zero_on fr y) by (intros; apply zero_on_set, NI).
      rewrite run_x, run_h, !ctrl0, !ZF. destruct (zero_on fr x); cbn [andb]; rewrite ?run_x', ?run_h, ?run_x, ?setbit_twice, ?getbit_set_same by (rewrite ?setbit_length; exact Hl);
        rewrite ?setbit_twice, ?getbit_set_same by (rewrite ?setbit_length; exact Hl); rewrite ?run_h, ?run_x, ?setbit_twice, ?getbit_set_same by (rewrite ?setbit_length; exact Hl);
        rewrite ?run_x, ?setbit_twice, ?getbit_set_same by (rewrite ?setbit_length; exact Hl);
        rewrite G; fold b; destruct b; cbn [negb b2q]; rewrite ?e_0, ?e_1; set (u := psi (setbit x last false)); set (v := psi (setbit x last true));
        set (w := rt) in *; clearbody w u v.
      * transitivity (rmul (rmul w (radd w w)) v); [ring|rewrite T; ring].
      * transitivity (ropp (rmul (rmul w (radd w w)) u)); [ring|rewrite T; ring].
      * transitivity (rmul (rmul w (radd w w)) v); [ring|rewrite T; ring].
      * transitivity (rmul (rmul w (radd w w)) u); [ring|rewrite T; ring].
  - cbn [app]. destruct front as [|f front].
    + cbn [app]. unfold qX, qP. rewrite !run_cons. unfold run_circuit. cbn [fold_left]. rewrite run_x, run_p, run_x, getbit_set_same, setbit_twice, negb_involutive, setbit_get by exact Hl.
      cbn [zero_on forallb andb]. destruct (getbit x last); cbn [negb b2q]; [replace (phase * 0)%Qc with 0%Qc by ring; rewrite e_0; ring|replace (phase * 1)%Qc with phase by ring; reflexivity].
    + set (fr := f :: front) in *. clearbody fr. unfold qX. rewrite !run_cons. unfold run_circuit. cbn [app fold_left].
      rewrite run_x, ctrl0, run_p, run_x, !getbit_set_same, !setbit_twice, negb_involutive, zero_on_set, setbit_get by assumption.
      destruct (zero_on fr x), (getbit x last); cbn [negb b2q andb]; try reflexivity; [replace (phase * 0)%Qc with 0%Qc by ring; rewrite e_0; ring|replace (phase * 1)%Qc with phase by ring; reflexivity].
Qed.
Notation run_ext := (AdderProofs.run_ext rO rI radd rmul ropp expi chalf shalf im).
Notation undo := (AdderProofs.undo rO rI radd rmul rsub ropp RT expi chalf shalf im EU).
Notation run_sum := (QpeProofs.run_sum rO rI radd rmul rsub ropp RT expi chalf shalf im).
Notation run_scaled := (QpeMain.run_scaled rO rI radd rmul rsub ropp RT expi chalf shalf im).
Notation run_moved := (QpeProofs.run_moved rO rI radd rmul rsub ropp RT expi chalf shalf im).

(** circuits are linear *)
Lemma run_lin N c a b psi phi chi x : wf_circuit N c -> length x = N -> (forall y, length y = N -> chi y = radd (rmul a (psi y)) (rmul b (phi y))) ->
  run c chi x = radd (rmul a (run c psi x)) (rmul b (run c phi x)).
Proof.
  intros W L E. rewrite (run_ext N c chi (fun y => radd (rmul a (psi y)) (rmul b (phi y))) x W E L).
  rewrite (run_sum c (fun y => rmul a (psi y)) (fun y => rmul b (phi y)) _ x (fun y => eq_refl)).
  rewrite (run_scaled N c a psi _ x W L (fun y _ => eq_refl)), (run_scaled N c b phi _ x W L (fun y _ => eq_refl)). reflexivity.
Qed.
Lemma double_inverse N u v w : wf_circuit N u -> invert_circuit u = Some v -> invert_circuit v = Some w -> wf_circuit N w /\ forall chi x, length x = N -> run w chi x = run u chi x.
Proof.
  intros Wu Hv Hw. destruct (undo N u v Wu Hv) as [Wv Uv]. destruct (undo N v w Wv Hw) as [Ww Uw]. split; [exact Ww|]. intros chi x L.
  rewrite (run_ext N w chi (run v (run u chi)) x Ww (fun y Ly => eq_sym (proj1 (Uv chi y Ly))) L). apply (Uw (run u chi) x L).
Qed.
Lemma run_signs ps psi x : run (map (fun q => (gGPhase 1%Qc, [q])) ps) psi x = rmul (power (ropp rI) (length ps)) (psi x).
Proof.
  revert psi. induction ps as [|q ps IH]; intros psi; cbn [map length FourierSpec.power]; [unfold run_circuit; cbn; ring|]. rewrite run_cons, IH.
  pose proof (PhaseProofs.diag_gphase rO rI radd rmul rsub ropp RT expi chalf shalf im EU (length x) 1%Qc q psi x eq_refl) as D.
  unfold run_circuit in D. cbn [fold_left] in D. rewrite D, e_1. ring.
Qed.
Lemma phase_odd (n : nat) : power (ropp rI) n = if Nat.even n then rI else ropp rI.
Proof. induction n as [|n IH]; [reflexivity|]. cbn [FourierSpec.power]. rewrite IH, Nat.even_succ, <- Nat.negb_even. destruct (Nat.even n); cbn [negb]; ring. Qed.
(** the operator *)
Lemma reflection_operator N a u phase indices c ps v : reflection a (Some u) phase indices = Some c -> a <> [] -> phase_qubits a = Some ps -> invert_circuit u = Some v ->
  let qs := chosen a indices in NoDup qs -> (forall q, In q qs -> q < N) -> wf_circuit N u ->
  forall psi x, length x = N -> run c psi x = rmul (power (ropp rI) (length ps)) (rsub (psi x) (rmul (rsub rI (expi phase)) (run u (zero_part qs (run v psi)) x))).
Proof.
  intros H NE HP Hv qs ND B Wu psi x L. destruct a as [|a0 a']; [congruence|]. set (a := a0 :: a') in *. unfold reflection in H. fold a in H.
  assert (HR : exists q, reflected a indices = Some q) by (destruct (reflected a indices); [eauto|discriminate]). destruct HR as [q0 HR]. rewrite HR in H.
  apply reflected_chosen in HR. fold qs in HR. subst q0. destruct (split_last qs) as [[front last]|] eqn:ES; [|discriminate]. apply split_last_eq in ES. rewrite HP, Hv in H.
  unfold conjugate in H. destruct (invert_circuit v) as [w|] eqn:Hw; [|discriminate]. cbn [a] in H. injection H as <-.
  destruct (undo N u v Wu Hv) as [Wv Uv]. destruct (double_inverse N u v w Wu Hv Hw) as [Ww Uw].
  rewrite !run_app, run_signs. f_equal. rewrite Uw by exact L. rewrite ES in ND, B. assert (NI : ~ In last front).
  { intros I. apply NoDup_remove_2 in ND. rewrite app_nil_r in ND. exact (ND I). }
  rewrite (run_lin N u rI (ropp (rsub rI (expi phase))) (run v psi) (zero_part qs (run v psi)) _ x Wu L).
  - rewrite (proj2 (Uv psi x L)). ring.
  - intros y Ly. rewrite run_inner by (assumption || (rewrite Ly; apply B, in_or_app; right; left; reflexivity)). unfold AmpSpec.zero_part. rewrite ES. destruct (zero_on (front ++ [last]) y); ring.
Qed.
Lemma reflection_plain N a phase indices c ps : reflection a None phase indices = Some c -> a <> [] -> phase_qubits a = Some ps ->
  let qs := chosen a indices in NoDup qs -> (forall q, In q qs -> q < N) ->
  forall psi x, length x = N -> run c psi x = rmul (power (ropp rI) (length ps)) (rsub (psi x) (rmul (rsub rI (expi phase)) (zero_part qs psi x))).
Proof.
  intros H NE HP qs ND B psi x L. destruct a as [|a0 a']; [congruence|]. set (a := a0 :: a') in *. unfold reflection in H. fold a in H.
  assert (HR : exists q, reflected a indices = Some q) by (destruct (reflected a indices); [eauto|discriminate]). destruct HR as [q0 HR]. rewrite HR in H.
  apply reflected_chosen in HR. fold qs in HR. subst q0. destruct (split_last qs) as [[front last]|] eqn:ES; [|discriminate]. apply split_last_eq in ES. rewrite HP in H.
  cbn [a] in H. injection H as <-. rewrite run_app, run_signs. f_equal. rewrite ES in ND, B. assert (NI : ~ In last front).
  { intros I. apply NoDup_remove_2 in ND. rewrite app_nil_r in ND. exact (ND I). }
  rewrite run_inner by (assumption || (rewrite L; apply B, in_or_app; right; left; reflexivity)). unfold AmpSpec.zero_part. rewrite ES. destruct (zero_on (front ++ [last]) x); ring.
Qed.

(** circuits that act on qs only work on every branch of the other qubits alone *)
Definition same_off (qs : list nat) (x y : list bool) : bool := bits_eqb (write x qs (repeat false (length qs))) (write y qs (repeat false (length qs))).
Lemma same_off_refl qs x : same_off qs x x = true.
Proof. apply bits_eqb_eq. reflexivity. Qed.
Lemma write_absorb : forall qs x q b, In q qs -> write (setbit x q b) qs (repeat false (length qs)) = write x qs (repeat false (length qs)).
Proof.
  induction qs as [|p qs IH]; intros x q b I; [destruct I|]. cbn [length repeat write]. destruct (in_dec Nat.eq_dec q qs) as [J|NJ]; [rewrite IH by exact J; reflexivity|].
  destruct I as [->|I]; [|contradiction]. rewrite write_set by exact NJ. apply setbit_twice.
Qed.
Lemma branch N qs c psi psi' x : within N qs c -> length x = N -> (forall y, length y = N -> same_off qs x y = true -> psi' y = psi y) -> run c psi' x = run c psi x.
Proof.
  intros [W O] L E. set (g := fun y => if same_off qs x y then rI else rO).
  assert (M : forall chi, run c (fun y => rmul (g y) (chi y)) x = rmul (g x) (run c chi x)).
  { intros chi. apply (run_moved (fun q => In q qs) g (fun y => y)) with (N := N); auto. intros y q b I. unfold g, same_off. rewrite write_absorb by exact I. reflexivity. }
  assert (G : g x = rI) by (unfold g; rewrite same_off_refl; reflexivity). pose proof (M psi) as M1. pose proof (M psi') as M2. rewrite G in M1, M2.
  transitivity (rmul rI (run c psi' x)); [ring|]. rewrite <- M2. transitivity (rmul rI (run c psi x)); [|ring]. rewrite <- M1.
  apply (run_ext N c _ _ x W); [|exact L]. intros y Ly. unfold g. destruct (same_off qs x y) eqn:S; [rewrite E by assumption; reflexivity|ring].
Qed.
Lemma branch_zero N qs c psi x : within N qs c -> length x = N -> (forall y, length y = N -> same_off qs x y = true -> psi y = rO) -> run c psi x = rO.
Proof.
  intros W L E. rewrite (branch N qs c (fun _ => rO) psi x W L E). apply (QpeProofs.run_zero rO rI radd rmul rsub ropp RT expi chalf shalf im).
Qed.
Lemma store_zeros qs x : store x qs 0 = write x qs (repeat false (length qs)).
Proof. unfold store. rewrite <- zeros_bits. reflexivity. Qed.
Lemma zero_same N qs x y : NoDup qs -> (forall q, In q qs -> q < N) -> length x = N -> length y = N -> same_off qs x y = true -> zero_on qs y = true -> y = store x qs 0.
Proof.
  intros ND B Lx Ly S Z. apply bits_eqb_eq in S. rewrite store_zeros, S. symmetry. replace (repeat false (length qs)) with (read y qs); [apply write_read, ND|].
  unfold read. rewrite zero_on_true in Z. clear - Z. induction qs as [|q qs IH]; [reflexivity|]. cbn [map length repeat]. rewrite (Z q (or_introl eq_refl)), IH; [reflexivity|]. intros p I. apply Z. right. exact I.
Qed.
Lemma same_sym qs x y : same_off qs x y = same_off qs y x.
Proof.
  unfold same_off. destruct (bits_eqb _ _) eqn:E; symmetry.
  - apply bits_eqb_eq in E. apply bits_eqb_eq. congruence.
  - apply not_true_iff_false. rewrite bits_eqb_eq. apply not_true_iff_false in E. rewrite bits_eqb_eq in E. congruence.
Qed.
Lemma same_trans qs x y z : same_off qs x y = true -> same_off qs y z = true -> same_off qs x z = true.
Proof. unfold same_off. rewrite !bits_eqb_eq. congruence. Qed.
Lemma write_zero_twice qs x : write (write x qs (repeat false (length qs))) qs (repeat false (length qs)) = write x qs (repeat false (length qs)).
Proof.
  revert x. induction qs as [|q qs IH]; intros x; [reflexivity|]. cbn [length repeat write]. destruct (in_dec Nat.eq_dec q qs) as [I|NI].
  - rewrite write_absorb, IH by exact I. reflexivity.
  - rewrite write_set by exact NI. rewrite setbit_twice, IH. reflexivity.
Qed.
Lemma store_same qs x : same_off qs (store x qs 0) x = true.
Proof. unfold same_off. apply bits_eqb_eq. rewrite store_zeros. apply write_zero_twice. Qed.
Notation basis := (basis rO rI).
(** a circuit on qs, on a state with qs at 0 *)
Lemma run_zero_part N qs c chi x : within N qs c -> NoDup qs -> (forall q, In q qs -> q < N) -> length x = N ->
  run c (zero_part qs chi) x = rmul (chi (store x qs 0)) (run c (basis (store x qs 0)) x).
Proof.
  intros W ND B L. rewrite (branch N qs c (fun y => rmul (chi (store x qs 0)) (basis (store x qs 0) y)) _ x W L).
  - apply run_scaled with (N := N); [apply W|exact L|]. reflexivity.
  - intros y Ly S. unfold AmpSpec.zero_part, AmpSpec.basis. destruct (bits_eqb y (store x qs 0)) eqn:E.
    + apply bits_eqb_eq in E. rewrite <- E. replace (zero_on qs y) with true; [ring|]. symmetry. apply zero_on_true. intros q I. rewrite E, store_zeros. clear - I B ND L.
      assert (RG : register qs x) by (split; [exact ND|intros p J; rewrite L; apply B, J]). pose proof (read_write x qs (repeat false (length qs)) RG (repeat_length _ _)) as RW.
      unfold read in RW. assert (F : Forall (fun b => b = false) (map (getbit (write x qs (repeat false (length qs)))) qs)) by (rewrite RW; apply Forall_forall; intros b J; exact (repeat_spec _ _ _ J)).
      rewrite Forall_map in F. rewrite Forall_forall in F. apply F, I.
    + destruct (zero_on qs y) eqn:Z; [|ring]. exfalso. apply (zero_same N qs x y ND B L Ly S) in Z. subst y. apply not_true_iff_false in E. apply E, bits_eqb_eq. reflexivity.
Qed.
Section conj.
Context (conj : R -> R) (CJ : conjugation rI radd rmul ropp expi chalf shalf conj).
Notation inner := (inner rO radd rmul conj).
Notation adjoint := (UnitaryProofs.adjoint rO rI radd rmul rsub ropp RT expi chalf shalf im EU conj CJ).
Lemma inner_basis N z psi : length z = N -> inner N (basis z) psi = psi z.
Proof.
  intros L. unfold AmpSpec.inner, AmpSpec.basis. rewrite (FourierProofs.total_ext rO radd _ _ (fun x => if bits_eqb x z then psi z else rO)).
  - revert psi N L. induction z as [|b z IH]; intros psi N L; subst N; cbn [length all_bits]; [cbn; ring|].
    rewrite (FourierProofs.total_app rO rI radd rmul rsub ropp RT), !(FourierProofs.total_map rO radd). destruct b; cbn [bits_eqb Bool.eqb andb].
    + rewrite (FourierProofs.total_zero rO rI radd rmul rsub ropp RT), (IH (fun y => psi (true :: y)) (length z) eq_refl). ring.
    + rewrite (FourierProofs.total_zero rO rI radd rmul rsub ropp RT), (IH (fun y => psi (false :: y)) (length z) eq_refl). ring.
  - intros x _. destruct (bits_eqb x z) eqn:E; [apply bits_eqb_eq in E; subst x; rewrite (cj_1 rI radd rmul ropp expi chalf shalf conj CJ); ring|].
    rewrite (cj_0 rO rI radd rmul rsub ropp RT expi chalf shalf conj CJ). ring.
Qed.
(** the projector on the prepared state *)
Lemma projector N qs u v psi x : within N qs u -> invert_circuit u = Some v -> NoDup qs -> (forall q, In q qs -> q < N) -> length x = N ->
  let ket := run u (basis (store x qs 0)) in run u (zero_part qs (run v psi)) x = rmul (inner N ket psi) (ket x).
Proof.
  intros W Hv ND B L ket. rewrite (run_zero_part N qs u _ x W ND B L). f_equal. rewrite <- (inner_basis N (store x qs 0) (run v psi)) by (unfold store; rewrite write_length; exact L).
  apply adjoint; [apply W|exact Hv].
Qed.
End conj.
End ring.
