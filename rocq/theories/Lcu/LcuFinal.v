(** The circuit of inner_LCU: its parts, and oblivious amplitude amplification. *)
From Coq Require Import Reals Lra List ZArith Bool Lia QArith Qcanon Ring_theory Ring.
Import ListNotations.
From Verif.Inverse Require Import InvModel InvSpec InvProofs.
From Verif.CtrlOps Require Import CtrlModel CtrlSpec CtrlProofs CtrlComplex.
From Verif.Fourier Require Import FourierModel FourierSpec RegProofs FourierProofs FourierFinal AdderProofs.
From Verif.Qpe Require Import QpeModel QpeSpec QpeProofs QpeMain.
From Verif.Amplify Require Import AmpModel AmpSpec UnitaryProofs RefProofs AmpProofs Conj AmpComplex.
From Verif.Grover Require Import GroverModel GroverSpec TagProofs GroverProofs GroverProperties.
From Verif.Switch Require Import SwitchModel SwitchSpec BitProofs SwitchProofs SwitchFinal SwitchProperties.
From Verif.Lcu Require Import LcuModel LcuSpec LcuProofs OaaProofs.
Local Open Scope nat_scope.
Add Ring complex_numbers_f : complex_ring.

Lemma log2_up_bound m : m <= 2 ^ Nat.log2_up m.
Proof. destruct m as [|[|m]]; [cbn; lia|cbn; lia|]. apply Nat.log2_up_spec. lia. Qed.
Lemma inner_LCU_parts case fresh operand S unitary m j c : inner_LCU case fresh operand S unitary m j = Some c ->
  length case = Nat.log2_up m /\ exists sw v, q_switch false case fresh None false unitary m = Some sw /\ invert_circuit S = Some v /\
  (j = 0 -> c = S ++ sw ++ v) /\
  (0 < j -> exists oracle r, tag_state [(case, Code 0)] 1%Qc = Some oracle /\ reflection [Variable_ case; Variable_ operand] (Some (S ++ sw ++ v)) 1%Qc (Some [0]) = Some r /\
     c = (S ++ sw ++ v) ++ concat (repeat (oracle ++ r) j)).
Proof.
  unfold inner_LCU, lcu_state_prep, case_size. destruct (length case =? Nat.log2_up m) eqn:E; [|discriminate]. apply Nat.eqb_eq in E. split; [exact E|].
  destruct (q_switch false case fresh None false unitary m) as [sw|]; [|discriminate]. unfold conjugate in H. unfold conjugate. destruct (invert_circuit S) as [v|]; [|discriminate]. exists sw, v.
  split; [reflexivity|]. split; [reflexivity|]. destruct j as [|j].
  - injection H as <-. split; [reflexivity|lia].
  - split; [discriminate|]. intros _. destruct (tag_state _ _) as [o|]; [|discriminate]. unfold amplitude_amplification in H. destruct (reflection _ _ _ _) as [r|]; [|discriminate]. exists o, r.
    split; [reflexivity|]. split; [reflexivity|]. congruence.
Qed.

Lemma number_zeros n : number (repeat false n) = 0%Z.
Proof. induction n as [|n IH]; [reflexivity|]. cbn [repeat number]. rewrite IH. reflexivity. Qed.
Section lcu.
Context (N : nat) (case fresh operand : list nat) (S : body) (unitary : nat -> option body) (U : nat -> body) (m : nat).
Context (ND : NoDup (case ++ fresh)) (BD : forall q, In q (case ++ fresh) -> q < N) (LF : length fresh = length case) (WS : within N case S).
Context (AM : m <= 2 ^ length case) (HM : 0 < m) (HC : 0 < length case).
Context (BR : forall i, i < m -> unitary i = Some (U i) /\ acts_off N (case ++ fresh) (U i) /\ invert_circuit (U i) <> None).
Context (sw v V : body) (HS : q_switch false case fresh None false unitary m = Some sw) (Hv : invert_circuit S = Some v) (HV : invert_circuit (S ++ sw ++ v) = Some V).
Let BR' i : i < m -> unitary i = Some (U i) /\ acts_off N (case ++ fresh) (U i). Proof. intros Hi. destruct (BR i Hi) as (A & B & _). auto. Qed.
Let u := S ++ sw ++ v.
Lemma wf_sw : wf_circuit N sw.
Proof.
  destruct (C78_defined false false N case fresh None unitary U m LF) as (c & E & W); cbn [controls]; rewrite ?app_nil_r; auto; [|congruence].
  intros i Hi. unfold called. destruct (BR' i Hi) as [-> A]. auto.
Qed.
Lemma within_v : within N case v.
Proof. apply (within_inverse N case S v WS); [apply (cundo N S v (proj1 WS) Hv)|exact Hv]. Qed.
Lemma wf_u : wf_circuit N u.
Proof. apply wf_app; [apply WS|]. apply wf_app; [apply wf_sw|apply within_v]. Qed.
Let Vi i := match invert_circuit (U i) with Some d => d | None => [] end.
Lemma Vi_inv i : i < m -> invert_circuit (U i) = Some (Vi i).
Proof. intros Hi. destruct (BR i Hi) as (_ & _ & H). unfold Vi. destruct (invert_circuit (U i)); [reflexivity|congruence]. Qed.
Lemma Vi_off i : i < m -> acts_off N (case ++ fresh) (Vi i).
Proof. intros Hi. destruct (BR i Hi) as (_ & A & _). apply (off_inverse N _ (U i) (Vi i) A); [apply (cundo N (U i) (Vi i) (proj1 A)), Vi_inv, Hi|apply Vi_inv, Hi]. Qed.
Lemma select_undone chi x : length x = N -> cselected case None m U (cselected case None m Vi chi) x = chi x.
Proof.
  intros L. unfold selected at 1. cbv zeta. cbn [enabled andb]. destruct (Z.to_nat (value x case) <? m) eqn:E; [|unfold selected; cbv zeta; cbn [enabled andb]; rewrite E; reflexivity]. set (i := Z.to_nat (value x case)) in *.
  apply Nat.ltb_lt in E. destruct (BR i E) as (_ & A & _). destruct (cundo N (U i) (Vi i) (proj1 A) (Vi_inv i E)) as [_ UN]. transitivity (crun (U i) (crun (Vi i) chi) x); [|apply UN, L].
  apply (guard c0 c1 cadd cmul csub copp complex_ring cexpi ccos csin ci N (case ++ fresh) (U i) (fun y => Z.to_nat (value y case) =? i)); [exact A| |exact L| |apply Nat.eqb_refl].
  - intros y q b NI. f_equal. f_equal. unfold value, read. f_equal. apply map_ext_in. intros p I. apply getbit_set_other. intros ->. apply NI, in_or_app. left. exact I.
  - intros y Ly Ey. apply Nat.eqb_eq in Ey. unfold selected. cbv zeta. cbn [enabled andb]. rewrite Ey. replace (i <? m) with true by (symmetry; apply Nat.ltb_lt; exact E). reflexivity.
Qed.
Lemma back_zeroed chi : czeroed N fresh chi -> czeroed N fresh (crun V chi).
Proof.
  intros Z. set (rho := cselected case None m Vi (crun S chi)).
  assert (OF : forall c, within N case c -> acts_off N fresh c) by (apply within_off; exact ND).
  assert (Z1 : czeroed N fresh (crun S chi)) by (apply (off_zeroed N); [apply OF, WS|exact Z]).
  assert (Z2 : czeroed N fresh rho).
  { apply (selected_zeroed c0 c1 cadd cmul csub copp complex_ring cexpi ccos csin ci); [|exact Z1]. intros i Hi. apply (off_less N (case ++ fresh)); [|apply Vi_off, Hi]. intros q I. apply in_or_app. auto. }
  assert (Wv := within_v). destruct (cundo N S v (proj1 WS) Hv) as [_ US].
  assert (E : forall x, length x = N -> crun u (crun v rho) x = chi x).
  { intros x L. unfold u. rewrite !crun_app. rewrite <- (proj1 (US chi x L)). apply (crun_ext N); [apply Wv| |exact L]. intros y Ly.
    transitivity (crun sw rho y); [apply (crun_ext N); [apply wf_sw| |exact Ly]; intros w Lw; apply US, Lw|].
    destruct (switch_run N case fresh unitary U m ND BD LF AM BR' sw HS rho Z2) as [_ ->]; [|exact Ly]. apply select_undone, Ly. }
  destruct (cundo N u V wf_u HV) as [WV UV]. intros x L H.
  rewrite <- (crun_ext N V (crun u (crun v rho)) chi x WV E L). rewrite (proj1 (UV (crun v rho) x L)). apply (off_zeroed N fresh v rho (OF v Wv) Z2 x L H).
Qed.
Context (oracle r : body) (HO : tag_state [(case, Code 0)] 1%Qc = Some oracle).
Context (HR : reflection [Variable_ case; Variable_ operand] (Some u) 1%Qc (Some [0]) = Some r).
Lemma oracle_sign chi x : length x = N -> crun oracle chi x = if zero_on case x then copp (chi x) else chi x.
Proof.
  intros L. assert (NC : NoDup case) by (apply nodup_l in ND; exact ND).
  destruct (C77_tag_state cplx c0 c1 cadd cmul csub copp complex_ring cexpi ccos csin ci complex_euler [(case, Code 0)] 1%Qc oracle HO) with (x := x) (psi := chi) as [T F].
  - intros e [<-|[]]. unfold fits. cbn [snd fst]. split; [split; [lia|apply Z.pow_pos_nonneg; lia]|]. intros E. rewrite E in HC. cbn in HC. lia.
  - cbn [map concat fst]. rewrite app_nil_r. split; [exact NC|]. intros q I. rewrite L. apply BD, in_or_app. auto.
  - destruct (zero_on case x) eqn:E.
    + rewrite T.
      * replace (cexpi 1%Qc) with (copp c1); [ring|]. symmetry. apply complex_euler.
      * intros e [<-|[]]. unfold holds. cbn [snd fst]. unfold value. rewrite (read_zero_on _ _ E). apply number_zeros.
    + rewrite F; [reflexivity|]. intros H. specialize (H _ (or_introl eq_refl)). unfold holds in H. cbn [snd fst] in H. unfold value in H.
      apply zero_on_false in E as (q & I & G). assert (EB : read x case = repeat false (length case)).
      { apply number_inj; [rewrite read_length, repeat_length; reflexivity|]. rewrite number_zeros. exact H. }
      assert (J : In (getbit x q) (read x case)) by (unfold read; apply in_map, I). rewrite EB in J. apply repeat_spec in J. congruence.
Qed.
Lemma reflected_about chi x : length x = N -> crun r chi x = csub (cmul (re 2) (crun u (zero_part c0 case (crun V chi)) x)) (chi x).
Proof.
  intros L. assert (NC : NoDup case) by (apply nodup_l in ND; exact ND). destruct case as [|q0 case'] eqn:EC; [cbn in HC; lia|].
  rewrite (reflection_operator c0 c1 cadd cmul csub copp complex_ring cexpi ccos csin ci complex_euler N _ u 1%Qc (Some [0]) r [q0] V HR); try reflexivity; try discriminate; try assumption.
  - cbn [chosen registers map concat nth app]. rewrite app_nil_r. cbn [length FourierSpec.power].
    replace (cexpi 1%Qc) with (copp c1) by (symmetry; apply complex_euler). change (re 2) with (re (1 + 1)). rewrite re_add, re_1. ring.
  - cbn [chosen registers map concat nth app]. rewrite app_nil_r. exact NC.
  - cbn [chosen registers map concat nth app]. rewrite app_nil_r. intros q I. apply BD, in_or_app. auto.
  - rewrite <- EC in *. exact wf_u.
Qed.
End lcu.

(** * the inverse of the circuit exists *)
Lemma invertible_of c : invert_circuit c <> None -> invertible c.
Proof. intros H i I E. apply H. unfold invert_circuit, inverse_circuit. apply inverse_onto_none. exists i. auto. Qed.
Lemma ctrl_inv (o : qop) st : inverse Qcopp Qcplus o <> None <-> inverse Qcopp Qcplus (Ctrl st o) <> None.
Proof. change (inverse Qcopp Qcplus (Ctrl st o)) with (match inverse Qcopp Qcplus o with Some b => Some (Ctrl st b) | None => None end). destruct (inverse Qcopp Qcplus o); split; congruence. Qed.
Lemma controlled_inv : forall (o : qop) st, inverse Qcopp Qcplus o <> None -> inverse Qcopp Qcplus (controlled st o) <> None.
Proof. fix IH 1. intros o st. destruct o; intros H; try (cbn [controlled]; apply ctrl_inv, H). cbn [controlled]. apply IH. apply (ctrl_inv o state), H. Qed.
Lemma invertible_control q c : invertible c -> invertible (control_on q c).
Proof.
  intros H i I. unfold control_on in I. apply in_map_iff in I as ([o qs] & E & I). specialize (H _ I). cbn [fst] in H. destruct (is_alloc o || is_barrier o)%bool; subst i; cbn [fst]; [exact H|apply controlled_inv, H].
Qed.
Section invertible.
Context (index anc : list nat) (ctrl : option nat) (branch : nat -> option body) (BR : forall i c, branch i = Some c -> invertible c).
Lemma inv_right d : invertible (step_right anc ctrl d).
Proof. destruct d; cbn [step_right]; [destruct ctrl|]; inv_gate. Qed.
Lemma inv_up d : invertible (up index anc ctrl d).
Proof. destruct d; cbn [up]; [destruct ctrl|]; inv_gate. Qed.
Lemma inv_down d : invertible (down index anc ctrl d).
Proof. unfold down. apply invertible_app; [inv_gate|]. apply invertible_app; [apply inv_up|inv_gate]. Qed.
Lemma inv_bounce d c : bounce index anc ctrl d = Some c -> invertible c.
Proof.
  destruct d as [|e]; [discriminate|]. cbn [bounce]. intros E. injection E as <-. apply invertible_app; [apply inv_right|]. apply invertible_cons; [discriminate|]. destruct e; [destruct ctrl|]; inv_gate.
Qed.
Lemma inv_guarded i c : guarded index anc branch i = Some c -> invertible c.
Proof. unfold guarded. destruct (branch i) as [b|] eqn:E; [|discriminate]. intros [= <-]. apply invertible_control, (BR i), E. Qed.
Lemma inv_leaf i c : leaf index anc ctrl branch i = Some c -> invertible c.
Proof.
  unfold leaf. destruct (guarded index anc branch i) as [a|] eqn:E; [|discriminate]. destruct (guarded index anc branch (S i)) as [b|] eqn:F; [|discriminate]. intros [= <-].
  apply invertible_app; [apply (inv_guarded i), E|]. apply invertible_app; [apply inv_right|apply (inv_guarded (S i)), F].
Qed.
Lemma inv_loop : forall times pos c, loop index anc ctrl branch pos times = Some c -> invertible c.
Proof.
  induction times as [|t IH]; intros pos c; cbn [loop]; [intros [= <-]; apply invertible_nil|]. destruct (body_fun index anc ctrl branch pos) as [a|] eqn:E; [|discriminate].
  destruct (loop index anc ctrl branch (S pos) t) as [b|] eqn:F; [|discriminate]. intros [= <-]. apply invertible_app; [|apply (IH (S pos)), F].
  unfold body_fun in E. cbv zeta in E. destruct (leaf _ _ _ _ _) as [l|] eqn:G; [|discriminate]. destruct (bounce _ _ _ _) as [k|] eqn:B; [|discriminate]. injection E as <-.
  apply invertible_app; [apply (inv_leaf _ _ G)|]. apply invertible_app; [apply invertible_flat; intros j _; apply inv_up|]. apply invertible_app; [apply (inv_bounce _ _ B)|apply invertible_flat; intros j _; apply inv_down].
Qed.
Lemma inv_tree amount c : tree_switch index anc ctrl branch amount = Some c -> invertible c.
Proof.
  unfold tree_switch. destruct (length index) eqn:LI; [discriminate|]. destruct amount as [|amount]; [discriminate|]. destruct (loop _ _ _ _ _ _) as [l|] eqn:L; [|discriminate].
  destruct (if Nat.even _ then _ else _) as [k|] eqn:K; [|discriminate]. intros E. assert (E' := f_equal (fun o => match o with Some z => z | None => [] end) E). cbv beta iota in E'. subst c. apply invertible_app; [exact (invertible_flat (down index anc ctrl) (seq 0 _) (fun j _ => inv_down j))|].
  apply invertible_app; [apply (inv_loop _ _ _ L)|]. apply invertible_app.
  - destruct (Nat.even (S amount)); [apply (inv_leaf _ _ K)|apply (inv_guarded _ _ K)].
  - apply invertible_flat. intros j _. apply invertible_app; [apply inv_up|]. destruct (Nat.testbit _ j); [apply inv_right|apply invertible_nil].
Qed.
End invertible.
