(** C79: linear combinations of unitaries. *)
From Coq Require Import Reals Lra List ZArith Bool Lia QArith Qcanon Ring_theory Ring.
Import ListNotations.
From Verif.Inverse Require Import InvModel InvSpec InvProofs.
From Verif.CtrlOps Require Import CtrlModel CtrlSpec CtrlComplex.
From Verif.Fourier Require Import FourierModel FourierSpec RegProofs FourierProofs FourierFinal AdderProofs.
From Verif.Qpe Require Import QpeModel QpeSpec.
From Verif.Amplify Require Import AmpModel AmpSpec RefProofs AmpProofs Conj AmpComplex ReflectProperties.
From Verif.Grover Require Import GroverModel GroverSpec TagProofs GroverProperties.
From Verif.Switch Require Import SwitchModel SwitchSpec SwitchProofs SwitchFinal SwitchProperties.
From Verif.Lcu Require Import LcuModel LcuSpec LcuProofs OaaProofs LcuFinal.
Local Open Scope nat_scope.
Add Ring complex_numbers_p : complex_ring.

(** Without amplification: where the case indicator is 0, the operand is in the state sum_i |s_i|^2 U_i psi, s_i the amplitudes that state_prep
    gives to the case i from 0. For every number of unitaries, every state_prep on the case indicator, all unitaries and operand states
    (also entangled with other qubits); cases without a unitary count as the identity. The ancillas end as 0. *)
Theorem C79_lcu N case fresh operand state_prep unitary U num_unitaries c psi :
  NoDup (case ++ fresh) -> (forall q, In q (case ++ fresh) -> q < N) -> length fresh = length case -> within N case state_prep ->
  (forall i, i < num_unitaries -> unitary i = Some (U i) /\ acts_off N (case ++ fresh) (U i)) ->
  inner_LCU case fresh operand state_prep unitary num_unitaries 0 = Some c -> zeroed c0 N (case ++ fresh) psi ->
  zeroed c0 N fresh (crun c psi) /\
  forall x, length x = N -> zero_on case x = true -> crun c psi x = combination N case state_prep num_unitaries U psi x.
Proof.
  intros ND BD LF WS BR H Z. destruct (inner_LCU_parts _ _ _ _ _ _ _ _ H) as (LC & sw & v & HS & Hv & H0 & _). rewrite (H0 eq_refl).
  apply (lcu_effect N case fresh state_prep unitary U num_unitaries ND BD LF WS); try assumption. rewrite LC. apply log2_up_bound.
Qed.

(** With oblivious amplitude amplification: if the linear combination is sin(theta) W for an isometry W of the operand states, then after j
    iterations it is sin((2 j + 1) theta) W, whatever the operand state; the case indicator is 0 with probability
    sin^2((2 j + 1) theta). *)
Theorem C79_amplified N case fresh operand state_prep unitary U num_unitaries j c psi theta (W : (list bool -> cplx) -> list bool -> cplx) :
  NoDup (case ++ fresh) -> (forall q, In q (case ++ fresh) -> q < N) -> length fresh = length case -> within N case state_prep ->
  (forall i, i < num_unitaries -> unitary i = Some (U i) /\ acts_off N (case ++ fresh) (U i) /\ invert_circuit (U i) <> None) ->
  (forall phi x, zeroed c0 N (case ++ fresh) phi -> length x = N -> zero_on case x = true ->
     combination N case state_prep num_unitaries U phi x = cmul (re (sin theta)) (W phi x)) ->
  (forall phi, zeroed c0 N (case ++ fresh) phi -> zeroed c0 N case (W phi)) ->
  (forall phi chi, zeroed c0 N (case ++ fresh) phi -> zeroed c0 N (case ++ fresh) chi -> cinner N (W phi) (W chi) = cinner N phi chi) ->
  inner_LCU case fresh operand state_prep unitary num_unitaries j = Some c -> zeroed c0 N (case ++ fresh) psi ->
  (forall x, length x = N -> zero_on case x = true -> crun c psi x = cmul (re (sin (INR (2 * j + 1) * theta))) (W psi x)) /\
  cinner N (zero_part c0 case (crun c psi)) (zero_part c0 case (crun c psi)) =
    cmul (re (sin (INR (2 * j + 1) * theta) * sin (INR (2 * j + 1) * theta))) (cinner N psi psi) /\
  (cos (INR (2 * j + 1) * theta) = 0%R -> forall x, length x = N -> zero_on case x = false -> crun c psi x = c0).
Proof.
  intros ND BD LF WS BR CO ZW IW H Z. destruct (inner_LCU_parts _ _ _ _ _ _ _ _ H) as (LC & sw & v & HS & Hv & H0 & H1).
  assert (AM : num_unitaries <= 2 ^ length case) by (rewrite LC; apply log2_up_bound).
  assert (BR' : forall i, i < num_unitaries -> unitary i = Some (U i) /\ acts_off N (case ++ fresh) (U i)) by (intros i Hi; destruct (BR i Hi) as (A & B & _); auto).
  assert (HC : 0 < length case) by (clear - HS; unfold q_switch, tree_switch in HS; destruct (length case); [discriminate|lia]).
  assert (HM : 0 < num_unitaries) by (destruct num_unitaries; [cbn in LC; lia|lia]).
  set (u := state_prep ++ sw ++ v) in *.
  assert (EF : forall phi, zeroed c0 N (case ++ fresh) phi -> zeroed c0 N fresh (crun u phi) /\ forall x, length x = N -> zero_part c0 case (crun u phi) x = cmul (re (sin theta)) (W phi x)).
  { intros phi Zp. destruct (lcu_effect N case fresh state_prep unitary U num_unitaries ND BD LF WS AM BR' sw HS v phi Hv Zp) as [A B]. split; [exact A|]. intros x L. unfold zero_part. destruct (zero_on case x) eqn:E.
    - fold u in B. rewrite (B x L E). apply CO; assumption.
    - rewrite (ZW phi Zp x L (zero_on_false _ _ E)). ring. }
  assert (iso : forall phi chi, zeroed c0 N (case ++ fresh) phi -> zeroed c0 N (case ++ fresh) chi ->
    cinner N (zero_part c0 case (crun u phi)) (zero_part c0 case (crun u chi)) = cmul (re (sin theta * sin theta)) (cinner N phi chi)).
  { intros phi chi Zp Zc. rewrite <- (IW phi chi Zp Zc). unfold inner. rewrite <- (FourierProofs.total_scale c0 c1 cadd cmul csub copp complex_ring). apply total_ext. intros x I. apply all_bits_length in I.
    rewrite (proj2 (EF phi Zp) x I), (proj2 (EF chi Zc) x I). rewrite (proj1 (proj2 complex_conjugation)), conj_re, re_mul. ring. }
  assert (Wu : wf_circuit N u) by (eapply (wf_u N case fresh state_prep unitary U num_unitaries); eassumption).
  assert (ROT : exists al be, (sin theta * al = sin (INR (2 * j + 1) * theta))%R /\ (cos theta * be = cos (INR (2 * j + 1) * theta))%R /\
    forall x, length x = N -> crun c psi x = cadd (cmul (re al) (zero_part c0 case (crun u psi) x)) (cmul (re be) (if zero_on case x then c0 else crun u psi x))).
  { destruct j as [|j].
    - exists 1%R, 1%R. cbn [Nat.mul Nat.add INR]. rewrite !Rmult_1_l, !Rmult_1_r. split; [reflexivity|]. split; [reflexivity|]. intros x L. rewrite (H0 eq_refl), re_1. unfold zero_part. destruct (zero_on case x); ring.
    - destruct (H1 ltac:(lia)) as (oracle & r & HO & HR & ->). 
      assert (EV : exists V, invert_circuit u = Some V).
      { destruct (invert_circuit u) as [V|] eqn:EV; [eauto|]. exfalso. clear - HR EV. unfold reflection in HR. rewrite EV in HR. destruct (reflected _ _); [|discriminate]. destruct (split_last l) as [[]|]; [|discriminate]. destruct (phase_qubits _); discriminate. }
      destruct EV as [V HV]. rewrite crun_app.
      assert (Wo : wf_circuit N oracle).
      { assert (NC : NoDup case) by (apply nodup_l in ND; exact ND). apply (tag_within N _ _ _ HO); cbn [map concat fst]; rewrite app_nil_r; [exact NC|]. intros q I. apply BD, in_or_app. auto. }
      apply (oaa_rotation N case fresh u V oracle r psi theta Wu HV); try assumption.
      + apply EF, Z.
      + eapply (back_zeroed N case fresh state_prep unitary U num_unitaries); eassumption.
      + apply (oracle_sign N case fresh num_unitaries); assumption.
      + eapply (reflected_about N case fresh operand state_prep unitary U num_unitaries); eassumption. }
  destruct ROT as (al & be & HA & HB & E).
  assert (E0 : forall x, length x = N -> zero_part c0 case (crun c psi) x = cmul (re (sin (INR (2 * j + 1) * theta))) (W psi x)).
  { intros x L. unfold zero_part. destruct (zero_on case x) eqn:Ex; [|rewrite (ZW psi Z x L (zero_on_false _ _ Ex)); ring]. rewrite (E x L), (proj2 (EF psi Z) x L), Ex, <- HA, re_mul. ring. }
  split; [|split].
  - intros x L Ex. rewrite <- (E0 x L). unfold zero_part. rewrite Ex. reflexivity.
  - rewrite <- (IW psi psi Z Z). unfold inner. rewrite <- (FourierProofs.total_scale c0 c1 cadd cmul csub copp complex_ring). apply total_ext. intros x I. apply all_bits_length in I.
    rewrite (E0 x I). rewrite (proj1 (proj2 complex_conjugation)), conj_re, re_mul. ring.
  - intros HZ. set (bad := fun x => if zero_on case x then c0 else crun u psi x).
    assert (NB : cinner N bad bad = cmul (re (cos theta * cos theta)) (cinner N psi psi)).
    { assert (S1 : cinner N (crun u psi) (crun u psi) = cadd (cinner N (zero_part c0 case (crun u psi)) (zero_part c0 case (crun u psi))) (cinner N bad bad)).
      { unfold inner. rewrite <- (FourierProofs.total_add c0 c1 cadd cmul csub copp complex_ring). apply total_ext. intros x _. unfold bad, zero_part. destruct (zero_on case x); rewrite ?(UnitaryProofs.cj_0 c0 c1 cadd cmul csub copp complex_ring cexpi ccos csin cconj complex_conjugation); ring. }
      rewrite (iso psi psi Z Z), (crun_iso N u Wu) in S1. replace (cos theta * cos theta)%R with (1 - sin theta * sin theta)%R by (pose proof (sin2_cos2 theta) as Q; unfold Rsqr in Q; lra).
      rewrite re_sub, re_1. transitivity (csub (cinner N psi psi) (cmul (re (sin theta * sin theta)) (cinner N psi psi))); [rewrite S1 at 1; ring|ring]. }
    set (chi := fun x => cmul (re be) (bad x)). assert (NC : cinner N chi chi = c0).
    { transitivity (cmul (re (be * be)) (cinner N bad bad)).
      - unfold inner. rewrite <- (FourierProofs.total_scale c0 c1 cadd cmul csub copp complex_ring). apply total_ext. intros x _. unfold chi. rewrite (proj1 (proj2 complex_conjugation)), conj_re, re_mul. ring.
      - rewrite NB. transitivity (cmul (re ((cos theta * be) * (cos theta * be))) (cinner N psi psi)); [rewrite !re_mul; ring|]. rewrite HB, HZ, Rmult_0_l, re_0. ring. }
    intros x L Ex. rewrite (E x L), Ex. pose proof (norm_zero N chi NC x L) as Q. unfold chi, bad in Q. rewrite Ex in Q. unfold zero_part. rewrite Ex, Q. ring.
Qed.
(** So if (2 j + 1) theta = pi / 2, the result is W psi exactly, with the case indicator at 0. *)
Theorem C79_exact N case fresh operand state_prep unitary U num_unitaries j c psi theta W :
  NoDup (case ++ fresh) -> (forall q, In q (case ++ fresh) -> q < N) -> length fresh = length case -> within N case state_prep ->
  (forall i, i < num_unitaries -> unitary i = Some (U i) /\ acts_off N (case ++ fresh) (U i) /\ invert_circuit (U i) <> None) ->
  (forall phi x, zeroed c0 N (case ++ fresh) phi -> length x = N -> zero_on case x = true ->
     combination N case state_prep num_unitaries U phi x = cmul (re (sin theta)) (W phi x)) ->
  (forall phi, zeroed c0 N (case ++ fresh) phi -> zeroed c0 N case (W phi)) ->
  (forall phi chi, zeroed c0 N (case ++ fresh) phi -> zeroed c0 N (case ++ fresh) chi -> cinner N (W phi) (W chi) = cinner N phi chi) ->
  inner_LCU case fresh operand state_prep unitary num_unitaries j = Some c -> zeroed c0 N (case ++ fresh) psi ->
  (INR (2 * j + 1) * theta = PI / 2)%R -> forall x, length x = N -> crun c psi x = W psi x.
Proof.
  intros ND BD LF WS BR CO ZW IW H Z HT x L.
  destruct (C79_amplified N case fresh operand state_prep unitary U num_unitaries j c psi theta W ND BD LF WS BR CO ZW IW H Z) as (A & _ & B). rewrite HT in A, B. rewrite sin_PI2 in A.
  destruct (zero_on case x) eqn:E; [rewrite (A x L E), re_1; ring|]. rewrite (B cos_PI2 x L E). symmetry. apply (ZW psi Z x L), zero_on_false, E.
Qed.
(** It is defined from two unitaries on, for any number of iterations, if state_prep and the unitaries can be inverted. *)
Theorem C79_defined N case fresh operand state_prep unitary U num_unitaries oaa_iter :
  NoDup (case ++ fresh) -> (forall q, In q (case ++ fresh) -> q < N) -> length fresh = length case ->
  (forall i, i < num_unitaries -> unitary i = Some (U i) /\ acts_off N (case ++ fresh) (U i)) -> (forall i c, unitary i = Some c -> invert_circuit c <> None) ->
  invert_circuit state_prep <> None -> 2 <= num_unitaries -> length case = Nat.log2_up num_unitaries ->
  inner_LCU case fresh operand state_prep unitary num_unitaries oaa_iter <> None.
Proof.
  intros ND BD LF BR IU IS HM LC. unfold inner_LCU, lcu_state_prep, case_size. assert (HC : 0 < length case) by (rewrite LC; apply Nat.log2_up_pos; lia).
  destruct (C78_defined false false N case fresh None unitary U num_unitaries LF) as (c & E & _); cbn [controls]; rewrite ?app_nil_r; auto.
  - split; [lia|]. rewrite LC. apply log2_up_bound.
  - intros i Hi. unfold called. destruct (BR i Hi) as [-> A]. auto.
  - rewrite LC, Nat.eqb_refl, E. unfold conjugate. destruct (invert_circuit state_prep) as [v|] eqn:Hv; [|congruence]. destruct oaa_iter as [|j]; [discriminate|].
    assert (FT : tag_state [(case, Code 0)] 1%Qc <> None).
    { apply C77_tag_defined; [|cbn [map concat fst]; rewrite app_nil_r; intros H; rewrite H in HC; cbn in HC; lia]. intros e [<-|[]]. unfold fits. cbn [snd fst].
      split; [split; [lia|apply Z.pow_pos_nonneg; lia]|]. intros H. rewrite H in HC. cbn in HC. lia. }
    destruct (tag_state _ _) as [o|]; [|congruence]. unfold amplitude_amplification.
    assert (FR : reflection [Variable_ case; Variable_ operand] (Some (state_prep ++ c ++ v)) 1%Qc (Some [0]) <> None).
    { apply C73_defined. right. split; [|split; [|split]].
      - intros is i H I. injection H as <-. destruct I as [<-|[]]. cbn. lia.
      - cbn [chosen registers map concat nth app]. rewrite app_nil_r. intros H. rewrite H in HC. cbn in HC. lia.
      - cbn. destruct case; [cbn in HC; lia|exact I].
      - assert (P : invertible (state_prep ++ c ++ v)); [|destruct (invert_some _ P) as [d ->]; discriminate].
        apply invertible_app; [apply invertible_of; congruence|]. apply invertible_app; [|apply invertible_of, (invert_again state_prep), Hv].
        unfold q_switch in E. apply (inv_tree case fresh None (called false unitary)) with (amount := num_unitaries); [|exact E]. intros i b Hb. unfold called in Hb. destruct (unitary i) as [b'|] eqn:Eb; [|discriminate].
        assert (b' = b) by congruence. subst b'. apply invertible_of, (IU i), Eb. }
    destruct (reflection _ _ _ _); [discriminate|congruence].
Qed.
(** A linear combination of one unitary is refused: the case indicator has no qubits and the switch fails. *)
Theorem C79_single_refuted case fresh operand state_prep unitary oaa_iter : inner_LCU case fresh operand state_prep unitary 1 oaa_iter = None.
Proof. unfold inner_LCU, case_size. cbn [Nat.log2_up]. destruct case as [|q case]; [|reflexivity]. reflexivity. Qed.

(** (X + Z) / 2 on one qubit: it is H / sqrt 2 *)
Definition ex_unitary (i : nat) : option body := match i with 0 => Some [qX 2] | 1 => Some [(Pauli PZ, [2])] | _ => None end.
Definition ex_U (i : nat) : body := match i with 0 => [qX 2] | _ => [(Pauli PZ, [2])] end.
Example lcu_fits : NoDup ([0] ++ [1]) /\ (forall q, In q ([0] ++ [1]) -> q < 3) /\ within 3 [0] [qH 0] /\
  (forall i, i < 2 -> ex_unitary i = Some (ex_U i) /\ acts_off 3 ([0] ++ [1]) (ex_U i) /\ invert_circuit (ex_U i) <> None) /\
  inner_LCU [0] [1] [2] [qH 0] ex_unitary 2 0 <> None /\ inner_LCU [0] [1] [2] [qH 0] ex_unitary 2 1 <> None.
Proof.
  assert (W : forall o q, well_formed o -> arity o = 1 -> q < 3 -> wf_circuit 3 [(o, [q])]) by (intros o q Wo Ao Hq; apply RefProofs.wf_1; [exact Wo|constructor; [intros []|constructor]|symmetry; exact Ao|intros p [<-|[]]; exact Hq]).
  split; [repeat constructor; cbn; intuition lia|]. split; [cbn; intuition lia|]. split; [|split; [|split; discriminate]].
  - split; [apply W; [constructor|reflexivity|lia]|]. intros o l q [E|[]] I. inversion E; subst. exact I.
  - intros [|[|i]] Hi; [| |lia]; (split; [reflexivity|]; split; [|discriminate]; split; [apply W; [constructor|reflexivity|lia]|]; intros o l q [E|[]] I; inversion E; subst; destruct I as [<-|[]]; cbn; intuition lia).
Qed.
Lemma root_half : ccos q_half = re (sin (PI / 4)).
Proof.
  unfold ccos, re. f_equal. replace (CtrlComplex.angle q_half / 2)%R with (PI / 4)%R; [rewrite sin_PI4, cos_PI4; reflexivity|].
  unfold CtrlComplex.angle. replace (Q2R (this q_half)) with (1 / 2)%R; [field|]. unfold Q2R. cbn. lra.
Qed.
Example lcu_value phi x : combination 3 [0] [qH 0] 2 ex_U phi x = cmul (re (sin (PI / 4))) (crun [qH 2] phi x).
Proof.
  pose proof (FourierProofs.run_h c0 c1 cadd cmul csub copp complex_ring cexpi ccos csin ci complex_euler) as RH.
  pose proof (RefProofs.run_x' c0 c1 cadd cmul csub copp complex_ring cexpi ccos csin ci) as RX. pose proof (RefProofs.run_z c0 c1 cadd cmul csub copp complex_ring cexpi ccos csin ci) as RZ.
  assert (E0 : cexpi (b2q false) = c1) by apply complex_euler. assert (E1 : cexpi (b2q true) = copp c1) by apply complex_euler.
  assert (P : forall b, prepared 3 [0] [qH 0] [b] = re (sin (PI / 4))).
  { intros b. unfold prepared, run_circuit. cbn [fold_left]. unfold qH. rewrite RH. fold gH. unfold FourierProofs.rt. rewrite root_half. destruct b; cbn -[cmul cadd cexpi re c0 c1]; ring. }
  assert (H2 : cmul (re (sin (PI / 4))) (re (sin (PI / 4))) = re (1 / 2)).
  { rewrite <- re_mul. f_equal. rewrite sin_PI4. pose proof (sqrt_sqrt 2 ltac:(lra)) as Q. pose proof (sqrt_lt_R0 2 ltac:(lra)) as G. apply (Rmult_eq_reg_r (sqrt 2 * sqrt 2)); [|nra]. rewrite Q at 2. field. lra. }
  unfold combination. change (all_bits (length [0])) with [[false]; [true]]. unfold total. cbn [fold_right]. rewrite !P, conj_re, H2. cbv zeta.
  change (if Z.to_nat (number [false]) <? 2 then crun (ex_U (Z.to_nat (number [false]))) phi x else phi x) with (crun [qX 2] phi x).
  change (if Z.to_nat (number [true]) <? 2 then crun (ex_U (Z.to_nat (number [true]))) phi x else phi x) with (crun [(Pauli PZ, [2])] phi x). unfold run_circuit. cbn [fold_left]. unfold qX, qH. 
  rewrite RX, RZ, RH. unfold FourierProofs.rt. rewrite root_half.
  transitivity (cmul (cmul (re (sin (PI / 4))) (re (sin (PI / 4)))) (cadd (phi (setbit x 2 false)) (cmul (cexpi (b2q (getbit x 2))) (phi (setbit x 2 true))))); [|ring]. rewrite H2.
  pose proof (setbit_get x 2) as G. destruct (getbit x 2) eqn:E; cbn [negb]; rewrite ?E0, ?E1, G; ring.
Qed.
(** [lcu_value] is the hypothesis of C79_amplified for theta = pi / 4 and W = H; the state |0> is 0 at the case indicator and at the ancilla *)
Example lcu_isometry phi chi : cinner 3 (crun [qH 2] phi) (crun [qH 2] chi) = cinner 3 phi chi.
Proof. apply crun_iso. apply RefProofs.wf_1; [constructor|constructor; [intros []|constructor]|reflexivity|intros p [<-|[]]; lia]. Qed.
Example lcu_state : zeroed c0 3 ([0] ++ [1]) (cbasis [false; false; false]).
Proof. intros x L (q & I & G). unfold basis. destruct (bits_eqb x _) eqn:E; [|reflexivity]. apply bits_eqb_true in E. subst x. destruct I as [<-|[<-|[]]]; discriminate. Qed.

Print Assumptions C79_lcu.
Print Assumptions C79_amplified.
Print Assumptions C79_exact.
Print Assumptions C79_defined.
Print Assumptions C79_single_refuted.
