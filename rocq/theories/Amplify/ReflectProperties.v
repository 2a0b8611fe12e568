(** Property C73 (reflection). *)
From Coq Require Import List ZArith Bool QArith Qcanon Ring_theory Ring Lia Arith.
Import ListNotations.
From Verif.Inverse Require Import InvModel InvSpec InvProofs.
From Verif.CtrlOps Require Import CtrlModel CtrlSpec CtrlProofs CtrlComplex.
From Verif.Fourier Require Import FourierModel FourierSpec RegProofs FourierProofs FourierFinal AdderProofs.
From Verif.Amplify Require Import AmpModel AmpSpec UnitaryProofs RefProofs Conj.
Local Open Scope nat_scope.

Section numbers.
Context {R : Type} (rO rI : R) (radd rmul rsub : R -> R -> R) (ropp : R -> R) (RT : ring_theory rO rI radd rmul rsub ropp eq).
Context (expi chalf shalf : Qc -> R) (im : R) (EU : euler rO rI radd rmul ropp expi chalf shalf im).
Add Ring rrP : RT.
Notation run := (run_circuit Qcplus rO rI radd rmul ropp expi chalf shalf im).
Notation zero_part := (zero_part rO).
Notation basis := (basis rO rI).

(** reflection(qargs, state_function, phase, reflection_indices), for a state_function with the circuit u (inverse: d): the operator is
    (1 - exp(i phase)) u P d - 1, with P the projector on the states with all chosen qubits at 0. This is for a first argument that is a
    variable, or an array of elements with an odd number of qubits. *)
Theorem C73_operator : forall N a u d phase indices c, let qs := chosen a indices in
  reflection a (Some u) phase indices = Some c -> a <> [] -> Nat.odd (length (first_entry a)) = true ->
  wf_circuit N u -> invert_circuit u = Some d -> NoDup qs -> (forall q, In q qs -> q < N) ->
  forall psi x, length x = N -> run c psi x = rsub (rmul (rsub rI (expi phase)) (run u (zero_part qs (run d psi)) x)) (psi x).
Proof.
  intros N a u d phase indices c qs H NE OD W Hd ND B psi x L. pose proof (entry_phase a (reflection_some _ _ _ _ _ H NE)) as HP.
  rewrite (reflection_operator rO rI radd rmul rsub ropp RT expi chalf shalf im EU N a u phase indices c _ d H NE HP Hd ND B W psi x L).
  rewrite (phase_odd rO rI radd rmul rsub ropp RT), <- Nat.negb_odd, OD. cbn [negb]. fold qs. ring.
Qed.
(** The documented form (1 - exp(i phase)) |ket><ket| - 1, when u acts on the chosen qubits only: ket is the state that u prepares from 0,
    with the other qubits as in x. *)
Theorem C73_state : forall conj, conjugation rI radd rmul ropp expi chalf shalf conj -> forall N a u phase indices c, let qs := chosen a indices in
  reflection a (Some u) phase indices = Some c -> a <> [] -> Nat.odd (length (first_entry a)) = true ->
  within N qs u -> NoDup qs -> (forall q, In q qs -> q < N) ->
  forall psi x, length x = N -> let ket := run u (basis (store x qs 0)) in
  run c psi x = rsub (rmul (rsub rI (expi phase)) (rmul (inner rO radd rmul conj N ket psi) (ket x))) (psi x).
Proof.
  intros conj CJ N a u phase indices c qs H NE OD W ND B psi x L ket. assert (Hd : exists d, invert_circuit u = Some d).
  { destruct (invert_circuit u) as [d|] eqn:E; [eauto|]. destruct a as [|a0 a']; [congruence|]. unfold reflection in H. rewrite E in H. destruct (reflected (a0 :: a') indices); [|discriminate].
    destruct (split_last l) as [[]|]; [|discriminate]. destruct (phase_qubits (a0 :: a')); discriminate. }
  destruct Hd as [d Hd]. rewrite (C73_operator N a u d phase indices c H NE OD (proj1 W) Hd ND B psi x L). fold qs.
  rewrite (projector rO rI radd rmul rsub ropp RT expi chalf shalf im EU conj CJ N qs u d psi x W Hd ND B L). reflexivity.
Qed.
(** Without a state_function: (1 - exp(i phase)) |0><0| - 1. *)
Theorem C73_zero : forall N a phase indices c, let qs := chosen a indices in
  reflection a None phase indices = Some c -> a <> [] -> Nat.odd (length (first_entry a)) = true -> NoDup qs -> (forall q, In q qs -> q < N) ->
  forall psi x, length x = N -> run c psi x = rsub (rmul (rsub rI (expi phase)) (zero_part qs psi x)) (psi x).
Proof.
  intros N a phase indices c qs H NE OD ND B psi x L. pose proof (entry_phase a (reflection_some _ _ _ _ _ H NE)) as HP.
  rewrite (reflection_plain rO rI radd rmul rsub ropp RT expi chalf shalf im EU N a phase indices c _ H NE HP ND B psi x L).
  rewrite (phase_odd rO rI radd rmul rsub ropp RT), <- Nat.negb_odd, OD. cbn [negb]. fold qs. ring.
Qed.
(** A first argument that is an array of elements with an even number of qubits: the global phase is applied on every qubit of the first
    element, and the operator is the negative of the documented one. *)
Theorem C73_array_refuted : forall N r rs rest u d phase indices c, let a := Array_ (r :: rs) :: rest in let qs := chosen a indices in
  reflection a (Some u) phase indices = Some c -> Nat.even (length r) = true ->
  wf_circuit N u -> invert_circuit u = Some d -> NoDup qs -> (forall q, In q qs -> q < N) ->
  forall psi x, length x = N -> run c psi x = ropp (rsub (rmul (rsub rI (expi phase)) (run u (zero_part qs (run d psi)) x)) (psi x)).
Proof.
  intros N r rs rest u d phase indices c a qs H EV W Hd ND B psi x L.
  rewrite (reflection_operator rO rI radd rmul rsub ropp RT expi chalf shalf im EU N a u phase indices c r d H ltac:(discriminate) eq_refl Hd ND B W psi x L).
  rewrite (phase_odd rO rI radd rmul rsub ropp RT), EV. fold qs. ring.
Qed.
End numbers.
(** When it is defined: no arguments (then nothing happens); or the indices exist, there is a qubit to reflect, the first argument has
    an entry, and the circuit of state_function has an inverse. *)
Theorem C73_defined : forall a u phase indices, reflection a (Some u) phase indices <> None <->
  a = [] \/ ((forall is i, indices = Some is -> In i is -> i < length (registers a)) /\ chosen a indices <> [] /\ has_entry a /\ invert_circuit u <> None).
Proof.
  intros a u phase indices. destruct a as [|a0 a']; [split; [auto|discriminate]|]. split.
  - intros H. right. cbn beta iota delta [reflection] in H. set (a := a0 :: a') in *. destruct (reflected a indices) as [l|] eqn:ER; [|congruence].
    pose proof (reflected_chosen a indices l ER) as EL. subst l. destruct (split_last (chosen a indices)) as [[f q]|] eqn:ES; [|congruence]. destruct (phase_qubits a) as [ps|] eqn:EP; [|congruence].
    destruct (invert_circuit u) as [v|] eqn:EV; [|congruence]. split; [|split; [|split]].
    + intros is i -> I. unfold reflected in ER. apply pick_some in ER. rewrite <- flattened_registers. apply ER, I.
    + intros E. apply split_last_none in E. congruence.
    + apply phase_entry in EP. apply EP.
    + discriminate.
  - intros [E|(HI & HC & HE & HU)]; [discriminate|]. cbn beta iota delta [reflection]. set (a := a0 :: a') in *. destruct (reflected a indices) as [l|] eqn:ER.
    + pose proof (reflected_chosen a indices l ER) as EL. subst l. destruct (split_last (chosen a indices)) as [[f q]|] eqn:ES; [|apply split_last_none in ES; congruence].
      rewrite (entry_phase a HE). destruct (invert_circuit u) as [v|] eqn:EV; [|congruence]. unfold conjugate. pose proof (invert_again u v EV). destruct (invert_circuit v); congruence.
    + exfalso. revert ER. unfold reflected. apply pick_defined. destruct indices as [is|]; intros i I; [rewrite flattened_registers; exact (HI is i eq_refl I)|apply in_seq in I; lia].
Qed.
Print Assumptions C73_operator.
Print Assumptions C73_state.
Print Assumptions C73_zero.
Print Assumptions C73_array_refuted.
Print Assumptions C73_defined.


(** ** examples *)
Add Ring complex_numbers : complex_ring.
Local Notation crun := (run_circuit Qcplus c0 c1 cadd cmul copp cexpi ccos csin ci).
(** the state (|00> + |11>) / sqrt 2 *)
Definition bell : body := [qH 0; qCX 0 1].
Lemma bell_within : within 2 [0; 1] bell.
Proof. split; [apply (FourierFinal.wf_app 2 [qH 0] [qCX 0 1]); [apply FourierFinal.wf_h|apply FourierFinal.wf_cx]; lia|]. intros o l q [E|[E|[]]] I; injection E as <- <-; cbn in *; lia. Qed.
Lemma bell_state : let z := basis c0 c1 [false; false] in let rt := FourierProofs.rt ccos in
  crun bell z [false; false] = rt /\ crun bell z [true; true] = rt /\ crun bell z [true; false] = c0 /\ crun bell z [false; true] = c0.
Proof.
  intros z rt. assert (E : forall x, crun bell z x = InvSpec.effect Qcplus c0 c1 cadd cmul copp cexpi ccos csin ci gH [0] z (if getbit x 0 then setbit x 1 (negb (getbit x 1)) else x)).
  { intros x. unfold bell, qH, qCX. rewrite !(FourierProofs.run_cons c0 c1 cadd cmul copp cexpi ccos csin ci). unfold run_circuit. cbn [fold_left].
    set (psi := InvSpec.effect _ _ _ _ _ _ _ _ _ _ gH [0] z). cbn -[psi]. destruct (getbit x 0); cbn -[psi]; [|reflexivity]. unfold on_qubit. destruct (getbit x 1); cbn [pauli_matrix negb]; ring. }
  repeat split; rewrite E; cbn [getbit nth setbit negb];
    rewrite (FourierProofs.run_h c0 c1 cadd cmul csub copp complex_ring cexpi ccos csin ci complex_euler); unfold z, basis; cbn [setbit bits_eqb Bool.eqb andb getbit nth b2q]; fold rt; ring.
Qed.
Example C73_hypotheses : exists c, reflection [Variable_ [0; 1]] (Some bell) 1%Qc None = Some c /\ Nat.odd (length (first_entry [Variable_ [0; 1]])) = true /\
  within 2 (chosen [Variable_ [0; 1]] None) bell /\ NoDup (chosen [Variable_ [0; 1]] None).
Proof. eexists. split; [reflexivity|]. split; [reflexivity|]. split; [exact bell_within|]. repeat constructor; cbn; lia. Qed.
(** the reflection of |00> is |11> ... *)
Example C73_example : forall c, reflection [Variable_ [0; 1]] (Some bell) 1%Qc None = Some c ->
  crun c (basis c0 c1 [false; false]) [true; true] = c1 /\ crun c (basis c0 c1 [false; false]) [false; false] = c0.
Proof.
  intros c H. assert (ND : NoDup [0; 1]) by (repeat constructor; cbn; lia). assert (B : forall q, In q [0; 1] -> q < 2) by (intros q I; cbn in I; lia).
  pose proof (C73_state c0 c1 cadd cmul csub copp complex_ring cexpi ccos csin ci complex_euler cconj complex_conjugation 2 [Variable_ [0; 1]] bell 1%Qc None c H ltac:(discriminate) eq_refl bell_within ND B (basis c0 c1 [false; false])) as T.
  destruct bell_state as (S0 & S1 & S2 & S3). pose proof (FourierProofs.rt_2 c0 c1 cadd cmul csub copp complex_ring cexpi ccos csin ci complex_euler) as RT2.
  assert (CR : cconj (FourierProofs.rt ccos) = FourierProofs.rt ccos) by apply complex_conjugation. assert (C0 : cconj c0 = c0) by exact (cj_0 c0 c1 cadd cmul csub copp complex_ring cexpi ccos csin cconj complex_conjugation).
  assert (I : inner c0 cadd cmul cconj 2 (crun bell (basis c0 c1 [false; false])) (basis c0 c1 [false; false]) = FourierProofs.rt ccos).
  { unfold inner. cbn [all_bits map app total fold_right]. rewrite S0, S1, S2, S3, CR, C0. unfold basis. cbn [bits_eqb Bool.eqb andb]. ring. }
  split; rewrite T by reflexivity; cbv zeta; [change (store [true; true] (chosen [Variable_ [0; 1]] None) 0) with [false; false]|change (store [false; false] (chosen [Variable_ [0; 1]] None) 0) with [false; false]];
    rewrite I, ?S0, ?S1, (CtrlProofs.e_1 c0 c1 cadd cmul copp cexpi ccos csin ci complex_euler); unfold basis; cbn [bits_eqb Bool.eqb andb]; set (w := FourierProofs.rt ccos) in *.
  - transitivity (cadd (cmul w w) (cmul w w)); [ring|exact RT2].
  - transitivity (csub (cadd (cmul w w) (cmul w w)) c1); [ring|]. rewrite RT2. ring.
Qed.
(** ... with the two qubits as an array of one element the hypotheses of C73_array_refuted are met *)
Example C73_array_example : exists c, reflection [Array_ [[0; 1]]] (Some bell) 1%Qc None = Some c /\ Nat.even (length [0; 1]) = true /\ wf_circuit 2 bell /\ invert_circuit bell <> None.
Proof. eexists. split; [reflexivity|]. split; [reflexivity|]. split; [apply bell_within|discriminate]. Qed.
