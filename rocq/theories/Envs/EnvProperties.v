(** C76: nested environments. *)
From Coq Require Import List ZArith Bool Lia Arith QArith Qcanon Ring Ring_theory.
Import ListNotations.
From Verif.Inverse Require Import InvModel InvSpec InvProofs.
From Coq Require Import Reals.
From Verif.CtrlOps Require Import CtrlModel CtrlSpec CtrlProofs CtrlComplex.
From Verif.Fourier Require Import FourierModel RegProofs FourierFinal.
From Verif.Qpe Require Import QpeProofs.
From Verif.Envs Require Import EnvModel EnvSpec EnvIns EnvMeaning EnvProofs EnvMain.
Local Close Scope R_scope.
Local Open Scope nat_scope.

Section theorems.
Context {R : Type} (rO rI : R) (radd rmul rsub : R -> R -> R) (ropp : R -> R) (RT : ring_theory rO rI radd rmul rsub ropp eq).
Context (expi chalf shalf : Qc -> R) (im : R) (EU : euler rO rI radd rmul ropp expi chalf shalf im).
Notation run_list := (run_list rO rI radd rmul ropp expi chalf shalf im).
Notation program_meaning := (program_meaning rO rI radd rmul ropp expi chalf shalf im).

(** Any nesting of control, condition, inversion, plain and conjugation environments: the compiled circuit does to the
    qubits of the program what the program means, for every state of them, whatever phases the phase-tolerant Toffolis
    have, and leaves the qubits the environments have allocated in state 0. Missing: environments inside a conjugation that
    is itself inside a control or condition environment, and the combinations refuted below. *)
Theorem C76_nested_environments_partial (ph : phases) (N n : nat) (p : list item) (L : list ins) (S : list nat) (nx' : nat) (psi : list bool -> R) :
  (forall j, In j p -> fine n [] None j) -> compile_program n p = Some (L, S, nx') -> n <= N -> nx' <= N -> blank rO N n psi ->
  (forall x, length x = N -> run_list ph L psi x = program_meaning p psi x) /\ blank rO N n (run_list ph L psi).
Proof. intros W C NN HN B. exact (program_right rO rI radd rmul rsub ropp RT expi chalf shalf im EU ph N n NN p L S nx' W C HN psi B). Qed.
(** a program followed by its inversion is the identity *)
Theorem C76_inversion_undoes (ph : phases) (N n : nat) (p : list item) (L : list ins) (S : list nat) (nx' : nat) (psi : list bool -> R) :
  (forall j, In j p -> fine n [] None j) -> compile_program n (p ++ [Invert p]) = Some (L, S, nx') -> n <= N -> nx' <= N -> blank rO N n psi ->
  forall x, length x = N -> run_list ph L psi x = psi x.
Proof.
  intros W C NN HN B x Lx. assert (WI : forall j, In j (p ++ [Invert p]) -> fine n [] None j) by (intros j I; apply in_app_or in I as [I|[<-|[]]]; [apply W, I|apply (proj2 (fine_all_in n [] None p)), W]).
  destruct (C76_nested_environments_partial ph N n _ L S nx' psi WI C NN HN B) as [E _]. rewrite E by exact Lx. unfold EnvSpec.program_meaning. rewrite fold_left_app.
  exact (through_undo rO rI radd rmul rsub ropp RT expi chalf shalf im EU N n NN p [] None false (proj2 (fine_all_in n [] None p) W) psi x Lx).
Qed.

(** ** what the theorem has to exclude: programs the library compiles to circuits that do something else *)
Definition delta (y : list bool) (x : list bool) : R := if bits_eqb x y then rI else rO.
Definition no_phase : phases := fun _ _ _ => Q2Qc 0.
Definition wrong (n : nat) (p : list item) (y x : list bool) : Prop :=
  exists L S nx', compile_program n p = Some (L, S, nx') /\ length x = nx' /\ blank rO nx' n (delta y) /\ run_list no_phase L (delta y) x <> program_meaning p (delta y) x.
Lemma delta_blank N n y : length y = N -> (forall q, n <= q < N -> getbit y q = false) -> blank rO N n (delta y).
Proof.
  intros Ly H x Lx (q & Q & G). unfold delta. destruct (bits_eqb x y) eqn:E; [|reflexivity]. exfalso. assert (x = y); [|subst x; rewrite H in G by exact Q; discriminate].
  clear -E. revert y E. induction x as [|a x IH]; intros [|b y] E; try discriminate; [reflexivity|]. cbn in E. apply andb_prop in E as [A B]. apply eqb_prop in A. rewrite A, (IH _ B). reflexivity.
Qed.
Context (NT : rI <> rO).
Add Ring rr76 : RT.
Lemma expi0 : expi (Q2Qc 0) = rI. Proof. exact (CtrlProofs.e_0 rO rI radd rmul ropp expi chalf shalf im EU). Qed.
Lemma expi0' : expi (- Q2Qc 0)%Qc = rI. Proof. replace (- Q2Qc 0)%Qc with (Q2Qc 0) by ring. exact expi0. Qed.
Lemma delta_blank' N n y : length y = N -> forallb (fun q => negb (getbit y q)) (seq n (N - n)) = true -> blank rO N n (delta y).
Proof. intros Ly H. apply delta_blank; [exact Ly|]. intros q Q. rewrite forallb_forall in H. apply negb_true_iff, H, in_seq. lia. Qed.
Ltac differ := do 3 eexists; split; [cbv -[Qcplus Qcopp Qcmult Q2Qc]; reflexivity|]; split; [reflexivity|]; split; [apply delta_blank'; reflexivity|];
  let E := fresh in intros E; cbv -[Qcplus Qcopp Qcmult Q2Qc] in E; rewrite ?expi0, ?expi0' in E; ring_simplify in E.
(** a condition in an environment that controls on 0: executed for control 1 (here: control 1, condition met, the target is flipped) *)
Theorem C76_condition_in_zero_control_refuted : wrong 3 [Control [0] [false] false [Cond [1] (fun l => hd false l) [Gate gX [2]]]] [true; true; false; false; false] [true; true; true; false; false].
Proof. differ. apply NT. congruence. Qed.
(** flipping the truth value of an inner environment: the rest of its content is executed although the outer control is 0 *)
Theorem C76_flip_in_nested_control_refuted : wrong 3 [Control [0] [true] false [Control [1] [true] false [Flip; Gate gX [2]]]] [false; true; false; false] [false; true; true; false].
Proof. differ. apply NT. congruence. Qed.
(** an inverted control in another control: its content is executed although the outer control is 0 *)
Theorem C76_inverted_nested_control_refuted : wrong 3 [Control [0] [true] false [Control [1] [true] true [Gate gX [2]]]] [false; false; false; false] [false; false; true; false].
Proof. differ. apply NT. congruence. Qed.
(** a conjugation in a control on 0 in another control: its content is never executed (both controls met, the target is not flipped) *)
Theorem C76_conjugation_in_nested_zero_control_refuted : wrong 3 [Control [0] [true] false [Control [1] [false] false [Conj [(gX, [2])] [Gate gX [2]]]]] [true; false; false; false] [true; false; true; false].
Proof. differ. apply NT. congruence. Qed.
(** an operation that is itself controlled by the control qubit of an environment, two levels further down: it is
    controlled by the truth value of that environment instead (the control qubit is 0, the target is flipped) *)
Theorem C76_control_reused_below_refuted : wrong 4 [Control [0] [true] false [Control [1] [false] false [Control [2] [true] false [Gate gCX [1; 3]]]]] [true; false; true; false; false; false] [true; false; true; true; false; false].
Proof. differ. apply NT. congruence. Qed.
End theorems.

(** a program that meets the hypotheses: nested control, condition, inversion and conjugation *)
Definition nested_example : list item :=
  [Gate gH [0]; Control [0; 1] [true; false] false [Gate gH [2]; Cond [3] (fun l => hd false l) [Gate gX [2]; Invert [Gate gS [4]; Gate gX [5]]]; Conj [(gH, [2]); (gX, [4])] [Gate gX [2]]; Control [4] [false] false [Gate gCX [2; 5]]];
   Invert [Control [3] [false] true [Plain [Gate gT [0]; Cond [4; 5] (fun l => xorb (nth 0 l false) (nth 1 l false)) [Gate gX [0]]]]]; Conj [(gCX, [0; 1])] [Cond [2] (fun l => negb (hd false l)) [Gate gX [1]]]].
Definition fits (n : nat) (forb : list nat) (o : qop) (qs : list nat) : bool :=
  distinct qs && (length qs =? arity o) && negb (length qs =? 0) && forallb (fun q => (q <? n) && negb (mem q forb)) qs && match inverse Qcopp Qcplus o with Some _ => true | None => false end.
Lemma fits_fine n forb o qs : well_formed o -> fits n forb o qs = true -> gate_fine n forb (o, qs).
Proof.
  intros W H. unfold fits in H. apply andb_prop in H as [H I]. apply andb_prop in H as [H F]. apply andb_prop in H as [H E]. apply andb_prop in H as [D L]. split; [exact W|].
  split; [destruct (inverse _ _ o); [discriminate|discriminate I]|]. split; [apply distinct_NoDup, D|]. split; [apply Nat.eqb_eq, L|]. split; [intros ->; discriminate E|].
  rewrite forallb_forall in F. intros q J. specialize (F q J). apply andb_prop in F as [A B]. split; [apply Nat.ltb_lt, A|]. intros K. apply mem_In in K. rewrite K in B. discriminate.
Qed.
Lemma wf_gates : well_formed gH /\ well_formed gX /\ well_formed gS /\ well_formed gT /\ well_formed gCX.
Proof. split; [apply wf_u3|]. split; [apply wf_pauli|]. split; [apply wf_u3|]. split; [apply wf_u3|]. apply wf_ctrl, wf_pauli. Qed.
Example nested_fine : forall j, In j nested_example -> fine 6 [] None j.
Proof.
  destruct wf_gates as (H1 & H2 & H3 & H4 & H5). intros j I. unfold nested_example in I. cbn [In] in I.
  repeat (destruct I as [<-|I]; [cbn [fine]|]); try destruct I; repeat match goal with |- _ /\ _ => split | |- True => exact I | |- gate_fine _ _ _ => apply fits_fine; [assumption|reflexivity] end; try reflexivity.
  all: try (intros q Q; cbn in Q; repeat destruct Q as [<-|Q]; try lia; destruct Q).
  all: try (intros g Q; cbn in Q; repeat (destruct Q as [<-|Q]; [apply fits_fine; [assumption|reflexivity]|]); destruct Q).
  - exists gX, [2]. split; [auto|]. apply fits_fine; [assumption|reflexivity].
  - destruct H.
Qed.
Example nested_compiles : exists L S, compile_program 6 nested_example = Some (L, S, 13).
Proof. eexists. eexists. vm_compute. reflexivity. Qed.
(** the theorem for the program over the complex numbers, started in any basis state *)
Example nested_right : exists L S, compile_program 6 nested_example = Some (L, S, 13) /\ forall ph y x, length y = 6 -> length x = 13 ->
  run_list CtrlComplex.c0 CtrlComplex.c1 CtrlComplex.cadd CtrlComplex.cmul CtrlComplex.copp CtrlComplex.cexpi CtrlComplex.ccos CtrlComplex.csin CtrlComplex.ci ph L (delta CtrlComplex.c0 CtrlComplex.c1 (y ++ repeat false 7)) x =
  program_meaning CtrlComplex.c0 CtrlComplex.c1 CtrlComplex.cadd CtrlComplex.cmul CtrlComplex.copp CtrlComplex.cexpi CtrlComplex.ccos CtrlComplex.csin CtrlComplex.ci nested_example (delta CtrlComplex.c0 CtrlComplex.c1 (y ++ repeat false 7)) x.
Proof.
  destruct nested_compiles as (L & S & C). exists L, S. split; [exact C|]. intros ph y x Ly Lx.
  apply (C76_nested_environments_partial _ _ _ _ _ _ CtrlComplex.complex_ring _ _ _ _ CtrlComplex.complex_euler ph 13 6 nested_example L S 13 _ nested_fine C); try lia.
  apply delta_blank; [rewrite app_length, repeat_length; lia|]. intros q Q. unfold getbit. rewrite app_nth2 by lia. apply nth_repeat.
Qed.
Print Assumptions C76_nested_environments_partial.
Print Assumptions C76_inversion_undoes.
Print Assumptions C76_condition_in_zero_control_refuted.
Print Assumptions C76_flip_in_nested_control_refuted.
Print Assumptions C76_inverted_nested_control_refuted.
Print Assumptions C76_conjugation_in_nested_zero_control_refuted.
Print Assumptions C76_control_reused_below_refuted.
Print Assumptions nested_right.
