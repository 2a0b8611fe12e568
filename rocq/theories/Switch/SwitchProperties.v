(** C78: the quantum switch. *)
From Coq Require Import List ZArith Bool Lia Arith QArith Qcanon Ring_theory.
Import ListNotations.
From Verif.Inverse Require Import InvModel InvSpec.
From Verif.CtrlOps Require Import CtrlModel CtrlSpec.
From Verif.Fourier Require Import FourierModel FourierSpec.
From Verif.Qpe Require Import QpeModel QpeSpec.
From Verif.Fourier Require Import AdderProofs.
From Verif.Amplify Require Import RefProofs.
From Verif.Switch Require Import SwitchModel SwitchSpec BitProofs SwitchProofs SwitchFinal.
Local Open Scope nat_scope.

(** With ancillas (tree), or one ancilla (sequential), in the state 0, the switch applies the branch that the index register says: on every
    basis state, for every number of branches up to the number of values of the index, in any state of the other qubits (also entangled
    with the index). Index values without a branch, and states in which the control qubit is 0, are left alone; the ancillas end as 0. *)
Theorem C78_switch {R : Type} (rO rI : R) (radd rmul rsub : R -> R -> R) (ropp : R -> R) (RT : ring_theory rO rI radd rmul rsub ropp eq)
  (expi chalf shalf : Qc -> R) (im : R) (sequential : bool) N index fresh ctrl branch U amount c psi :
  length fresh = (if sequential then 1 else length index) ->
  NoDup (index ++ fresh ++ controls ctrl) -> (forall q, In q (index ++ fresh ++ controls ctrl) -> q < N) -> amount <= 2 ^ length index ->
  (forall i, i < amount -> branch i = Some (U i) /\ acts_off N (index ++ fresh ++ controls ctrl) (U i)) ->
  q_switch sequential index fresh ctrl false branch amount = Some c -> zeroed rO N fresh psi ->
  zeroed rO N fresh (run_circuit Qcplus rO rI radd rmul ropp expi chalf shalf im c psi) /\
  forall x, length x = N ->
    run_circuit Qcplus rO rI radd rmul ropp expi chalf shalf im c psi x = selected rO rI radd rmul ropp expi chalf shalf im index ctrl amount U psi x.
Proof.
  intros LF ND BD AM BR E Z. unfold q_switch in E. apply (switch_effect rO rI radd rmul rsub ropp RT expi chalf shalf im sequential N index fresh ctrl (called false branch) U amount c psi LF ND BD AM); [|exact Z|exact E].
  intros i Hi. destruct (BR i Hi) as [E1 A]. unfold called. rewrite E1. auto.
Qed.
(** Inside an inversion environment the switch is built from the inverted branches, and it undoes the switch. *)
Theorem C78_inverse {R : Type} (rO rI : R) (radd rmul rsub : R -> R -> R) (ropp : R -> R) (RT : ring_theory rO rI radd rmul rsub ropp eq)
  (expi chalf shalf : Qc -> R) (im : R) (EU : euler rO rI radd rmul ropp expi chalf shalf im) (sequential : bool) N index fresh ctrl branch U amount c d psi :
  length fresh = (if sequential then 1 else length index) ->
  NoDup (index ++ fresh ++ controls ctrl) -> (forall q, In q (index ++ fresh ++ controls ctrl) -> q < N) -> amount <= 2 ^ length index ->
  (forall i, i < amount -> branch i = Some (U i) /\ acts_off N (index ++ fresh ++ controls ctrl) (U i) /\ invert_circuit (U i) <> None) ->
  q_switch sequential index fresh ctrl false branch amount = Some c -> q_switch sequential index fresh ctrl true branch amount = Some d -> zeroed rO N fresh psi ->
  forall x, length x = N -> run_circuit Qcplus rO rI radd rmul ropp expi chalf shalf im d (run_circuit Qcplus rO rI radd rmul ropp expi chalf shalf im c psi) x = psi x.
Proof.
  intros LF ND BD AM BR E D Z x L. unfold q_switch in E, D. set (V := fun i => match invert_circuit (U i) with Some v => v | None => [] end).
  assert (VU : forall i, i < amount -> invert_circuit (U i) = Some (V i)) by (intros i Hi; unfold V; destruct (BR i Hi) as (_ & _ & K); destruct (invert_circuit (U i)); [reflexivity|congruence]).
  destruct (switch_effect rO rI radd rmul rsub ropp RT expi chalf shalf im sequential N index fresh ctrl (called false branch) U amount c psi LF ND BD AM) as [Z1 M1]; [|exact Z|exact E|].
  { intros i Hi. destruct (BR i Hi) as (E1 & A & _). unfold called. rewrite E1. auto. }
  destruct (switch_effect rO rI radd rmul rsub ropp RT expi chalf shalf im sequential N index fresh ctrl (called true branch) V amount d (run_circuit Qcplus rO rI radd rmul ropp expi chalf shalf im c psi) LF ND BD AM) as [_ M2]; [|exact Z1|exact D|].
  { intros i Hi. destruct (BR i Hi) as (E1 & A & K). unfold called. rewrite E1. split; [apply VU, Hi|]. apply (off_inverse N _ (U i) (V i) A); [|apply VU, Hi].
    apply (AdderProofs.undo rO rI radd rmul rsub ropp RT expi chalf shalf im EU N (U i) (V i) (proj1 A)), VU, Hi. }
  rewrite M2 by exact L. rewrite <- (selected_undo rO rI radd rmul rsub ropp RT expi chalf shalf im EU N index ctrl amount U V psi x); [| |exact L].
  2: { intros i Hi. destruct (BR i Hi) as (_ & A & _). split; [|apply VU, Hi]. apply (off_less N (index ++ fresh ++ controls ctrl)); [|exact A]. intros q I. apply in_app_or in I. rewrite !in_app_iff. destruct I; auto. }
  apply (selected_ext rO rI radd rmul ropp expi chalf shalf im N); [|exact M1|exact L].
  intros i Hi. apply (AdderProofs.undo rO rI radd rmul rsub ropp RT expi chalf shalf im EU N (U i) (V i)); [apply (BR i Hi)|apply VU, Hi].
Qed.
(** The switch is built, and its circuit is well formed, whenever there is an index qubit, at least one branch, and not more branches than
    values of the index. *)
Theorem C78_defined (sequential inv : bool) N index fresh ctrl branch U amount :
  length fresh = (if sequential then 1 else length index) ->
  NoDup (index ++ fresh ++ controls ctrl) -> (forall q, In q (index ++ fresh ++ controls ctrl) -> q < N) -> 0 < length index -> 0 < amount <= 2 ^ length index ->
  (forall i, i < amount -> called inv branch i = Some (U i) /\ acts_off N (index ++ fresh ++ controls ctrl) (U i)) ->
  exists c, q_switch sequential index fresh ctrl inv branch amount = Some c /\ wf_circuit N c.
Proof.
  intros LF ND BD HN [HA AM] BR. unfold q_switch. destruct sequential.
  - destruct fresh as [|q [|]]; try discriminate. cbn [nth]. apply (sequential_defined N index q ctrl (called inv branch) U ND BD HN amount 0); assumption.
  - apply (tree_defined N index fresh ctrl (called inv branch) ND BD LF U amount HN HA AM BR).
Qed.
(** Reusing the list of branches fails: a call with a list of odd length appends a function of one argument to the caller's list, so that
    a second call with the same list, and any number of operands except one, fails; the first call was fine. *)
Theorem C78_list_reuse_refuted N index anc ctrl operands (l : list body) :
  length anc = length index -> NoDup (index ++ anc ++ controls ctrl) -> (forall q, In q (index ++ anc ++ controls ctrl) -> q < N) -> 0 < length index ->
  (forall c, In c l -> acts_off N (index ++ anc ++ controls ctrl) c) -> Nat.odd (length l) = true -> length l <= 2 ^ length index -> operands <> 1 ->
  let first := list_switch index anc ctrl false operands (map Some l) in
  fst first <> None /\ fst (list_switch index anc ctrl false operands (snd first)) = None.
Proof.
  intros LA ND BD HN AF OD LE OP. unfold list_switch. rewrite map_length. rewrite <- Nat.negb_odd, OD. cbn [negb fst snd]. split.
  - destruct (C78_defined false false N index anc ctrl (list_branch operands (map Some l ++ [None])) (fun i => nth i l []) (length l) LA ND BD HN) as (c & E & _).
    + split; [|exact LE]. destruct (length l); [discriminate|lia].
    + intros i Hi. split; [|apply AF, nth_In, Hi]. unfold called, list_branch. rewrite nth_error_app1 by (rewrite map_length; exact Hi). rewrite (map_nth_error Some i l (nth_error_nth' l [] Hi)). reflexivity.
    + rewrite E. discriminate.
  - rewrite app_length, map_length. cbn [length]. replace (length l + 1) with (S (length l)) by lia. rewrite Nat.even_succ, OD.
    unfold q_switch, tree_switch. rewrite Nat.even_succ, OD. destruct (length index) as [|m] eqn:Em; [lia|]. rewrite <- Em. destruct (loop _ _ _ _ _ _); [|reflexivity].
    unfold leaf. assert (L0 : exists k, length l = S k) by (destruct (length l); [discriminate|eauto]). destruct L0 as [k Ek]. replace (S (S (length l) - 2)) with (length l) by lia.
    assert (G : guarded index anc (called false (list_branch operands (map Some l ++ [None]))) (length l) = None).
    { unfold guarded, called, list_branch. rewrite nth_error_app2 by (rewrite map_length; lia). rewrite map_length, Nat.sub_diag. cbn [nth_error]. rewrite (proj2 (Nat.eqb_neq _ _) OP). reflexivity. }
    rewrite G. destruct (guarded index anc (called false (list_branch operands (map Some l ++ [None]))) (S (length l) - 2)); reflexivity.
Qed.

(** Cases: three branches, two index qubits, a control qubit; x, nothing, a phase on qubit 4. *)
Definition ex_branch (i : nat) : option body := nth_error [[qX 4]; []; [qP (Q2Qc (1 # 3)) 4]] i.
Definition ex_U (i : nat) : body := match ex_branch i with Some c => c | None => [] end.
Lemma ex_acts i res : i < 3 -> ~ In 4 res -> ex_branch i = Some (ex_U i) /\ acts_off 6 res (ex_U i).
Proof.
  intros Hi NI. assert (W : forall o : qop, well_formed o -> arity o = 1 -> acts_off 6 res [(o, [4])]).
  { intros o Wo Ao. split; [apply RefProofs.wf_1; [exact Wo|constructor; [intros []|constructor]|symmetry; exact Ao|intros q [<-|[]]; lia]|]. intros o' qs q [E|[]] J. inversion E; subst. destruct J as [<-|[]]. exact NI. }
  destruct i as [|[|[|]]]; try lia; (split; [reflexivity|]); cbn.
  - apply W; [constructor|reflexivity].
  - split; [constructor|intros o qs q []].
  - apply W; [constructor|reflexivity].
Qed.
Example switch_fits (sequential : bool) : let fresh := if sequential then [2] else [2; 3] in
  length fresh = (if sequential then 1 else length [0; 1]) /\ NoDup ([0; 1] ++ fresh ++ controls (Some 5)) /\ (forall q, In q ([0; 1] ++ fresh ++ controls (Some 5)) -> q < 6) /\
  (forall i, i < 3 -> ex_branch i = Some (ex_U i) /\ acts_off 6 ([0; 1] ++ fresh ++ controls (Some 5)) (ex_U i)) /\ (forall i, i < 3 -> invert_circuit (ex_U i) <> None) /\
  q_switch sequential [0; 1] fresh (Some 5) false ex_branch 3 <> None /\ q_switch sequential [0; 1] fresh (Some 5) true ex_branch 3 <> None.
Proof.
  destruct sequential; cbn zeta iota; (split; [reflexivity|]); (split; [repeat constructor; cbn; intuition lia|]); (split; [cbn; intuition lia|]); (split; [intros i Hi; apply ex_acts; [exact Hi|cbn; intuition lia]|]);
    (split; [intros [|[|[|]]] Hi; try lia; discriminate|split; discriminate]).
Qed.
(** the state |index = 2, control = 1> (x) |0> is 0 at the ancillas *)
Example switch_state : zeroed 0%Z 6 [2; 3] (fun x => if bits_eqb x [false; true; false; false; false; true] then 1%Z else 0%Z).
Proof.
  intros x L (q & I & G). destruct (bits_eqb x _) eqn:E; [|reflexivity]. apply bits_eqb_true in E. subst x. destruct I as [<-|[<-|[]]]; discriminate.
Qed.
(** the walk over four values is 2 + 2 steps down, two leaves and a jump between them *)
Example switch_gates : option_map (length (A := qop * list nat)) (q_switch false [0; 1] [2; 3] None false (fun _ => Some [qX 4]) 4) = Some (6 + (3 + 3 + 3) + 2).
Proof. reflexivity. Qed.

Print Assumptions C78_switch.
Print Assumptions C78_inverse.
Print Assumptions C78_defined.
Print Assumptions C78_list_reuse_refuted.
