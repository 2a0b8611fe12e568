(** Property theorems: C46 (controlled operations).
    [effect] (InvSpec) is the effect of an operation on the amplitudes of a state, over any commutative ring with the numbers asked
    for by [euler] (CtrlSpec); the complex numbers are an instance (CtrlComplex). The effect of [Ctrl st base] is that of [base] on
    the qubits after the controls where the controls are in the state [st], and nothing elsewhere. [Comp [] k 0 b []] is the
    operation on k qubits with the definition b. *)
From Coq Require Import List Ascii Bool ZArith QArith Qcanon Lia Ring_theory.
From Verif.Inverse Require Import InvModel InvSpec InvProofs.
From Verif.CtrlOps Require Import CtrlModel CtrlSpec CtrlProofs CtrlComplex.
Import ListNotations.
Local Open Scope nat_scope.

Section numbers.
Context {R : Type} (rO rI : R) (radd rmul rsub : R -> R -> R) (ropp : R -> R) (RT : ring_theory rO rI radd rmul rsub ropp eq).
Context (expi chalf shalf : Qc -> R) (im : R) (EU : euler rO rI radd rmul ropp expi chalf shalf im).
Notation effect := (effect Qcplus rO rI radd rmul ropp expi chalf shalf im).

(** The definition circuit of a controlled operation, for every number of controls and every control state, applies the operation
    exactly when the controls are in that state: U3 gates (with the names of the library treated as those gates), X and Z,
    swap, global phases (controls all 1 or all 0), nested controls and composite operations of any depth. *)
Theorem C46_definition : forall st base b, st <> [] -> controllable st base -> definition Exact base (length st) st = Some b ->
  forall qs, NoDup qs -> length qs = length st + arity base -> forall psi x, (forall q, In q qs -> q < length x) ->
  effect (Comp [] (length qs) 0 b []) qs psi x = effect (Ctrl st base) qs psi x.
Proof. intros st base b NE C D qs ND LQ psi x Hx. rewrite effect_comp. exact (definition_correct rO rI radd rmul rsub ropp RT expi chalf shalf im EU st base b NE C D qs ND LQ psi x Hx). Qed.

(** So it is after replacing the controlled operations by their definitions, those in the definitions by theirs, and so on down to
    any depth, in any operation that contains only such controlled operations. *)
Theorem C46_decomposition : forall depth o, decomposable o -> forall qs, NoDup qs -> length qs = arity o ->
  forall psi x, (forall q, In q qs -> q < length x) -> effect (expand Exact depth o) qs psi x = effect o qs psi x.
Proof. exact (expand_correct rO rI radd rmul rsub ropp RT expi chalf shalf im EU). Qed.

(** The method "gray_pt" gives the controlled operation up to phases, and these depend on the states of the controls only. *)
Theorem C46_phase_tolerant : forall st nm theta phi lam gp params, st <> [] -> nm <> n_h -> standard_u3 nm theta phi lam gp params ->
  forall qs, NoDup qs -> length qs = S (length st) -> exists s : list bool -> Qc, forall psi x, (forall q, In q qs -> q < length x) ->
  effect (Comp [] (length qs) 0 (multi_controlled_u3_circ GrayPt (U3 nm theta phi lam gp params) (length st) st) []) qs psi x
  = rmul (expi (s (map (getbit x) (firstn (length st) qs)))) (effect (Ctrl st (U3 nm theta phi lam gp params)) qs psi x).
Proof.
  intros st nm theta phi lam gp params NE Nh S qs ND LQ.
  destruct (u3_controlled rO rI radd rmul rsub ropp RT expi chalf shalf im EU (length st) qs ND LQ st eq_refl GrayPt nm theta phi lam gp params) as (s & _ & H); auto; try discriminate.
  - destruct st; [contradiction|cbn; lia].
  - exists s. intros psi x Hx. rewrite effect_comp. exact (H psi x Hx).
Qed.

(** Controlling a controlled operation: controls and states are put together, the new ones first. *)
Theorem C46_nested : forall st o qs psi x, length qs = length st + arity o -> effect (controlled st o) qs psi x = effect (Ctrl st o) qs psi x.
Proof. exact (fun st o => controlled_effect rO rI radd rmul ropp expi chalf shalf im o st). Qed.

(** The controlled version of a composite operation controls every instruction of its definition. *)
Theorem C46_composite : forall st b nq, wf_body nq b -> forall qs, NoDup qs -> length qs = length st + nq -> forall psi x,
  effect (Comp [] (length qs) 0 (multi_controlled_circuit b (length st) st) []) qs psi x = effect (Ctrl st (Comp [] nq 0 b [])) qs psi x.
Proof.
  intros st b nq W qs ND LQ psi x. rewrite effect_comp. 
  change (effect (Ctrl st (Comp [] nq 0 b [])) qs psi x) with (if bits_eqb (map (getbit x) (firstn (length st) qs)) st then effect (Comp [] nq 0 b []) (skipn (length st) qs) psi x else psi x).
  rewrite effect_comp. apply (composite_controlled rO rI radd rmul ropp expi chalf shalf im (length st) qs st ND eq_refl b); [|lia].
  rewrite skipn_length. replace (length qs - length st) with nq by lia. exact W.
Qed.

(** Deviations. With more than one control, or a control state 0, a controlled Y gate applies -Y. *)
Theorem C46_y_sign : forall st qs, NoDup qs -> length qs = S (length st) -> forall psi x, (forall q, In q qs -> q < length x) ->
  effect (Comp [] (length qs) 0 (multi_controlled_u3_circ Exact (Pauli PY) (length st) st) []) qs psi x
  = if bits_eqb (map (getbit x) (firstn (length st) qs)) st then ropp (effect (Ctrl st (Pauli PY)) qs psi x) else psi x.
Proof. intros st qs ND LQ psi x Hx. rewrite effect_comp. exact (y_controlled rO rI radd rmul rsub ropp RT expi chalf shalf im EU (length st) qs ND LQ st eq_refl psi x Hx). Qed.
Theorem C46_y_refuted : rI <> rO -> exists b psi x, definition Exact (Pauli PY) 2 [true; true] = Some b /\ length x = 3 /\
  effect (Comp [] 3 0 b []) [0; 1; 2] psi x <> effect (Ctrl [true; true] (Pauli PY)) [0; 1; 2] psi x.
Proof.
  intros N. destruct (y_wrong rO rI radd rmul rsub ropp RT expi chalf shalf im EU N) as (psi & x & F & H). eexists. exists psi, x.
  split; [reflexivity|]. split; [exact F|]. rewrite effect_comp. exact H.
Qed.
(** With a mixed control state, the controlled global phase takes the first control's state for the last control. *)
Theorem C46_gphase_rotated : forall st a qs, st <> [] -> NoDup qs -> length qs = S (length st) -> forall psi x, (forall q, In q qs -> q < length x) ->
  effect (Comp [] (length qs) 0 (controlled_gphase a (length st) st) []) qs psi x = effect (Ctrl (tl st ++ [hd true st]) (U3 n_gphase 0%Qc 0%Qc 0%Qc a [a])) qs psi x.
Proof.
  intros st a qs NE ND LQ psi x Hx. rewrite effect_comp. apply (gphase_controlled rO rI radd rmul rsub ropp RT expi chalf shalf im EU (length st) qs st a n_gphase [a] ND LQ eq_refl); [|exact Hx].
  destruct st; [contradiction|cbn; lia].
Qed.
Theorem C46_gphase_refuted : rI <> rO -> exists b psi x, definition Exact (U3 n_gphase 0%Qc 0%Qc 0%Qc q1 [q1]) 2 [false; true] = Some b /\ length x = 3 /\ effect (Comp [] 3 0 b []) [0; 1; 2] psi x <> effect (Ctrl [false; true] (U3 n_gphase 0%Qc 0%Qc 0%Qc q1 [q1])) [0; 1; 2] psi x.
Proof.
  intros N. destruct (gphase_wrong rO rI radd rmul rsub ropp RT expi chalf shalf im EU N) as (psi & x & F & H). eexists. exists psi, x.
  split; [reflexivity|]. split; [exact F|]. rewrite effect_comp. exact H.
Qed.
(** With the method "gray_pt_inv" and a control state with a 0 the result is not the controlled gate, not even up to factors that
    depend on the control: the phase gate p(pi) with one control in state 0. *)
Theorem C46_pt_inv_refuted : rI <> rO -> ~ exists s : bool -> R, forall psi x, length x = 2 ->
  effect (Comp [] 2 0 (multi_controlled_u3_circ GrayPtInv (gP q1) 1 [false]) []) [0; 1] psi x = rmul (s (getbit x 0)) (effect (Ctrl [false] (gP q1)) [0; 1] psi x).
Proof.
  intros N (s & H). apply (pt_inv_wrong rO rI radd rmul rsub ropp RT expi chalf shalf im EU N). exists s. intros psi x Hx. rewrite <- (H psi x Hx), effect_comp. reflexivity.
Qed.
(** An operation is taken for the swap gate by its name: a composite gate X on the first of two qubits, called "swap". *)
Theorem C46_named_swap_refuted : rI <> rO -> exists b psi x, definition Exact (Comp n_swap 2 0 [(gX, [0])] []) 1 [true] = Some b /\ length x = 3 /\
  effect (Comp [] 3 0 b []) [0; 1; 2] psi x <> effect (Ctrl [true] (Comp n_swap 2 0 [(gX, [0])] [])) [0; 1; 2] psi x.
Proof.
  intros N. destruct (named_swap_wrong rO rI radd rmul rsub ropp RT expi chalf shalf im N) as (psi & x & F & H). eexists. exists psi, x.
  split; [reflexivity|]. split; [exact F|]. rewrite effect_comp. exact H.
Qed.
End numbers.
Print Assumptions C46_definition.
Print Assumptions C46_decomposition.
Print Assumptions C46_phase_tolerant.
Print Assumptions C46_nested.
Print Assumptions C46_composite.
Print Assumptions C46_y_sign.
Print Assumptions C46_y_refuted.
Print Assumptions C46_gphase_rotated.
Print Assumptions C46_gphase_refuted.
Print Assumptions C46_pt_inv_refuted.
Print Assumptions C46_named_swap_refuted.

(** The number given as control state k: the controls match exactly when they hold the number k, the first control being the lowest
    bit; -1 stands for all ones; numbers that do not fit and strings of another length are rejected. *)
Theorem C46_ctrl_state : forall n k, (0 <= k < 2 ^ Z.of_nat n)%Z -> exists st, ctrl_string n (inl k) = Some st /\ length st = n /\
  forall c, length c = n -> (bits_eqb c st = true <-> number c = k).
Proof.
  intros n k H. destruct (ctrl_string_int n k H) as (st & E & L & <-). exists st. split; [exact E|]. split; [exact L|].
  intros c Lc. rewrite bits_eqb_eq. split; [intros ->; reflexivity|]. intros Eq. apply (nth_ext _ _ false false); [lia|].
  intros i _. rewrite <- !number_bits, Eq. reflexivity.
Qed.
Print Assumptions C46_ctrl_state.
Theorem C46_ctrl_state_ones : forall n, ctrl_string n (inl (-1)%Z) = Some (repeat true n).
Proof. exact ctrl_string_ones. Qed.
Print Assumptions C46_ctrl_state_ones.
Theorem C46_ctrl_state_rejected : forall n s, ctrl_string n s = None <-> match s with inl k => (k < -1 \/ 2 ^ Z.of_nat n <= k)%Z | inr l => length l <> n end.
Proof. exact ctrl_string_reject. Qed.
Print Assumptions C46_ctrl_state_rejected.

(** ** examples *)
(** the complex numbers have what is asked for *)
Example numbers_exist : ring_theory c0 c1 cadd cmul csub copp eq /\ euler c0 c1 cadd cmul copp cexpi ccos csin ci /\ c1 <> c0.
Proof. exact (conj complex_ring (conj complex_euler complex_nontrivial)). Qed.
(** a composite of a Hadamard gate, a controlled T gate, a swap and a rotation, under the control state 010 *)
Definition mixed : qop := Comp ["m"%char] 2 0 [(gH, [0]); (Ctrl [false] gT, [1; 0]); (gSwap, [0; 1]); (gRY q_quarter, [1]); (gX, [0])] [].
Ltac std := refine (conj _ (conj _ (conj _ (conj _ (conj _ _))))); intros H;
  solve [exfalso; repeat (destruct H as [H|H]; [discriminate H|]); first [discriminate H|exact H] | repeat split | left; repeat split].
Example mixed_controllable : controllable [false; true; false] mixed.
Proof.
  apply c_comp; [discriminate|..].
  - repeat (apply wf_cons || apply wf_nil || apply wf_u3 || apply wf_pauli || apply wf_ctrl || apply wf_comp); try reflexivity;
      try (repeat constructor; cbn; intuition lia); cbn; intuition lia.
  - intros o loc [E|[E|[E|[E|[E|[]]]]]]; injection E as <- <-; right.
    + apply c_u3; [std|discriminate].
    + apply c_ctrl, c_u3; [std|discriminate].
    + apply c_swap.
    + apply c_u3; [std|discriminate].
    + apply c_pauli. left. discriminate.
Qed.
Example mixed_defined : exists b, definition Exact mixed 3 [false; true; false] = Some b /\ length b = 5.
Proof. eexists. split; reflexivity. Qed.
Example mixed_decomposable : decomposable (Ctrl [false; true; false] mixed).
Proof. apply d_ctrl; [discriminate|apply mixed_controllable]. Qed.
Example state_5 : ctrl_string 4 (inl 5%Z) = Some [true; false; true; false].
Proof. reflexivity. Qed.
