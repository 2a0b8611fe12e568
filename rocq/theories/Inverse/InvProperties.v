(** Property theorems: C32 (inversion of circuits). *)
From Coq Require Import List Ascii Bool ZArith Lia Ring_theory.
From Verif.Passes Require Import F17.
From Verif.Inverse Require Import InvModel InvSpec InvProofs.
Import ListNotations.

(** The inverse of a circuit has, read backwards, the inverse of each instruction on the qubits of that instruction. *)
Theorem C32_reverse : forall (A : Type) (aopp : A -> A) aadd (c d : list (op A * list nat)), inverse_circuit aopp aadd c = Some d ->
  Forall2 (fun i j => snd j = snd i /\ inverse aopp aadd (fst i) = Some (fst j)) c (rev d).
Proof. exact (fun A aopp aadd => circuit_shape aopp aadd). Qed.
Print Assumptions C32_reverse.

(** It exists unless the circuit contains an operation that is not unitary. *)
Theorem C32_exists : forall (A : Type) (aopp : A -> A) aadd (c : list (op A * list nat)),
  inverse_circuit aopp aadd c = None <-> exists o qs, In (o, qs) c /\ non_unitary o.
Proof.
  intros A aopp aadd c. unfold inverse_circuit. rewrite inverse_onto_none. split.
  - intros ([o qs] & I & N). exists o, qs. split; [exact I|]. apply (inverse_none aopp aadd), N.
  - intros (o & qs & I & N). exists (o, qs). split; [exact I|]. apply inverse_none, N.
Qed.
Print Assumptions C32_exists.

(** Running the circuit and then its inverse, or the other way round, leaves every amplitude of every state as it was:
    for a circuit on n qubits, of U3 gates, Paulis, (multi-)controlled versions and composite gates of any depth. *)
Theorem C32_undoes : forall (A R : Type) (aopp : A -> A) aadd (rO rI : R) radd rmul rsub ropp, ring_theory rO rI radd rmul rsub ropp eq ->
  forall expi chalf shalf im, angle_laws aadd rI radd rmul ropp expi chalf shalf im aopp ->
  forall n (c d : list (op A * list nat)), wf_circuit n c -> inverse_circuit aopp aadd c = Some d ->
  let run := run_circuit aadd rO rI radd rmul ropp expi chalf shalf im in
  wf_circuit n d /\ forall psi x, length x = n -> run d (run c psi) x = psi x /\ run c (run d psi) x = psi x.
Proof.
  intros A R aopp aadd rO rI radd rmul rsub ropp RT expi chalf shalf im L n c d W H.
  exact (circuit_undoes aopp aadd rO rI radd rmul rsub ropp RT expi chalf shalf im L n c d W H).
Qed.
Print Assumptions C32_undoes.

(** Inverting twice gives the circuit back, for operations as the constructors build them whose names carry
    at most one "_dg" and whose definitions contain no allocations. *)
Theorem C32_twice_partial : forall (A : Type) (aopp : A -> A) aadd, (forall a, aopp (aopp a) = a) ->
  forall (c d : list (op A * list nat)), (forall o qs, In (o, qs) c -> clean aadd o) ->
  inverse_circuit aopp aadd c = Some d -> inverse_circuit aopp aadd d = Some c.
Proof. exact (fun A aopp aadd OI => circuit_twice aopp aadd OI). Qed.
Print Assumptions C32_twice_partial.

(** Without these conditions it may give other instructions: the parameters of RGate are not those of its double inverse, ... *)
Theorem C32_twice_rgate_refuted : exists (c d e : list (op Z * list nat)), c = [(RGate Z.opp 1%Z 2%Z 0%Z, [0])] /\
  inverse_circuit Z.opp Z.add c = Some d /\ inverse_circuit Z.opp Z.add d = Some e /\ e <> c.
Proof. eexists _, _, _. split; [reflexivity|]. split; [reflexivity|]. split; [reflexivity|]. discriminate. Qed.
Print Assumptions C32_twice_rgate_refuted.
(** ... and a composite gate loses its allocations. *)
Theorem C32_twice_alloc_refuted : exists (c d e : list (op Z * list nat)), c = [(Comp ["f"%char] 1 0 [(Alloc, [0]); (Pauli PX, [0])] [], [0])] /\
  inverse_circuit Z.opp Z.add c = Some d /\ inverse_circuit Z.opp Z.add d = Some e /\ e <> c.
Proof. eexists _, _, _. split; [reflexivity|]. split; [reflexivity|]. split; [reflexivity|]. discriminate. Qed.
Print Assumptions C32_twice_alloc_refuted.

(** * The hypotheses are met *)
Local Open Scope Z_scope.
(** angles in units of pi/2, amplitudes in the field with 17 elements, where 4 is a square root of -1 *)
Definition expi17 (a : Z) : F17 := fadd (f_co (2 * a)) (fmul (red 4) (f_si (2 * a))).
Lemma angle17 : angle_laws Z.add (red 1) fadd fmul fopp expi17 f_co f_si (red 4) Z.opp.
Proof.
  assert (M : forall a b, expi17 (a + b) = fmul (expi17 a) (expi17 b)).
  { intros a b. unfold expi17. replace (2 * (a + b)) with (2 * a + 2 * b) by ring. rewrite f_co_add, f_si_add. unfold f_co, f_si. rewrite !fmul_red, !fadd_red, !fsub_red, !fmul_red, !fadd_red. apply red_eq.
    generalize (cos8 ((2 * a) mod 8)) (cos8 ((2 * b) mod 8)) (cos8 ((2 * a - 2) mod 8)) (cos8 ((2 * b - 2) mod 8)). intros x y z w. exists (- (z * w)). ring. }
  assert (S : forall a, fadd (fmul (f_co a) (f_co a)) (fmul (f_si a) (f_si a)) = red 1).
  { intros a. destruct (mod8_split a) as (j & r & -> & Hr). unfold f_co, f_si. replace (r + j * 8 - 2) with (r - 2 + j * 8) by ring. rewrite !Z_mod_plus_full, !fmul_red, fadd_red. apply F17_eq. fin8 Hr; reflexivity. }
  split; [exact M|]. split; [|split; [exact f_co_opp|split; [exact f_si_opp|split; [exact S|apply F17_eq; reflexivity]]]].
  intros a. rewrite <- M, Z.add_opp_diag_r. apply F17_eq. reflexivity.
Qed.
(** h, a doubly controlled p, and a composite gate of rx, y and a controlled t gate *)
Definition Hq : op Z := mk_u3 Z.add n_h 1 0 2 0.
Definition Pq : op Z := mk_u3 Z.add n_p 0 0 3 0.
Definition Tq : op Z := mk_u3 Z.add n_t 0 0 1 0.
Definition Cq : op Z := Comp ["f"%char] 3 0 [(mk_u3 Z.add n_rx 3 (-1) 1 0, [2%nat]); (Pauli PY, [0%nat]); (Ctrl [false] Tq, [2%nat; 1%nat])] [5].
Definition ex : list (op Z * list nat) := [(Hq, [1%nat]); (Ctrl [true; false] Pq, [3%nat; 0%nat; 1%nat]); (Cq, [0%nat; 3%nat; 2%nat]); (Barrier 2, [0%nat; 1%nat])].
Example ex_inverse : inverse_circuit Z.opp Z.add ex = Some
  [(Barrier 2, [0%nat; 1%nat]);
   (Comp (["f"%char] ++ dg) 3 0 [(Ctrl [false] (mk_u3 Z.add (n_t ++ dg) 0 (-1) 0 0), [2%nat; 1%nat]); (Pauli PY, [0%nat]); (mk_u3 Z.add n_rx (-3) (-1) 1 0, [2%nat])] [5], [0%nat; 3%nat; 2%nat]);
   (Ctrl [true; false] (mk_u3 Z.add n_p 0 (-3) 0 0), [3%nat; 0%nat; 1%nat]); (mk_u3 Z.add n_h (-1) (-2) 0 0, [1%nat])].
Proof. reflexivity. Qed.
Ltac in_cases := let I := fresh in intros ? I; cbn in I; repeat (destruct I as [<-|I]); try destruct I; cbn; try lia.
Ltac nodup := repeat constructor; let I := fresh in intros I; cbn in I; repeat (destruct I as [I|I]; [discriminate|]); destruct I.
Example ex_wf : wf_circuit 4 ex.
Proof.
  unfold wf_circuit, ex, Hq. apply wf_cons; [apply wf_u3|nodup|reflexivity|in_cases|]. apply wf_cons; [apply wf_ctrl, wf_u3|nodup|reflexivity|in_cases|].
  apply wf_cons; [apply wf_comp|nodup|reflexivity|in_cases|].
  - apply wf_cons; [apply wf_u3|nodup|reflexivity|in_cases|]. apply wf_cons; [apply wf_pauli|nodup|reflexivity|in_cases|]. apply wf_cons; [apply wf_ctrl, wf_u3|nodup|reflexivity|in_cases|]. apply wf_nil.
  - apply wf_cons; [apply wf_barrier|nodup|reflexivity|in_cases|]. apply wf_nil.
Qed.
(** the circuit does something, and is undone *)
Definition run17 := run_circuit Z.add (red 0) (red 1) fadd fmul fopp expi17 f_co f_si (red 4).
Definition psi0 : list bool -> F17 := fun x => if forallb negb x then red 1 else red 0.
Example ex_acts : proj1_sig (run17 ex psi0 [true; true; true; false]) <> 0 /\ psi0 [true; true; true; false] = red 0.
Proof. split; [vm_compute; discriminate|reflexivity]. Qed.
Example ex_undone : exists d, inverse_circuit Z.opp Z.add ex = Some d /\ forall psi x, length x = 4%nat -> run17 d (run17 ex psi) x = psi x.
Proof.
  eexists. split; [exact ex_inverse|]. intros psi x Lx.
  exact (proj1 (proj2 (C32_undoes Z F17 Z.opp Z.add _ _ _ _ _ _ F17_ring expi17 f_co f_si (red 4) angle17 4 ex _ ex_wf ex_inverse) psi x Lx)).
Qed.
Lemma not_ends : forall n, last3 n <> dg -> ~ ends_dg n. Proof. intros n H E. apply H, ends_last3, E. Qed.
Example ex_clean : forall o qs, In (o, qs) ex -> clean Z.add o.
Proof.
  intros o qs I. cbn in I. repeat (destruct I as [E|I]; [injection E as <- <-|]); try destruct I.
  - apply cl_u3. left. apply not_ends. discriminate.
  - apply cl_ctrl, cl_u3. left. apply not_ends. discriminate.
  - apply cl_comp; [left; apply not_ends; discriminate|]. intros o qs I. cbn in I. repeat (destruct I as [E|I]; [injection E as <- <-|]); try destruct I; (split; [|reflexivity]).
    + apply cl_u3. left. apply not_ends. discriminate.
    + apply cl_pauli.
    + apply cl_ctrl, cl_u3. left. apply not_ends. discriminate.
  - apply cl_barrier.
Qed.
Example ex_none : inverse_circuit Z.opp Z.add [(Hq, [0%nat]); (Comp ["m"%char] 1 0 [(Opaque ["r"%char] 1 0, [0%nat])] [], [0%nat])] = None.
Proof. reflexivity. Qed.
