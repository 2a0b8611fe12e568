(** Properties C59 (parallelize_qc), C60 (optimize_allocations) and C61 (permeability type checker).
    [wf_circ], [conflict], [valid_reordering]: PermSpec.v; [reuse_ok]: Toposort/TopoSpec.v; amplitudes,
    [implements], [run_at]: AmpSpec.v; matrices, [zperm], [xperm], [consistent]: TypeSpec.v. *)
From Verif.Lib Require Import Trace.
From Verif.Toposort Require Import TopoModel TopoSpec TopoProofs AllocProofs.
From Verif.PermDag Require Import PermModel PermSpec PermProofs AmpSpec AmpProofs TypeModel TypeSpec TypeProofs.
From Coq Require Import ZArith List Lia Bool Permutation Ring.
Import ListNotations.
Local Open Scope nat_scope.

(** parallelize_qc keeps every instruction and the order of conflicting ones, for every depth indicator
    and cost function *)
Theorem C59_parallelize : forall circ nq ind cost, wf_circ circ -> reuse_ok is_alloc qs circ ->
  exists out, parallelize circ nq ind cost = Some out /\ valid_reordering circ out.
Proof. exact parallelize_correct. Qed.
Print Assumptions C59_parallelize.

(** and therefore the effect on every state, for every meaning of the instructions that respects their
    permeability types *)
Theorem C59_effect : forall (R : Type) (rO rI : R) radd rmul rsub ropp, ring_theory rO rI radd rmul rsub ropp eq ->
  forall circ nq ind cost out, wf_circ circ -> reuse_ok is_alloc qs circ ->
  parallelize circ nq ind cost = Some out ->
  forall (ops : nat -> @operator R) (psi : state) x,
  (forall i, i < length circ -> implements rO (at_ circ i) (ops i)) -> proper psi ->
  run_at rO radd rmul ops out psi x = run_at rO radd rmul ops (seq 0 (length circ)) psi x.
Proof.
  intros R rO rI radd rmul rsub ropp RT circ nq ind cost out WF RO E ops psi x IM P.
  destruct (parallelize_correct circ nq ind cost WF RO) as (out' & E' & V). rewrite E in E'. injection E' as <-.
  exact (valid_run rO rI radd rmul rsub ropp RT circ ops out psi x IM P V).
Qed.
Print Assumptions C59_effect.

(** a classically controlled gate on two qubits is an error (KeyError), not a reordering *)
Theorem C59_clif_refuted : exists circ, Forall (fun a => NoDup (qs a)) circ /\ reuse_ok is_alloc qs circ /\
  forall nq ind cost, parallelize circ nq ind cost = None.
Proof.
  exists [Instr KGate [0] [0] [PN]; Instr KClIf [0; 1] [0] [PZ; PX]]. split; [repeat constructor; cbn; intuition congruence|].
  split; [apply reuse_nodup; cbn; constructor|]. intros. reflexivity.
Qed.
Print Assumptions C59_clif_refuted.

(** the example: Z-streaks on qubit 0, an X-streak on qubit 2, a measurement *)
Definition ex_circ : list instr :=
  [Instr KAlloc [2] [] [PN]; Instr KGate [0; 2] [] [PZ; PX]; Instr KGate [0; 1] [] [PZ; PX]; Instr KGate [1; 2] [] [PZ; PX];
   Instr KGate [0] [] [PN]; Instr KGate [1] [7] [PN]; Instr KClIf [0] [7] []; Instr KDealloc [2] [] []].
Definition sum_cost (l : list Z) (i : Z) : Z := (fold_left Z.add l 0 + i)%Z.
Example C59_ex : wf_circ ex_circ /\ reuse_ok is_alloc qs ex_circ /\
  parallelize ex_circ 3 (fun _ => 1%Z) sum_cost = Some [0; 2; 1; 3; 4; 5; 6; 7].
Proof.
  split; [|split].
  - repeat constructor; cbn; try (intuition congruence); try lia; eexists; reflexivity.
  - apply reuse_nodup. cbn. repeat constructor; cbn; intuition congruence.
  - vm_compute. reflexivity.
Qed.

(** optimize_allocations, dense or sparse, for every iteration order of the sets of qubits *)
Theorem C60_optimize_allocations : forall circ dense order_qb, wf_circ circ -> reuse_ok is_alloc qs circ ->
  (forall l, Permutation l (order_qb l)) ->
  exists out, optimize_allocations circ dense order_qb = Some out /\ valid_reordering circ out.
Proof. exact optimize_correct. Qed.
Print Assumptions C60_optimize_allocations.

Theorem C60_effect : forall (R : Type) (rO rI : R) radd rmul rsub ropp, ring_theory rO rI radd rmul rsub ropp eq ->
  forall circ dense order_qb out, wf_circ circ -> reuse_ok is_alloc qs circ -> (forall l, Permutation l (order_qb l)) ->
  optimize_allocations circ dense order_qb = Some out ->
  forall (ops : nat -> @operator R) (psi : state) x,
  (forall i, i < length circ -> implements rO (at_ circ i) (ops i)) -> proper psi ->
  run_at rO radd rmul ops out psi x = run_at rO radd rmul ops (seq 0 (length circ)) psi x.
Proof.
  intros R rO rI radd rmul rsub ropp RT circ dense order_qb out WF RO OQ E ops psi x IM P.
  destruct (optimize_correct circ dense order_qb WF RO OQ) as (out' & E' & V). rewrite E in E'. injection E' as <-.
  exact (valid_run rO rI radd rmul rsub ropp RT circ ops out psi x IM P V).
Qed.
Print Assumptions C60_effect.

(** of two consecutive allocations of a qubit one disappears *)
Theorem C60_double_alloc_refuted : exists circ, wf_circ circ /\ exists out, optimize_allocations circ true (fun l => l) = Some out /\ length out < length circ.
Proof.
  exists [Instr KAlloc [0] [] [PN]; Instr KAlloc [0] [] [PN]]. split.
  - repeat constructor; cbn; try (intuition congruence); eexists; reflexivity.
  - eexists. split; [vm_compute; reflexivity|]. cbn. lia.
Qed.
Print Assumptions C60_double_alloc_refuted.

Example C60_ex : optimize_allocations ex_circ true (fun l => l) = Some [0; 1; 2; 3; 7; 4; 5; 6] /\
  optimize_allocations ex_circ false (fun l => l) = Some [0; 1; 2; 3; 7; 4; 5; 6].
Proof. vm_compute. split; reflexivity. Qed.

(** C61: a positive answer of is_permeable means that the unitary keeps the bits of the qubits *)
Theorem C61_is_permeable : forall (R : Type) (rO rI : R) radd rmul rsub ropp, ring_theory rO rI radd rmul rsub ropp eq ->
  forall g, consistent rO rI radd rmul g -> forall idx, is_permeable g idx = true ->
  forall i, In i idx -> i < nq g -> zperm rO (nq g) i (u g).
Proof. exact @is_permeable_sound. Qed.
Print Assumptions C61_is_permeable.

(** the entries of get_perm_dic are true *)
Theorem C61_get_perm_dic : forall (R : Type) (rO rI : R) radd rmul rsub ropp, ring_theory rO rI radd rmul rsub ropp eq ->
  forall g, consistent rO rI radd rmul g -> length (get_perm_dic g) = nq g /\ forall i, i < nq g ->
  (nth i (get_perm_dic g) PN = PZ -> zperm rO (nq g) i (u g)) /\
  (nth i (get_perm_dic g) PN = PX -> xperm (nq g) i (u g)).
Proof. intros. split; [eapply get_perm_dic_length; eassumption|]. eapply get_perm_dic_sound; eassumption. Qed.
Print Assumptions C61_get_perm_dic.

(** so a gate typed by the checker meets the hypothesis of C59 and C60 *)
Theorem C61_implements : forall (R : Type) (rO rI : R) radd rmul rsub ropp, ring_theory rO rI radd rmul rsub ropp eq ->
  forall g qubits clbits, consistent rO rI radd rmul g -> NoDup qubits -> length qubits = nq g ->
  implements rO (Instr KGate qubits clbits (get_perm_dic g)) (gate_operator qubits (u g)).
Proof. exact @gate_implements. Qed.
Print Assumptions C61_implements.

(** the example: a gate defined as a Toffoli (control states 1 and 0) followed by a phase on its first qubit *)
Definition m_x : list bool -> list bool -> Z := fun y x => if beq y x then 0%Z else 1%Z.
Definition g_x : gate (list bool -> list bool -> Z) := Gate NameX 1 [Some false] false None None (fun _ => false) m_x.
Definition g_ccx : gate (list bool -> list bool -> Z) :=
  Gate NameOther 3 [Some true; Some true; Some false] false None (Some ([true; false], g_x)) (fun _ => false) (controlled 0%Z 1%Z [true; false] m_x).
Definition m_z : list bool -> list bool -> Z := fun y x => if beq y x then if nth 0 x false then (-1)%Z else 1%Z else 0%Z.
Definition g_z : gate (list bool -> list bool -> Z) := Gate NameOther 1 [Some true] false None None (fun _ => false) m_z.
Definition g_def : gate (list bool -> list bool -> Z) :=
  Gate NameOther 3 [None; None; None] false (Some [(g_ccx, [0; 2; 1]); (g_z, [0])]) None (fun _ => false)
    (product 0%Z 1%Z Z.add Z.mul 3 [(controlled 0%Z 1%Z [true; false] m_x, [0; 2; 1]); (m_z, [0])]).
Lemma ex_x : consistent 0%Z 1%Z Z.add Z.mul g_x.
Proof.
  constructor; cbn; try discriminate.
  - intros [|i] L; [discriminate|lia].
  - intros [|i] _ L; [|lia]. intros [|a [|a1 a2]] [|b [|b1 b2]] L1 L2; try discriminate. destruct a, b; reflexivity.
Qed.
Lemma ex_ccx : consistent 0%Z 1%Z Z.add Z.mul g_ccx.
Proof.
  constructor; cbn; try discriminate.
  - intros i L P y x Ly Lx NE. unfold controlled. cbn [length]. destruct y as [|y0 [|y1 [|y2 [|y3 y4]]]]; try discriminate. destruct x as [|x0 [|x1 [|x2 [|x3 x4]]]]; try discriminate.
    destruct i as [|[|[|i]]]; cbn in NE, P; try discriminate; cbn; destruct x0, x1, y0, y1; try reflexivity; congruence.
  - intros i [K|[K|[K|[]]]]; discriminate.
  - intros s b E. injection E as <- <-. split; [exact ex_x|]. split; [reflexivity|]. reflexivity.
Qed.
Lemma ex_z : consistent 0%Z 1%Z Z.add Z.mul g_z.
Proof.
  constructor; cbn; try discriminate.
  - intros [|i] L _; [|lia]. intros [|a [|a1 a2]] [|b [|b1 b2]] L1 L2 NE; try discriminate. destruct a, b; cbn in *; try reflexivity; congruence.
  - intros i [K|[K|[K|[]]]]; discriminate.
Qed.
Example C61_ex : consistent 0%Z 1%Z Z.add Z.mul g_def /\ get_perm_dic g_ccx = [PZ; PZ; PX] /\ get_perm_dic g_def = [PZ; PN; PZ] /\ is_permeable g_def [2; 0] = true.
Proof.
  split; [|vm_compute; repeat split]. constructor; try (cbn; discriminate).
  - intros [|[|[|i]]] L E; cbn in *; solve [discriminate | lia].
  - intros i [K|[K|[K|[]]]]; discriminate.
  - intros l E. injection E as <-. split; [|reflexivity]. intros h q [K|[K|[]]]; injection K as <- <-.
    + split; [exact ex_ccx|]. split; [reflexivity|]. cbn. intros q H. lia.
    + split; [exact ex_z|]. split; [reflexivity|]. cbn. intros q H. lia.
Qed.
