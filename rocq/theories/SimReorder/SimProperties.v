(** Property C38: the reordering before simulation keeps instructions and dependencies.
    [wf], [overlap], [topological], [faithful]: SimSpec.v; [run], [before]: Lib/Trace.v. *)
From Verif.Lib Require Import Trace.
From Verif.SimReorder Require Import SimModel SimSpec SimProofs.
Local Open Scope nat_scope.

(** for every topological order that networkx may return *)
Theorem C38_reorder_circuit : forall circ qubits topo, wf circ qubits ->
  topological (causal_graph (with_final circ qubits)) topo ->
  exists out, reorder_circuit circ qubits topo = Some out /\ faithful circ out.
Proof. exact reorder_correct. Qed.
Print Assumptions C38_reorder_circuit.

(** for every meaning of the instructions in which instructions without common bits commute *)
Theorem C38_effect : forall (S : Type) circ (act : nat -> S -> S) qubits topo out, wf circ qubits ->
  topological (causal_graph (with_final circ qubits)) topo -> reorder_circuit circ qubits topo = Some out ->
  (forall i j s, i < length circ -> j < length circ -> ~ overlap (instr_at circ i) (instr_at circ j) -> act i (act j s) = act j (act i s)) ->
  forall s, run nat S act out s = run nat S act (seq 0 (length circ)) s.
Proof.
  intros S circ act qubits topo out W T E CM. destruct (reorder_correct circ qubits topo W T) as (out' & E' & F). rewrite E in E'. injection E' as <-.
  exact (faithful_run S circ act out CM F).
Qed.
Print Assumptions C38_effect.

(** an instruction without qubits disappears *)
Theorem C38_no_qubits_refuted : exists circ qubits topo out, topological (causal_graph (with_final circ qubits)) topo /\
  reorder_circuit circ qubits topo = Some out /\ length out < length circ.
Proof.
  exists [SI [] [0] false], [0], [1; 0], []. split; [|split; [reflexivity|cbn; lia]]. split; [apply perm_swap|].
  intros u v L I. cbn in L. destruct u as [|[|u]]; cbn in I; [tauto|tauto|lia].
Qed.
Print Assumptions C38_no_qubits_refuted.

(** h 0; cx 0 1; h 2; measure 2; x 1; measure 1; reset 0: the measurement of qubit 2 comes first *)
Definition ex_circ : list sinstr :=
  [SI [0] [] false; SI [0; 1] [] false; SI [2] [] false; SI [2] [5] true; SI [1] [] false; SI [1] [5] true; SI [0] [] true].
Example C38_ex : wf ex_circ [0; 1; 2] /\ topological (causal_graph (with_final ex_circ [0; 1; 2])) (rev (seq 0 10)) /\
  reorder_circuit ex_circ [0; 1; 2] (rev (seq 0 10)) = Some [2; 3; 0; 1; 6; 4; 5].
Proof.
  split; [|split].
  - split; [repeat constructor; cbn; intuition congruence|]. unfold ex_circ.
    repeat (constructor; [split; [discriminate|split; [cbn; repeat constructor; cbn; intuition congruence|split; [cbn; repeat constructor; cbn; intuition congruence|intros x I; cbn in *; intuition]]]|]). constructor.
  - split; [apply Permutation_rev|]. intros u v L I. cbn in L.
    assert (K : v < u /\ u < 10) by (do 10 (destruct u as [|u]; [cbn in I; intuition lia|]); lia).
    destruct (PermProofs.before_nth (seq 0 10) 0 v u) as (a & b & c & E); [lia|rewrite seq_length; lia|]. rewrite !seq_nth in E by lia. cbn [Nat.add] in E. rewrite E.
    exists (rev c), (rev b), (rev a). rewrite rev_app_distr. cbn [rev]. rewrite rev_app_distr. cbn [rev]. now rewrite <- !app_assoc.
  - vm_compute. reflexivity.
Qed.
