(** Properties C37 and C47: topological sorts of the compiler.  [topological_order], [numbered],
    [acyclic], [timeline], [reuse_ok]: TopoSpec.v. *)
From Verif.Lib Require Import Trace.
From Verif.Toposort Require Import TopoModel TopoSpec TopoProofs AncProofs AllocProofs.
From Coq Require Import ZArith List Lia Bool Permutation.
Import ListNotations.
Local Open Scope nat_scope.

(** the allocation-aware sort, with either ancestor computation, for every classification *)
Theorem C37_topological_sort : forall dense G prefer delay, wf_graph G -> numbered G ->
  exists l, topological_sort dense G prefer delay = Some l /\ topological_order G l.
Proof. exact topological_sort_correct. Qed.
Print Assumptions C37_topological_sort.

(** the depth-reducing sort, for every cost function *)
Theorem C37_depth_sort : forall G qubits ind cost num_qubits, wf_graph G -> acyclic G ->
  exists l, depth_sort G qubits ind cost num_qubits = Some l /\ topological_order G l.
Proof. exact depth_sort_correct. Qed.
Print Assumptions C37_depth_sort.

(** the ancestor matrix is reachability *)
Theorem C37_ancestors : forall G, wf_graph G -> acyclic G ->
  exists m, ancestors_dense G = Some m /\
    forall v a, v < length G -> a < length G -> nth a (nth v m []) false = true <-> reach G a v.
Proof. intros G W A. destruct (ancestors_dense_spec G W A) as (m & E & _ & H). exists m. split; [exact E|exact H]. Qed.
Print Assumptions C37_ancestors.

(** the memory-saving variant returns the same rows for the preferred nodes *)
Theorem C37_ancestors_sparse : forall G preferred, wf_graph G -> acyclic G ->
  exists m, ancestors_sparse G preferred = Some m /\
    forall v, v < length G -> In v preferred -> exists r, nth v m None = Some r /\
      forall a, a < length G -> nth a r false = true <-> reach G a v.
Proof.
  intros G pr W A. destruct (ancestors_sparse_spec G W A _ pr eq_refl) as (m & E & H). exists m. split; [exact E|].
  intros v Hv Hp. destruct (H v Hv Hp) as (r & Er & _ & Hr). exists r. split; [exact Er|exact Hr].
Qed.
Print Assumptions C37_ancestors_sparse.

(** delaying the allocations keeps every instruction, and the order on every qubit *)
Theorem C37_delay_allocs : forall (I : Type) (is_alloc : I -> bool) (qubits : I -> list nat) order_qb data,
  (forall l, Permutation l (order_qb l)) ->
  (forall x, In x data -> is_alloc x = true -> exists q, qubits x = [q]) -> reuse_ok is_alloc qubits data ->
  Permutation data (delay_allocs is_alloc qubits order_qb data) /\
  forall q, timeline qubits q (delay_allocs is_alloc qubits order_qb data) = timeline qubits q data.
Proof. intros I ia qb ord data HO HA HR. exact (delay_allocs_correct ia qb ord HO data HA HR). Qed.
Print Assumptions C37_delay_allocs.

(** two allocations of a qubit in a row: one is lost *)
Theorem C37_delay_allocs_refuted : exists (is_alloc : nat * nat -> bool) (qubits : nat * nat -> list nat) data,
  (forall x, is_alloc x = true -> exists q, qubits x = [q]) /\
  length (delay_allocs is_alloc qubits (fun l => l) data) < length data.
Proof.
  exists (fun x => Nat.eqb (fst x) 0), (fun x => [snd x]), [(0, 5); (0, 5)]. split; [intros x _; eexists; reflexivity|]. vm_compute. lia.
Qed.
Print Assumptions C37_delay_allocs_refuted.

Example C37_ex_graph : let G := [[2]; [2; 3]; [4]; []; []] in
  wf_graph G /\ numbered G /\ acyclic G /\
  topological_sort true G (Nat.eqb 3) (Nat.eqb 0) = Some [1; 3; 0; 2; 4] /\
  topological_sort false G (Nat.eqb 3) (Nat.eqb 0) = Some [1; 3; 0; 2; 4] /\
  depth_sort G (fun u => [u]) (fun _ => 1%Z) (fun l _ => fold_left Z.add l 0%Z) 5 = Some [0; 1; 2; 3; 4].
Proof.
  cbv zeta.
  assert (N : numbered [[2]; [2; 3]; [4]; []; []]).
  { intros u v [L H]. cbn in L. destruct u as [|[|[|[|[|u]]]]]; cbn in H; try lia; intuition lia. }
  split.
  { intros u v [L H]. cbn in L |- *. destruct u as [|[|[|[|[|u]]]]]; cbn in H; try lia; intuition lia. }
  split; [exact N|]. split; [now apply numbered_acyclic|]. vm_compute. repeat split.
Qed.
Example C37_ex_alloc : let ia := fun x : nat * list nat => Nat.eqb (fst x) 0 in
  let data := [(0, [1]); (0, [2]); (3, [5]); (4, [2; 5]); (0, [7]); (6, [1; 2])] in
  (forall x, In x data -> ia x = true -> exists q, snd x = [q]) /\ reuse_ok ia snd data /\
  delay_allocs ia snd (fun l => l) data = [(3, [5]); (0, [2]); (4, [2; 5]); (0, [1]); (6, [1; 2]); (0, [7])].
Proof.
  cbv zeta. split; [|split; [|reflexivity]].
  2: { apply reuse_nodup. cbn. repeat constructor; cbn; intuition congruence. }
  intros x H E. cbn in H. repeat (destruct H as [<-|H]; [cbn in E; try discriminate; eexists; reflexivity|]). destruct H.
Qed.

(** packing a gate's qubits into 64-bit words: one bit per qubit *)
Theorem C47_split : forall digits k, 0 < k -> (forall d, In d digits -> d < 64 * k) ->
  exists ws, split_integer digits k = Some ws /\ length ws = k /\
    (forall w, 0 <= nth w ws 0 < 2 ^ 64)%Z /\
    forall d, d < 64 * k -> Z.testbit (nth (d / 64) ws 0%Z) (Z.of_nat (d mod 64)) = true <-> In d digits.
Proof.
  intros digits k K B. destruct (split_integer_correct digits k K B) as (ws & E & L & R & H). exists ws. do 3 (split; [assumption|]).
  intros d Hd. specialize (H d Hd). unfold wbit in H. rewrite H. apply mem_In.
Qed.
Print Assumptions C47_split.

(** an index beyond the words is an error, not a wrong word *)
Theorem C47_out_of_range : forall digits k d, In d digits -> 64 * k <= d -> split_integer digits k = None.
Proof.
  intros digits k d Hd B. unfold split_integer. destruct (Nat.eqb k 0); [reflexivity|].
  rewrite (split_out k _ _ _ d); [reflexivity| |exact B]. now apply (Permutation_in _ (sort_perm digits)).
Qed.
Print Assumptions C47_out_of_range.

(** unpacking gives the qubits in increasing order, each once *)
Theorem C47_roundtrip : forall digits k n ws, 0 < k -> (forall d, In d digits -> d < n) -> n <= 64 * k ->
  split_integer digits k = Some ws ->
  reverse_split ws n = Some (filter (fun d => existsb (Nat.eqb d) digits) (seq 0 n)).
Proof.
  intros digits k n ws K B N E. destruct (split_integer_correct digits k K) as (ws' & E' & L & R & H); [intros d Hd; specialize (B d Hd); lia|].
  rewrite E in E'. injection E' as <-. unfold reverse_split. rewrite (reverse_loop_correct ws n 0 ws 0%Z).
  - f_equal. apply filter_ext_in. intros d Hd. apply in_seq in Hd. apply (H d). lia.
  - intros d Hd. rewrite L. apply div64_lt. lia.
  - reflexivity.
  - intros C. exfalso. apply C. reflexivity.
Qed.
Print Assumptions C47_roundtrip.

Example C47_ex : split_integer [130; 3; 64; 0] 3 = Some [9; 1; 4]%Z /\ reverse_split [9; 1; 4]%Z 140 = Some [0; 3; 64; 130].
Proof. vm_compute. split; reflexivity. Qed.
