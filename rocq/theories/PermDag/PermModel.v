(** Model of the permeability graph (src/qrisp/permeability/permeability_dag.py) and of the circuit
    transformations that linearise it (qc_transformations/qc_parallelization.py and
    qc_transformations/memory_management.py).
    Qubits, classical bits and nodes are natural numbers; nodes are numbered in order of creation. *)
From Verif.Toposort Require Import TopoModel.
From Coq Require Import ZArith List Bool.
Import ListNotations.
Local Open Scope nat_scope.

(** values of the dictionary returned by [get_perm_dic] (permeability_dag.py:34-74) *)
Inductive ptype := PZ | PX | PN.
Definition ptype_eqb (a b : ptype) : bool :=
  match a, b with PZ, PZ | PX, PX | PN, PN => true | _, _ => false end.
(** by operation name: qb_alloc, qb_dealloc, a name containing c_if, anything else *)
Inductive kind := KAlloc | KDealloc | KClIf | KGate.
(** an instruction of the circuit; [pt] is [get_perm_dic] of its operation *)
Record instr := Instr { ikind : kind; qs : list nat; cs : list nat; pt : list ptype }.

(** permeability_dag.py:97-152.  [NAlloc q None] is an artificial allocation node, [NAlloc q (Some i)]
    stands for instruction i; [NOp i] is an InstructionNode or DeallocNode of instruction i.  [NTerm q x]
    is a terminator on q; x, not stored in the code, is the node whose insertion created it. *)
Inductive node := NAlloc (q : nat) (src : option nat) | NOp (i : nat) | NTerm (q x : nat).

Definition fupd {A} (f : nat -> A) (k : nat) (v : A) : nat -> A := fun x => if Nat.eqb x k then v else f x.

(** The graph under construction.  An edge of the code carries a list of qubits; here there is one
    entry (u, v, Some q) per qubit q of the list, and (u, v, None) for the edges of classical bits.
    [touched q]: value_layer[q] differs from 1, i.e. the qubit has a node besides its allocation node
    (the value layer is otherwise only used for drawing).  Edge types are not read during construction. *)
Record dag := Dag {
  nodes : list node;
  edges : list (nat * nat * option nat);
  recent : nat -> option nat;   (* recent_node_dic, qubits *)
  streak : nat -> ptype;        (* streak_dic *)
  touched : nat -> bool;
  crecent : nat -> option nat   (* recent_node_dic, classical bits *)
}.
Definition empty_dag : dag := Dag [] [] (fun _ => None) (fun _ => PN) (fun _ => false) (fun _ => None).

(** permeability_dag.py:438-466: allocation nodes of the qubits seen for the first time *)
Definition ensure_alloc (i : nat) (is_alloc : bool) (g : dag) (q : nat) : dag :=
  match recent g q with
  | Some _ => g
  | None =>
    Dag (nodes g ++ [NAlloc q (if is_alloc then Some i else None)]) (edges g)
        (fupd (recent g) q (Some (length (nodes g)))) (fupd (streak g) q PN) (fupd (touched g) q false) (crecent g)
  end.

(** permeability_dag.py:209-232 [add_edge]: no self loops *)
Definition add_edge (g : dag) (u v : nat) (q : option nat) : dag :=
  if Nat.eqb u v then g else Dag (nodes g) (edges g ++ [(u, v, q)]) (recent g) (streak g) (touched g) (crecent g).
(** permeability_dag.py:517-518: streak members *)
Definition members (g : dag) (r q : nat) : list nat :=
  map (fun '(_, v, _) => v) (filter (fun '(u, _, o) => Nat.eqb u r && match o with Some q' => Nat.eqb q q' | None => false end) (edges g)).
Definition set_recent (g : dag) (q r : nat) : dag :=
  Dag (nodes g) (edges g) (fupd (recent g) q (Some r)) (streak g) (touched g) (crecent g).

(** permeability_dag.py:501-558: connecting node x on qubit q with permeability e *)
Definition connect (x : nat) (g : dag) (qe : nat * ptype) : dag :=
  let '(q, e) := qe in
  let r := match recent g q with Some r => r | None => 0 end in
  if ptype_eqb (streak g q) e && negb (ptype_eqb e PN) then add_edge g r x (Some q)
  else
    let ms := members g r q in
    let g :=
      if Nat.ltb 1 (length ms) then
        let t := length (nodes g) in
        let g := Dag (nodes g ++ [NTerm q x]) (edges g) (recent g) (streak g) (touched g) (crecent g) in
        let g := fold_left (fun g s => add_edge g s t (Some q)) ms g in
        set_recent g q t
      else match ms with [s] => set_recent g q s | _ => g end in
    let r := match recent g q with Some r => r | None => 0 end in
    let g := add_edge g r x (Some q) in
    Dag (nodes g) (edges g) (recent g) (fupd (streak g) q e) (fupd (touched g) q true) (crecent g).

(** permeability_dag.py:563-566 *)
Definition connect_clbit (x : nat) (g : dag) (c : nat) : dag :=
  let g := match crecent g c with Some r => add_edge g r x None | None => g end in
  Dag (nodes g) (edges g) (recent g) (streak g) (touched g) (fupd (crecent g) c (Some x)).

(** permeability_dag.py:474-483: the permeability dictionary; [None]: KeyError of line 506 for a
    deallocation or classically controlled operation with several qubits *)
Definition perm_list (a : instr) : option (list ptype) :=
  match ikind a with
  | KAlloc | KGate => Some (pt a)
  | KDealloc | KClIf => if Nat.ltb 1 (length (qs a)) then None else Some [PN]
  end.
Definition is_alloc (a : instr) : bool := match ikind a with KAlloc => true | _ => false end.

(** permeability_dag.py:433-566: one instruction *)
Definition process (g : option dag) (ia : nat * instr) : option dag :=
  match g with
  | None => None
  | Some g =>
    let '(i, a) := ia in
    let g := fold_left (ensure_alloc i (is_alloc a)) (qs a) g in
    if is_alloc a && negb (touched g (last (qs a) 0)) then Some g
    else
      match perm_list a with
      | None => None
      | Some ps =>
        let x := length (nodes g) in
        let g := Dag (nodes g ++ [NOp i]) (edges g) (recent g) (streak g) (touched g) (crecent g) in
        let g := fold_left (connect x) (combine (qs a) ps) g in
        Some (fold_left (connect_clbit x) (cs a) g)
      end
  end.
(** permeability_dag.py:400-574 [dag_from_qc] *)
Definition dag_from_qc (circ : list instr) : option dag :=
  fold_left process (combine (seq 0 (length circ)) circ) (Some empty_dag).

(** permeability_dag.py:571-572 [remove_artificials]: the remaining nodes in order *)
Definition artificial (nd : node) : bool := match nd with NAlloc _ None => true | _ => false end.
Definition node_at (g : dag) (u : nat) : node := nth u (nodes g) (NOp 0).
Definition node_list (g : dag) : list nat := filter (fun u => negb (artificial (node_at g u))) (seq 0 (length (nodes g))).
Fixpoint index_of (l : list nat) (x : nat) : nat :=
  match l with [] => 0 | y :: t => if Nat.eqb x y then 0 else S (index_of t x) end.
(** nx.to_scipy_sparse_array: successor lists over positions in the node list.  The order within a row
    is that of insertion. *)
Definition csr (g : dag) : graph :=
  let l := node_list g in
  map (fun u => nodup Nat.eq_dec
        (map (fun '(_, v, _) => index_of l v)
          (filter (fun '(u', v, _) => Nat.eqb u u' && existsb (Nat.eqb v) l) (edges g)))) l.

(** the instruction of a node, if any *)
Definition src (nd : node) : list nat :=
  match nd with NAlloc _ (Some i) => [i] | NAlloc _ None => [] | NOp i => [i] | NTerm _ _ => [] end.
Definition emit (g : dag) (order : list nat) : list nat :=
  flat_map (fun k => src (node_at g (nth k (node_list g) 0))) order.

(** qubits of a node for the depth computation (qc_parallelization.py:121-127) *)
Definition node_qubits (circ : list instr) (nd : node) : list nat :=
  match nd with NTerm q _ => [q] | NAlloc q _ => [q] | NOp i => qs (nth i circ (Instr KGate [] [] [])) end.

(** qc_parallelization.py:97-148 [parallelize_qc]: the result lists positions of the original circuit.
    [ind]: depth indicators by node position, [cost]: see [depth_sort]. *)
Definition parallelize (circ : list instr) (nq : nat) (ind : nat -> Z) (cost : list Z -> Z -> Z) : option (list nat) :=
  if Nat.leb (length circ) 1 then Some (seq 0 (length circ))
  else
    match dag_from_qc circ with
    | None => None
    | Some g =>
      option_map (emit g) (depth_sort (csr g) (fun k => node_qubits circ (node_at g (nth k (node_list g) 0))) ind cost nq)
    end.

(** memory_management.py:24-84 [optimize_allocations] *)
Definition optimize_allocations (circ : list instr) (dense : bool) (order_qb : list nat -> list nat) : option (list nat) :=
  match dag_from_qc circ with
  | None => None
  | Some g =>
    let at_ (i : nat) := nth i circ (Instr KGate [] [] []) in
    let has (p : instr -> bool) (k : nat) :=
      match src (node_at g (nth k (node_list g) 0)) with [i] => p (at_ i) | _ => false end in
    let is_dealloc (a : instr) := match ikind a with KDealloc => true | _ => false end in
    option_map (fun order => delay_allocs (fun i => is_alloc (at_ i)) (fun i => qs (at_ i)) order_qb (emit g order))
      (topological_sort dense (csr g) (has is_dealloc) (has is_alloc))
  end.
