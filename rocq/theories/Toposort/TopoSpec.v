(** Specification of topological orders. *)
From Verif.Lib Require Import Trace.
From Verif.Toposort Require Import TopoModel.
From Coq Require Import List Permutation.
Import ListNotations.

Definition edge (G : graph) (u v : nat) : Prop := u < length G /\ In v (succ G u).
(** the successor lists name nodes of the graph *)
Definition wf_graph (G : graph) : Prop := forall u v, edge G u v -> v < length G.
(** some numbering increases along every edge *)
Definition acyclic (G : graph) : Prop := exists rank : nat -> nat, forall u v, edge G u v -> rank u < rank v.
(** the numbering of the nodes itself increases along every edge *)
Definition numbered (G : graph) : Prop := forall u v, edge G u v -> u < v.

(** every node exactly once, sources before targets *)
Definition topological_order (G : graph) (l : list nat) : Prop :=
  Permutation (seq 0 (length G)) l /\ forall u v, edge G u v -> before l u v.

(** paths of any length *)
Inductive reach (G : graph) : nat -> nat -> Prop :=
| reach_refl u : reach G u u
| reach_step u v w : reach G u v -> edge G v w -> reach G u w.

(** The instructions acting on qubit q, in order. *)
Definition timeline {I} (qubits : I -> list nat) (q : nat) (data : list I) : list I :=
  filter (fun i => existsb (Nat.eqb q) (qubits i)) data.
(** between two allocations of a qubit there is another instruction on it *)
Definition reuse_ok {I} (is_alloc : I -> bool) (qubits : I -> list nat) (data : list I) : Prop :=
  forall l1 i l2 j l3 q, data = l1 ++ i :: l2 ++ j :: l3 ->
  is_alloc i = true -> is_alloc j = true -> qubits i = [q] -> qubits j = [q] ->
  exists k, In k l2 /\ is_alloc k = false /\ In q (qubits k).
