(** Specification for the reordering of circuits. *)
From Verif.Lib Require Import Trace.
From Verif.SimReorder Require Import SimModel.
Local Open Scope nat_scope.

Definition dflt : sinstr := SI [] [] false.
Definition instr_at (circ : list sinstr) (i : nat) : sinstr := nth i circ dflt.

(** every instruction has a qubit, and its qubits and classical bits are pairwise distinct and qubits of the circuit *)
Definition wf (circ : list sinstr) (qubits : list nat) : Prop :=
  NoDup qubits /\ Forall (fun a => sq a <> [] /\ NoDup (sq a) /\ NoDup (sc a) /\ incl (sq a) qubits) circ.

(** two instructions share a qubit or a classical bit *)
Definition overlap (a b : sinstr) : Prop :=
  (exists q, In q (sq a) /\ In q (sq b)) \/ (exists c, In c (sc a) /\ In c (sc b)).

(** a topological order of the graph given by successor lists *)
Definition topological (G : list (list nat)) (topo : list nat) : Prop :=
  Permutation (seq 0 (length G)) topo /\ forall u v, u < length G -> In v (nth u G []) -> before topo u v.

(** every instruction once; overlapping instructions in the same order as before *)
Definition faithful (circ : list sinstr) (out : list nat) : Prop :=
  Permutation (seq 0 (length circ)) out /\
  forall i j, i < j -> j < length circ -> overlap (instr_at circ i) (instr_at circ j) -> before out i j.
