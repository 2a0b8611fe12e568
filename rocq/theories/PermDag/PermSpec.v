(** Specification: which instructions may be exchanged, and valid reorderings. *)
From Verif.Lib Require Import Trace.
From Verif.Toposort Require Import TopoModel TopoSpec.
From Verif.PermDag Require Import PermModel.
From Coq Require Import List Permutation.
Import ListNotations.

Definition default_instr : instr := Instr KGate [] [] [].
Definition at_ (circ : list instr) (i : nat) : instr := nth i circ default_instr.

(** permeability of an instruction on qubit q *)
Fixpoint lookup (ql : list nat) (pl : list ptype) (q : nat) : ptype :=
  match ql, pl with
  | x :: ql, p :: pl => if Nat.eqb q x then p else lookup ql pl q
  | _, _ => PN
  end.
Definition etype (a : instr) (q : nat) : ptype :=
  match ikind a with KAlloc | KGate => lookup (qs a) (pt a) q | KDealloc | KClIf => PN end.

(** Two instructions must keep their order if they share a classical bit, or a qubit on which they are
    not both Z-permeable nor both X-permeable. *)
Definition conflict (a b : instr) : Prop :=
  (exists c, In c (cs a) /\ In c (cs b)) \/
  (exists q, In q (qs a) /\ In q (qs b) /\ ~ (etype a q = etype b q /\ etype a q <> PN)).

(** Well-formed instructions: distinct qubits, one permeability entry each; allocations act on one qubit
    and no classical bit, and are neutral; deallocations and classically controlled operations act
    on one qubit. *)
Definition wf_instr (a : instr) : Prop :=
  NoDup (qs a) /\
  match ikind a with
  | KGate => length (pt a) = length (qs a)
  | KAlloc => (exists q, qs a = [q]) /\ cs a = [] /\ pt a = [PN]
  | KDealloc | KClIf => length (qs a) <= 1
  end.
Definition wf_circ (circ : list instr) : Prop := Forall wf_instr circ.

(** [out] lists the positions of the circuit in a new order: each exactly once, conflicting instructions
    in their original order. *)
Definition valid_reordering (circ : list instr) (out : list nat) : Prop :=
  Permutation (seq 0 (length circ)) out /\
  forall i j, i < j -> j < length circ -> conflict (at_ circ i) (at_ circ j) -> before out i j.
