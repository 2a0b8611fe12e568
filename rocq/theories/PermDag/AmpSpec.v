(** Specification: instructions as linear operators on amplitudes.

    A configuration assigns a bit to each site; a density matrix (or, using only the [Ket] sites, a state
    vector) together with a classical record is a function from configurations to amplitudes, in any
    commutative ring.  An operator is a list of terms (flip pattern, coefficient): every linear operator on
    finitely many sites has this form, so unitaries, measurements, resets and classically controlled gates
    are covered. *)
From Verif.PermDag Require Import PermModel PermSpec.
From Coq Require Import List Bool Ring.
Import ListNotations.

Inductive site := Ket (q : nat) | Bra (q : nat) | Bit (b : nat).
Definition config := site -> bool.
Definition flip (x d : config) : config := fun s => xorb (x s) (d s).

Section amp.
Context {R : Type} (rO rI : R) (radd rmul rsub : R -> R -> R) (ropp : R -> R).
Definition operator := list (config * (config -> R)).
Definition state := config -> R.
(** (A psi)(x) = sum of a_d(x) psi(x + d) over the terms (d, a_d) *)
Definition apply (A : operator) (psi : state) : state :=
  fun x => fold_right radd rO (map (fun t => rmul (snd t x) (psi (flip x (fst t)))) A).
(** amplitudes depend on the bits of the configuration only *)
Definition proper (psi : state) : Prop := forall x y, (forall s, x s = y s) -> psi x = psi y.

Definition touches (a : instr) (s : site) : Prop :=
  match s with Ket q | Bra q => In q (qs a) | Bit b => In b (cs a) end.
(** the sites on which the coefficients may depend: not those of X-permeable qubits *)
Definition reads (a : instr) (s : site) : Prop :=
  match s with Ket q | Bra q => In q (qs a) /\ etype a q <> PX | Bit b => In b (cs a) end.
(** An operator implements an instruction if it only flips sites of the instruction, its coefficients
    are determined by the sites the instruction reads, and it is diagonal in the Z-permeable qubits. *)
Definition implements (a : instr) (A : operator) : Prop :=
  forall d f, In (d, f) A ->
    (forall s, d s = true -> touches a s) /\
    (forall x y, (forall s, reads a s -> x s = y s) -> f x = f y) /\
    (forall q, In q (qs a) -> etype a q = PZ -> d (Ket q) = true \/ d (Bra q) = true -> forall x, f x = rO).

(** the effect of the instructions at the given positions, in order *)
Definition run_at (ops : nat -> operator) (order : list nat) (psi : state) : state :=
  fold_left (fun psi i => apply (ops i) psi) order psi.
End amp.
