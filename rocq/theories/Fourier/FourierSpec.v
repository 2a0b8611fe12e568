(** Reading and writing registers, sums over all values of a register. *)
From Coq Require Import List ZArith Bool.
Import ListNotations.
From Verif.Inverse Require Import InvSpec.
From Verif.CtrlOps Require Import CtrlSpec.
(** the qubits of a register in a basis state, and the basis state with other values for them *)
Definition read (x : list bool) (qs : list nat) : list bool := map (getbit x) qs.
Fixpoint write (x : list bool) (qs : list nat) (b : list bool) : list bool :=
  match qs, b with q :: qs, a :: b => setbit (write x qs b) q a | _, _ => x end.
(** the register as an unsigned integer, lowest qubit first; [number]: CtrlSpec *)
Definition value (x : list bool) (qs : list nat) : Z := number (read x qs).
(** the lowest n bits of an integer *)
Definition bits_of (n : nat) (z : Z) : list bool := map (fun i => Z.testbit z (Z.of_nat i)) (seq 0 n).
(** the basis state with the register set to z modulo 2^n *)
Definition store (x : list bool) (qs : list nat) (z : Z) : list bool := write x qs (bits_of (length qs) z).
(** all bit lists of length n *)
Fixpoint all_bits (n : nat) : list (list bool) :=
  match n with O => [[]] | S n => map (cons false) (all_bits n) ++ map (cons true) (all_bits n) end.
(** registers of different qubits that lie in the basis state *)
Definition register (qs : list nat) (x : list bool) : Prop := NoDup qs /\ forall q, In q qs -> q < length x.
Section sum.
Context {R : Type} (rO rI : R) (radd rmul : R -> R -> R).
Definition total {A} (l : list A) (f : A -> R) : R := fold_right (fun a acc => radd (f a) acc) rO l.
Fixpoint power (r : R) (n : nat) : R := match n with O => rI | S n => rmul r (power r n) end.
End sum.
From Coq Require Import QArith Qcanon.
From Verif.CtrlOps Require Import CtrlModel.
(** 2 pi z / 2^n (unit: pi) *)
Definition angle (z : Z) (n : nat) : Qc := Q2Qc (inject_Z (2 * z) / inject_Z (2 ^ Z.of_nat n)).
(** the register read as a number, lowest or highest qubit first *)
Definition reading (reversed : bool) (b : list bool) : Z := number (if reversed then rev b else b).
Section dft.
Context {R : Type} (rO rI : R) (radd rmul : R -> R -> R) (expi chalf : Qc -> R).
(** The discrete Fourier transform of a register: the amplitude of the value y is the sum over all values k of
    exp(2 pi i s k y / 2^n) times the amplitude of k, divided by the square root of 2^n (chalf q_half is cos(pi / 4)). The
    flags say in which order the qubits of the register are read before and after. *)
Definition dft (s : Z) (reversed_in reversed_out : bool) (qv : list nat) (psi : list bool -> R) (x : list bool) : R :=
  let n := length qv in
  rmul (power rI rmul (chalf q_half) n)
    (total rO radd (all_bits n) (fun b => rmul (expi (angle (s * reading reversed_in b * reading reversed_out (read x qv)) n)) (psi (write x qv b)))).
End dft.
