(** Amplitudes of a register of qubits, and the action of gates on them. *)
From Coq Require Import List ZArith Reals Bool.
Import ListNotations.
From Verif.Inverse Require Import InvSpec.
From Verif.CtrlOps Require Import CtrlComplex.
From Verif.StatePrep Require Import PrepModel.
Local Open Scope R_scope.
Definition state := list bool -> cplx.
(** the matrix of a U3 gate, /repo/src/qrisp/simulator/unitary_management.py:38-64 *)
Definition u3m (u : u3) : bool -> bool -> cplx :=
  u3_matrix Rplus cmul copp (fun a : R => (cos a, sin a)) (fun a => (cos (a / 2), 0)) (fun a => (sin (a / 2), 0)) (theta u) (phi u) (lam u) (gp u).
Definition act (u : u3) (q : nat) (psi : state) : state := on_qubit cadd cmul (u3m u) q psi.
(** the number on a list of qubits, the first is the least significant *)
Fixpoint number (x : list bool) : nat := match x with [] => 0 | b :: x => (if b then 1 else 0) + 2 * number x end.
Definition apply (g : gate) (psi : state) : state := fun x =>
  match g with
  | U u q => act u q psi x
  | Not q => psi (setbit x q (negb (getbit x q)))
  | CNot c t => psi (setbit x t (xorb (getbit x t) (getbit x c)))
  | CRy cs a q => if forallb (getbit x) cs then act (ry a) q psi x else psi x
  | Mux index f q => act (f (number (map (getbit x) index))) q psi x
  end.
Definition run (c : list gate) (psi : state) : state := fold_left (fun psi g => apply g psi) c psi.
(** a basis state *)
Definition basis_state (y : list bool) : state := fun x => if bits_eqb x y then c1 else c0.
Definition zero_state (n : nat) : state := basis_state (repeat false n).
(** the basis states with a single 1 *)
Definition unit_bits (n i : nat) : list bool := map (fun j => (j =? i)%nat) (seq 0 n).
(** the number of ones *)
Definition weight (x : list bool) : nat := length (filter (fun b => b) x).
(** the number of ways to choose k of n things *)
Fixpoint choose (n k : nat) : nat := match n, k with _, O => 1 | O, S _ => 0 | S n, S k => choose n k + choose n (S k) end.
