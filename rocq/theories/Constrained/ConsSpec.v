(** What the steps do to amplitudes, and the mixing of allowed states. *)
From Coq Require Import List Bool Reals QArith Qcanon.
Import ListNotations.
From Verif.Inverse Require Import InvModel InvSpec.
From Verif.CtrlOps Require Import CtrlModel CtrlSpec CtrlComplex.
From Verif.Fourier Require Import FourierSpec.
From Verif.Amplify Require Import AmpSpec AmpComplex.
From Verif.Grover Require Import GroverSpec.
From Verif.Constrained Require Import ConsModel.
(** [w]: the states that the oracle tags *)
Definition act (m : nat) (w : list bool -> bool) (s : step) (psi : list bool -> cplx) : list bool -> cplx :=
  match s with
  | Circuit c => crun c psi
  | Oracle phi => ideal_oracle w phi psi
  | Diffuser phi => ideal_diffuser m phi psi
  | Zero_phase beta => fun x => if zero_on (seq 0 m) x then cmul (cis beta) (psi x) else psi x
  end.
Definition acts (m : nat) (w : list bool -> bool) (l : list step) (psi : list bool -> cplx) : list bool -> cplx := fold_left (fun psi s => act m w s psi) l psi.
(** the sum and the mean of the amplitudes of the states of m qubits that w allows *)
Definition csum (l : list (list bool)) (psi : list bool -> cplx) : cplx := fold_right (fun x s => cadd (psi x) s) c0 l.
Definition allowed (m : nat) (w : list bool -> bool) : list (list bool) := filter w (all_bits m).
Definition mean (l : list (list bool)) (psi : list bool -> cplx) : cplx := cmul ((/ INR (length l))%R, 0%R) (csum l psi).
(** forbidden states keep their amplitudes; the mean of the allowed amplitudes is multiplied with exp(i beta), the deviations from it stay *)
Definition mixed (m : nat) (w : list bool -> bool) (beta : R) (psi : list bool -> cplx) : list bool -> cplx := fun x =>
  if w x then cadd (csub (psi x) (mean (allowed m w) psi)) (cmul (cis beta) (mean (allowed m w) psi)) else psi x.
