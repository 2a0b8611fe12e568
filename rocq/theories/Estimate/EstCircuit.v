(** The circuits that iterative amplitude estimation measures (/repo/src/qrisp/alg_primitives/iterative_qae.py, IQ), and the probability of a one. *)
From Coq Require Import Reals List.
Import ListNotations.
From Verif.Inverse Require Import InvModel InvSpec.
From Verif.CtrlOps Require Import CtrlModel CtrlComplex.
From Verif.Fourier Require Import FourierModel FourierSpec.
From Verif.Amplify Require Import AmpModel AmpSpec.
(** IQ 115-117: the oracle is a Z gate on the last argument, [tar]; IQ 209-213: state_prep, with the circuit [u] of state_function *)
Definition z_gate (q : nat) : qop * list nat := (Pauli PZ, [q]).
Definition state_prep (a : list qarg) (u : body) (k tar : nat) : option body := match amplitude_amplification a u [z_gate tar] k None with Some c => Some (u ++ c) | None => None end.
(** specification: the probability to measure a one *)
Definition probability_of_one (N tar : nat) (psi : list bool -> cplx) : R :=
  fold_right (fun x s => ((if getbit x tar then fst (psi x) * fst (psi x) + snd (psi x) * snd (psi x) else 0) + s)%R) 0%R (all_bits N).
