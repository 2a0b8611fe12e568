(** Model of constrained_mixer_gen and grover_mixer (/repo/src/qrisp/algorithms/qaoa/mixers.py, MX) on a QuantumVariable with the qubits 0, ..., m - 1. The steps of the exact Grover algorithm
    (/repo/src/qrisp/algorithms/grover/grover_tools.py, GR) have real phases, as in Grover/GroverSpec.v; the Hadamard gates are a circuit. *)
From Coq Require Import List Reals QArith Qcanon.
Import ListNotations.
From Verif.Inverse Require Import InvModel.
From Verif.CtrlOps Require Import CtrlModel.
From Verif.Fourier Require Import FourierModel.
From Verif.Amplify Require Import AmpModel.
From Verif.Grover Require Import GroverModel.
(** [Oracle]: the constraint oracle with a phase; [Diffuser]: the diffuser with a phase; [Zero_phase]: mcp with ctrl_state = 0 *)
Inductive step := Circuit (c : body) | Oracle (phi : R) | Diffuser (phi : R) | Zero_phase (beta : R).
(** MX 219-233 with GR 428-432, 443-450: k iterations with the phase phi *)
Definition prep_psi (m k : nat) (phi : R) : list step := Circuit (h_all [Variable_ (seq 0 m)]) :: concat (repeat [Oracle phi; Diffuser phi] k).
(** the inverses, as recorded by invert(): the gates of each step inverted in reverse order. That the inverse of the oracle has the opposite phase, and likewise for the diffuser and mcp, is part of what a step is. *)
Definition invert_step (s : step) : option step :=
  match s with
  | Circuit c => match invert_circuit c with Some d => Some (Circuit d) | None => None end
  | Oracle phi => Some (Oracle (- phi)) | Diffuser phi => Some (Diffuser (- phi)) | Zero_phase beta => Some (Zero_phase (- beta))
  end.
Fixpoint invert_steps (l : list step) : option (list step) :=
  match l with
  | [] => Some []
  | s :: l => match invert_steps l, invert_step s with Some r, Some t => Some (r ++ [t]) | _, _ => None end
  end.
(** MX 235-243: the conjugation environment executes the inverse of prep_psi, mcp, and the inverse of that inverse *)
Definition constrained_mixer (m k : nat) (phi beta : R) : option (list step) :=
  match invert_steps (prep_psi m k phi) with
  | Some v => match invert_steps v with Some u => Some (v ++ [Zero_phase beta] ++ u) | None => None end
  | None => None
  end.
(** MX 116-129 *)
Definition grover_mixer (reg : list nat) (beta : Qc) : option body := diffuser [Variable_ reg] beta None None.
