(** Model of inner_LCU (/repo/src/qrisp/alg_primitives/lcu.py, LC below), outside tracing. state_prep and the unitaries are given by the
    circuits that a call adds; operand_prep has run before. [case]: the qubits of case_indicator, [fresh]: the ancillas of the switch (one
    set of ancillas stands for those that every call of the switch allocates and gives back). *)
From Coq Require Import List ZArith QArith Qcanon Bool.
Import ListNotations.
From Verif.Inverse Require Import InvModel InvSpec.
From Verif.CtrlOps Require Import CtrlModel.
From Verif.Fourier Require Import FourierModel.
From Verif.Amplify Require Import AmpModel.
From Verif.Grover Require Import GroverModel.
From Verif.Switch Require Import SwitchModel.
Local Open Scope nat_scope.

(** LC 175: ceil(log2(num_unitaries)), an exact logarithm instead of a float *)
Definition case_size (num_unitaries : nat) : nat := Nat.log2_up num_unitaries.
(** LC 179-181 *)
Definition lcu_state_prep (case fresh : list nat) (state_prep : body) (unitary : nat -> option body) (num_unitaries : nat) : option body :=
  match q_switch false case fresh None false unitary num_unitaries with Some sw => conjugate state_prep sw | None => None end.
(** LC 165-197. None: an exception, or a case register of another size. In amplitude_amplification the inverse of LCU_state_prep is the
    inverse of its circuit; with the inverted switch it is the same operator (property C78) *)
Definition inner_LCU (case fresh operand : list nat) (state_prep : body) (unitary : nat -> option body) (num_unitaries oaa_iter : nat) : option body :=
  if length case =? case_size num_unitaries then
    match lcu_state_prep case fresh state_prep unitary num_unitaries with
    | None => None
    | Some u =>
        match oaa_iter with
        | O => Some u
        | _ =>
            match tag_state [(case, Code 0)] 1%Qc with
            | None => None
            | Some oracle =>
                match amplitude_amplification [Variable_ case; Variable_ operand] u oracle oaa_iter (Some [0]) with Some c => Some (u ++ c) | None => None end
            end
        end
    end
  else None.
