(** Model of reflection (/repo/src/qrisp/alg_primitives/reflection.py, RF below), amplitude_amplification
    (alg_primitives/amplitude_amplification.py, AA below) and QAE (alg_primitives/qae.py, QE below), outside tracing. Circuits are lists
    of operations of InvModel with the positions of their qubits; angles are rational multiples of pi ([Qc], unit pi). The user's
    functions state_function and oracle_function are given by the circuits that a call adds. *)
From Coq Require Import List ZArith QArith Qcanon Bool.
Import ListNotations.
From Verif.Inverse Require Import InvModel InvSpec.
From Verif.CtrlOps Require Import CtrlModel.
From Verif.Fourier Require Import FourierModel.
From Verif.PhasePoly Require Import PhaseModel.
From Verif.Qpe Require Import QpeModel.
Local Open Scope nat_scope.

(** an argument: a QuantumVariable (its register) or a one-dimensional QuantumArray (the registers of its elements) *)
Inductive qarg := Variable_ (reg : list nat) | Array_ (regs : list (list nat)).
(** RF 178-186: the list of all QuantumVariables *)
Definition flattened (a : list qarg) : list (list nat) := flat_map (fun x => match x with Variable_ r => [r] | Array_ rs => rs end) a.
(** RF 188-189; None: an index out of range (IndexError) *)
Fixpoint pick (vs : list (list nat)) (is : list nat) : option (list nat) :=
  match is with
  | [] => Some []
  | i :: is => match nth_error vs i, pick vs is with Some r, Some l => Some (r ++ l) | _, _ => None end
  end.
Definition reflected (a : list qarg) (indices : option (list nat)) : option (list nat) :=
  pick (flattened a) (match indices with Some is => is | None => seq 0 (length (flattened a)) end).
(** RF 192-208, for qubits = front ++ [last]. phase == np.pi (angle 1): 194-205, otherwise 207-208, core/gate_application_functions.py
    794-806. The multi-controlled X and the multi-controlled phase are single operations here: properties C39, C40, C63 are about their
    circuits. *)
Definition inner_reflection (front : list nat) (last : nat) (phase : Qc) : body :=
  if Qc_eq_bool phase 1%Qc then
    [qX last] ++
    (match front with [] => [(Pauli PZ, [last])] | _ => [qH last; (Ctrl (repeat false (length front)) (Pauli PX), front ++ [last]); qH last] end) ++
    [qX last]
  else [qX last] ++ (match front with [] => [qP phase last] | _ => [(Ctrl (repeat false (length front)) (gP phase), front ++ [last])] end) ++ [qX last].
(** front and last qubit; qubits[-1] of an empty list is an IndexError *)
Definition split_last (l : list nat) : option (list nat * nat) :=
  match rev l with [] => None | q :: r => Some (rev r, q) end.
(** the qubits that qargs[0][0] stands for in RF 221: a qubit of a QuantumVariable, an element of a QuantumArray (core/quantum_array.py
    247-287); gphase applies the gate on each of them (circuit/quantum_circuit.py append; property C33) *)
Definition phase_qubits (a : list qarg) : option (list nat) :=
  match a with
  | Variable_ (q :: _) :: _ => Some [q]
  | Array_ (r :: _) :: _ => Some r
  | _ => None
  end.
(** RF 162-221. invert() of the circuit of state_function, then the inner reflection, then the inverse of the inverse; None: exception *)
Definition reflection (a : list qarg) (state : option body) (phase : Qc) (indices : option (list nat)) : option body :=
  match a with
  | [] => Some []
  | _ =>
      match reflected a indices with
      | Some qubits =>
          match split_last qubits, phase_qubits a with
          | Some (front, last), Some ps =>
              let inner := inner_reflection front last phase in
              let sign := map (fun q => (gGPhase 1%Qc, [q])) ps in
              match state with
              | None => Some (inner ++ sign)
              | Some u =>
                  match invert_circuit u with
                  | Some v => match conjugate v inner with Some c => Some (c ++ sign) | None => None end
                  | None => None
                  end
              end
          | _, _ => None
          end
      | None => None
      end
  end.
(** AA 126-150: iter times the oracle and the reflection; environments/iteration_environment.py repeats the recorded circuit *)
Definition amplitude_amplification (a : list qarg) (state oracle : body) (iter : nat) (indices : option (list nat)) : option body :=
  match iter with
  | O => Some []
  | _ => match reflection a (Some state) 1%Qc indices with Some r => Some (concat (repeat (oracle ++ r) iter)) | None => None end
  end.
(** QE 203-215: the state is prepared, then phase estimation with iter_spec of amplitude_amplification *)
Definition qae (a : list qarg) (state oracle : body) (res : list nat) : option body :=
  match amplitude_amplification a state oracle 1 None with
  | None => None
  | Some _ =>
      match qpe (fun i => match amplitude_amplification a state oracle (match i with Some i => i | None => 1 end) None with Some c => c | None => [] end) true res with
      | Some c => Some (state ++ c)
      | None => None
      end
  end.
