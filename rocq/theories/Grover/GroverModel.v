(** Model of tag_state, diffuser and grovers_alg outside tracing (/repo/src/qrisp/algorithms/grover/grover_tools.py, GR below). Circuits,
    angles (unit pi) and arguments as in Amplify/AmpModel.v; the oracle is given by the circuit that one call adds. *)
From Coq Require Import List ZArith QArith Qcanon Bool Reals.
Import ListNotations.
From Verif.Inverse Require Import InvModel InvSpec.
From Verif.CtrlOps Require Import CtrlModel.
From Verif.Fourier Require Import FourierModel.
From Verif.Amplify Require Import AmpModel.
Local Open Scope nat_scope.

(** what the dictionary of tag_state has for a QuantumVariable: with binary_values a string of bits, highest first, otherwise a label,
    here by its number under the encoder of the variable *)
Inductive tag := Code (n : Z) | Bits (s : list bool).
(** misc/utility.py 40-47, read from the end ([::-1]): the bits of n, lowest first; a variable without qubits still gets one digit *)
Definition bin_rep_reversed (n : Z) (bits : nat) : option (list bool) :=
  if (n <? 0)%Z || (2 ^ Z.of_nat bits <=? n)%Z then None
  else match bits with O => Some [false] | _ => Some (map (fun i => Z.testbit n (Z.of_nat i)) (seq 0 bits)) end.
(** GR 203-206 *)
Definition tag_bits (reg : list nat) (t : tag) : option (list bool) :=
  match t with Bits s => Some (rev s) | Code n => bin_rep_reversed n (length reg) end.
(** GR 202-206, the loop over the dictionary *)
Fixpoint tag_string (d : list (list nat * tag)) : option (list bool) :=
  match d with
  | [] => Some []
  | (reg, t) :: d => match tag_bits reg t, tag_string d with Some b, Some s => Some (b ++ s) | _, _ => None end
  end.
(** mcz (core/gate_application_functions.py 712-727, method "auto") and mcp (794-807, 821-826) on front ++ [last] with the control state
    ctrl ++ "1". One qubit: z has no control state (722). ControlledOperation refuses a control state of the wrong length
    (circuit/operation.py 653). The multi-controlled phase of four or more qubits is a single operation here: property C63 is about its
    circuit. *)
Definition tag_gate (front : list nat) (last : nat) (ctrl : list bool) (phase : Qc) : option body :=
  if Qc_eq_bool phase 1%Qc then
    match front with
    | [] => Some [(Pauli PZ, [last])]
    | _ => if length ctrl =? length front then Some [(Ctrl ctrl (Pauli PZ), front ++ [last])] else None
    end
  else if length ctrl =? length front then
    match front with [] => Some [qP phase last] | _ => Some [(Ctrl ctrl (gP phase), front ++ [last])] end
  else None.
(** GR 194-223. None: an exception; without qubits state[-1] fails *)
Definition tag_state (d : list (list nat * tag)) (phase : Qc) : option body :=
  match tag_string d with
  | None => None
  | Some state =>
      match rev state, split_last (concat (map fst d)) with
      | b :: s, Some (front, last) =>
          match tag_gate front last (rev s) phase with
          | None => None
          | Some c => Some ((if b then [] else [qX last]) ++ c ++ (if b then [] else [qX last]))
          end
      | _, _ => None
      end
  end.
(** h(arg) for every argument: GR 117-118, 428-432, core/gate_application_functions.py 94ff.; every qubit of every register gets one *)
Definition h_all (a : list qarg) : body := map qH (concat (flattened a)).
(** GR 114-122 *)
Definition diffuser (a : list qarg) (phase : Qc) (state : option body) (indices : option (list nat)) : option body :=
  reflection a (Some (match state with Some u => u | None => h_all a end)) phase indices.
(** GR 428-432 and 443-454 for a number of iterations that is given: the environment repeats what is recorded in it
    (environments/iteration_environment.py) *)
Definition grovers_alg (a : list qarg) (oracle : body) (iterations : nat) (phase : Qc) : option body :=
  match iterations with
  | O => Some (h_all a)
  | _ => match diffuser a phase None None with Some r => Some (h_all a ++ concat (repeat (oracle ++ r) iterations)) | None => None end
  end.
(** GR 399-412: the number of basis states *)
Definition states_amount (a : list qarg) : nat := 2 ^ list_sum (map (@length nat) (flattened a)).
(** GR 424-426: the default number of iterations, for N states and M winners: the integer nearest to pi/4 sqrt(N/M). Real numbers instead
    of floats, so the relation leaves the rounding of the floats some room: k is one of the integers nearest to a number that is
    not farther than 1/100 from it. *)
Definition default_iterations (N M : nat) (k : nat) : Prop :=
  exists x : R, (Rabs (x - PI / 4 * sqrt (INR N / INR M)) <= 1 / 100 /\ Rabs (INR k - x) <= 1 / 2)%R.
(** GR 418-422, with real numbers instead of floats: theta, the number of iterations (the ceiling of pi / (4 theta) - 1/2) and phi *)
Definition exact_theta (N M : nat) : R := asin (sqrt (INR M / INR N)).
Definition exact_iterations (N M k : nat) : Prop := (INR k - 1 < PI / (4 * exact_theta N M) - 1 / 2 <= INR k)%R.
Definition exact_phi (N M k : nat) : R := (2 * asin (sin (PI / (4 * (INR k - 1) + 6)) * sqrt (INR N / INR M)))%R.
