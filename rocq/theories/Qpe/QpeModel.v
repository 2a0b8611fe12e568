(** Model of quantum phase estimation (/repo/src/qrisp/alg_primitives/qpe.py, QP below) and of iterative phase estimation
    (alg_primitives/iterative_qpe.py, IQ below). Circuits are lists of operations of InvModel with the positions of their qubits;
    angles are rational multiples of pi ([Qc], unit pi). The user's function U is given by the circuit that a call adds:
    [U None] for a call without the keyword iter, [U (Some i)] for a call with iter = i. Calls of U that allocate qubits leave the
    state alone in this semantics; U does not act on the qubits of the estimate. *)
From Coq Require Import List ZArith QArith Qcanon Bool.
Import ListNotations.
From Verif.Inverse Require Import InvModel InvSpec.
From Verif.CtrlOps Require Import CtrlModel.
From Verif.Fourier Require Import FourierModel.
Local Open Scope nat_scope.

Definition is_barrier (o : qop) : bool := match o with Barrier _ => true | _ => false end.
(** with control(q): environments/control_environment.py 237-339, for one control qubit with control state 1 that does not occur in the
    environment, outside other environments: allocations and barriers stay (263-268), every other instruction is replaced by its
    controlled version (329-338); property C46 is about the definition of controlled operations *)
Definition control_on (q : nat) (c : body) : body :=
  map (fun i => let '(o, qs) := i in if (is_alloc o || is_barrier o)%bool then (o, qs) else (controlled [true] o, q :: qs)) c.
(** QP 133-139: the circuit of one controlled block before the control is added, 2 ** i applications *)
Definition applications (U : option nat -> body) (iter_spec : bool) (i : nat) : body :=
  if iter_spec then U (Some (2 ^ i)) else concat (repeat (U None) (2 ^ i)).
(** QP 130-141 for a target register res *)
Definition qpe (U : option nat -> body) (iter_spec : bool) (res : list nat) : option body :=
  match QFT true res true true 1 with
  | Some w => Some (map qH res ++ flat_map (fun i => control_on (nth i res 0) (applications U iter_spec i)) (seq 0 (length res)) ++ w)
  | None => None
  end.

(** IQ 87-99: the circuit of iteration i on the qubit q; theta: the estimate so far (a fraction). rz(-np.pi * theta) *)
Definition iqpe_iteration (U : option nat -> body) (iter_spec : bool) (precision : nat) (q i : nat) (theta : Qc) : body :=
  [qH q] ++ control_on q (applications U iter_spec (precision - i)) ++ [(gRZ (- theta)%Qc, [q])] ++ [qH q].
(** IQ 102 *)
Definition iqpe_next (theta : Qc) (r : bool) : Qc := ((theta + (if r then 1 else 0)) / (1 + 1))%Qc.
Section amplitudes.
Context {R : Type} (rO rI : R) (radd rmul : R -> R -> R) (ropp : R -> R) (expi chalf shalf : Qc -> R) (im : R).
(** IQ 100-101: the (unnormalised) state after the outcome r; the qubit is deleted, the next iteration takes a qubit in state 0 *)
Definition collapse (q : nat) (r : bool) (psi : list bool -> R) : list bool -> R := fun x => if getbit x q then rO else psi (setbit x q r).
(** the outcome r is possible: some basis state with it has an amplitude that is not 0 *)
Definition possible (N q : nat) (r : bool) (psi : list bool -> R) : Prop := exists x, length x = N /\ getbit x q = r /\ psi x <> rO.
(** IQ 87-104, from iteration i on, for a sequence of possible outcomes: estimate and state at the end *)
Inductive iqpe_run (U : option nat -> body) (iter_spec : bool) (precision N q : nat) :
  nat -> Qc -> (list bool -> R) -> Qc -> (list bool -> R) -> Prop :=
| iqpe_done theta psi : iqpe_run U iter_spec precision N q precision theta psi theta psi
| iqpe_step i theta psi r theta' psi' : i < precision ->
    let phi := run_circuit Qcplus rO rI radd rmul ropp expi chalf shalf im (iqpe_iteration U iter_spec precision q i theta) psi in
    possible N q r phi -> iqpe_run U iter_spec precision N q (S i) (iqpe_next theta r) (collapse q r phi) theta' psi' ->
    iqpe_run U iter_spec precision N q i theta psi theta' psi'.
End amplitudes.
