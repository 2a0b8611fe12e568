(** Property C69: phase polynomials. *)
From Coq Require Import List ZArith Bool Lia Arith QArith Qcanon Ring_theory.
Import ListNotations.
From Verif.Inverse Require Import InvModel InvSpec.
From Verif.CtrlOps Require Import CtrlModel CtrlSpec CtrlComplex.
From Verif.QFloat Require Import QFModel QFSpec.
From Verif.Fourier Require Import FourierModel FourierSpec.
From Verif.Sbp Require Import SbpModel SbpSpec.
From Verif.PhasePoly Require Import PhaseModel PhaseSpec PhaseProofs.
Local Open Scope nat_scope.

Section phases.
Context {R : Type} (rO rI : R) (radd rmul rsub : R -> R -> R) (ropp : R -> R) (RT : ring_theory rO rI radd rmul rsub ropp eq).
Context (expi chalf shalf : Qc -> R) (im : R) (EU : euler rO rI radd rmul ropp expi chalf shalf im).
Notation run := (run_circuit Qcplus rO rI radd rmul ropp expi chalf shalf im).
Notation amp := (list bool -> R).

(** A polynomial in qubits: every basis state is multiplied by exp(i t P), P being the polynomial with the qubits' values as 0 and 1. *)
Theorem C69_qubits : forall regs symbols p t c, app_sb_phase_polynomial regs symbols p t = Some c ->
  forall (psi : amp) x, run c psi x = rmul (expi (Q2Qc (t * evaluate (map (fun q => bit (getbit x q)) (concat regs)) p))) (psi x).
Proof. intros regs s p t c H psi x. exact (diag_sb rO rI radd rmul rsub ropp RT expi chalf shalf im EU (length x) regs s p t c H psi x eq_refl). Qed.
(** A polynomial in QuantumFloats of any shapes, signed ones included: exp(i t P) with the numbers the registers stand for. *)
Theorem C69_floats : forall floats symbols p t c, app_phase_polynomial floats symbols p t = Some c -> (forall f qs, In (f, qs) floats -> length qs = size f) ->
  forall (psi : amp) x, run c psi x = rmul (expi (Q2Qc (t * evaluate (map (fun '(f, qs) => holds f x qs) floats) p))) (psi x).
Proof.
  intros floats s p t c H L psi x. rewrite (diag_floats rO rI radd rmul rsub ropp RT expi chalf shalf im EU (length x) floats s p t c H) by (try reflexivity; intros [f qs] I; exact (L f qs I)).
  do 5 f_equal. apply map_ext. intros [f qs]. reflexivity.
Qed.
(** x^2 y + 1/2 times 1/3 at x = -1/2 (a signed QuantumFloat) and y = 1 is a quarter (of pi) *)
Example C69_ex_floats : exists c, app_phase_polynomial [(mk 2 (-1) true, [0; 1; 2]); (mk 2 0 false, [3; 4])] 2 [(1%Q, [0; 0; 1]); (1 # 2, [])] (1 # 3) = Some c /\
  forall psi : amp, run c psi [true; true; true; true; false] = rmul (expi (Q2Qc (1 # 4))) (psi [true; true; true; true; false]).
Proof.
  eexists. split; [reflexivity|]. intros psi. rewrite (C69_floats [(mk 2 (-1) true, [0; 1; 2]); (mk 2 0 false, [3; 4])] 2 [(1%Q, [0; 0; 1]); (1 # 2, [])] (1 # 3)); [|reflexivity|intros f qs [E|[E|[]]]; injection E as <- <-; reflexivity].
  do 2 f_equal. apply Qc_is_canon. vm_compute. reflexivity.
Qed.
Example C69_ex_qubits : exists c, app_sb_phase_polynomial [[0; 1]; [2]] 3 [(1%Q, [0; 1; 2]); (3 # 2, [1; 1]); (2%Q, [])] (1 # 2) = Some c /\
  forall psi : amp, run c psi [false; true; true] = rmul (expi (Q2Qc (7 # 4))) (psi [false; true; true]).
Proof.
  eexists. split; [reflexivity|]. intros psi. rewrite (C69_qubits [[0; 1]; [2]] 3 [(1%Q, [0; 1; 2]); (3 # 2, [1; 1]); (2%Q, [])] (1 # 2)) by reflexivity. apply (f_equal2 rmul); [|reflexivity]. apply (f_equal expi). apply Qc_is_canon. vm_compute. reflexivity.
Qed.
End phases.
(** There is a circuit whenever the numbers of variables match; the exception is raised otherwise. *)
Theorem C69_qubits_defined : forall regs symbols p t, concat regs <> [] ->
  (exists c, app_sb_phase_polynomial regs symbols p t = Some c) <-> symbols = length (concat regs) /\ forall k vs v, In (k, vs) p -> In v vs -> v < symbols.
Proof.
  intros regs s p t NE. rewrite sb_some. split.
  - intros [E H]. split; [exact E|]. intros k vs v I J. exact (proj2 (H _ I) v J).
  - intros [E H]. split; [exact E|]. intros [k vs] I. split; [exact NE|]. intros v J. exact (H k vs v I J).
Qed.
Theorem C69_floats_defined : forall floats symbols p t, (forall f qs, In (f, qs) floats -> length qs = size f) -> concat (map snd floats) <> [] ->
  (exists c, app_phase_polynomial floats symbols p t = Some c) <-> symbols = length floats /\ forall k vs v, In (k, vs) p -> In v vs -> v < symbols.
Proof.
  intros floats s p t L NE. rewrite floats_some; [|intros [f qs] I; exact (L f qs I)|exact NE]. split.
  - intros [E H]. split; [exact E|]. intros k vs v I J. exact (H _ I v J).
  - intros [E H]. split; [exact E|]. intros [k vs] I v J. exact (H k vs v I J).
Qed.
(** complex amplitudes meet the hypotheses *)
Example C69_ex_complex : exists c, app_sb_phase_polynomial [[0; 1]] 2 [(1%Q, [0; 1])] 1 = Some c /\
  forall psi, run_circuit Qcplus c0 c1 cadd cmul copp cexpi ccos csin ci c psi [true; true] = cmul (cexpi (Q2Qc 1)) (psi [true; true]).
Proof.
  eexists. split; [reflexivity|]. intros psi. rewrite (C69_qubits c0 c1 cadd cmul csub copp complex_ring cexpi ccos csin ci complex_euler [[0; 1]] 2 [(1%Q, [0; 1])] 1) by reflexivity. apply (f_equal2 cmul); [|reflexivity]. apply (f_equal cexpi). apply Qc_is_canon. vm_compute. reflexivity.
Qed.
Print Assumptions C69_qubits.
Print Assumptions C69_floats.
Print Assumptions C69_qubits_defined.
Print Assumptions C69_floats_defined.
