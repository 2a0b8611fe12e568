(** Model of hybrid_mult and q_mult (/repo/src/qrisp/alg_primitives/arithmetic/SBP_arithmetic.py, SB below), outside tracing. Angles
    are exact. *)
From Coq Require Import List ZArith QArith Qcanon Bool Arith.
Import ListNotations.
From Verif.Inverse Require Import InvModel.
From Verif.CtrlOps Require Import CtrlModel.
From Verif.Fourier Require Import FourierModel.
From Verif.QFloat Require Import QFModel.
From Verif.Sbp Require Import SbpModel.
Local Open Scope nat_scope.

(** cx(c, ts) *)
Definition fan (c : nat) (ts : list nat) : body := map (fun t => qCX c t) ts.
(** SB 595-617, U_g_inpl_adder on the qubits [reg]; [m]: modified_var.msize; [k]: mult_factor / 2**modified_var.exponent. The coefficients
    of sympy's dictionary, reversed, are those of the qubits in order; none is 0 if m >= size. *)
Definition adder (reg : list nat) (m : nat) (f : shape) (qs : list nat) (k : Z) : body :=
  flat_map (fun '(w, q) => multi_controlled_U_g reg [q] (k * w) 0) (combine (sb_poly f m) qs).
(** SB 136, 163, 175: the phase that multi_controlled_U_g returns *)
Definition applied_phase (reg : list nat) (y : Z) : Qc := qsum (map (fun i => rotation y i * half)%Qc (seq 0 (length reg))).
(** SB 814-816, 831-833: the phases of the flipped register taken back, on the ancilla [h] *)
Definition take_back (reg : list nat) (m : nat) (f : shape) (qs : list nat) (k : Z) (h : nat) : body :=
  flat_map (fun '(w, q) => [qCP (- applied_phase reg (k * w) * zq 2)%Qc q h]) (combine (sb_poly f m) qs).
(** SB 769-875, without initial and terminal operation: [reg]: the qubits of output_qf after line 731, [m]: its msize; [x], [y]: the
    factors after line 710; [corr]: hybrid_mult_anc, if it is used (SB 809) *)
Definition mantissa_bit (i : nat) (qy : list nat) : nat := nth i qy 0.
Definition sign_bit (y : shape) (qy : list nat) : nat := nth (msize y) qy 0.
Definition mantissa_bits (y : shape) (qy : list nat) : list nat := firstn (msize y) qy.
Definition round_ (reg : list nat) (m : nat) (x y : shape) (qx qy : list nat) (k : Z) (corr : option nat) (i : nat) : body :=
  adder reg m x qx (- 2 ^ Z.of_nat i * k) ++
  match corr with
  | Some h => (if i =? 0 then [] else [qCX (mantissa_bit (i - 1) qy) h]) ++ [qCX (mantissa_bit i qy) h] ++ take_back reg m x qx (- 2 ^ Z.of_nat i * k) h
  | None => []
  end ++
  (if i =? msize y - 1 then if signed y then [] else fan (mantissa_bit i qy) reg
   else [qCX (mantissa_bit i qy) (mantissa_bit (i + 1) qy)] ++ fan (mantissa_bit (i + 1) qy) reg ++ [qCX (mantissa_bit i qy) (mantissa_bit (i + 1) qy)]).
Definition hybrid_core (reg : list nat) (m : nat) (x y : shape) (qx qy : list nat) (k : Z) (corr : option nat) : body :=
  let sign := sign_bit y qy in
  let k0 := (k * (2 ^ Z.of_nat (msize y) - 1 + if signed y then 1 else 0))%Z in
  let last := mantissa_bit (msize y - 1) qy in
  (if signed y then adder reg m x qx (- 1 * k) ++ fan sign reg ++ fan sign (mantissa_bits y qy) else []) ++
  adder reg m x qx k0 ++
  match corr with Some h => if signed y then [qCX sign h] ++ take_back reg m x qx k0 h else [] | None => [] end ++
  fan (mantissa_bit 0 qy) reg ++
  flat_map (round_ reg m x y qx qy k corr) (seq 0 (msize y)) ++
  match corr with Some h => [qCX last h] ++ if signed y then [qCX sign h] else [] | None => [] end ++
  (if signed y then [qCX last sign] ++ fan sign reg ++ [qCX last sign] ++ fan sign (mantissa_bits y qy) else []).
Inductive init_op := InitH | InitQFT | InitNone.
(** SB 746-751; [anc]: the qubit of line 731 *)
Definition initial (i : init_op) (anc : nat) (out : list nat) : option body :=
  match i with
  | InitH => Some (map qH (anc :: out))
  | InitQFT => QFT false (anc :: out) false true 1
  | InitNone => Some [qH anc]
  end.
(** SB 883-884, 886-894 *)
Definition phase_fix (o : shape) (out : list nat) : body :=
  flat_map (fun i => [qP (- zq 2 * zq 2 ^ i * half ^ (length out + 1))%Qc (nth i out 0)]) (seq 0 (length out)) ++
  (if signed o then [(Pauli PZ, [nth (length out - 1) out 0])] else []).
(** SB 712-903, the roles of the factors being settled; [o]: shape of output_qf, [cl]: cl_factor (an integer), [tolerant]: phase_tolerant;
    [anc]: the qubit added in line 731, [h]: hybrid_mult_anc. None: y without mantissa (exception); or an output coarser than the
    product, for which the code works with fractions (not modelled) *)
Definition hybrid_run (x y o : shape) (qx qy out : list nat) (init : init_op) (qft : bool) (tolerant : bool) (cl : Z) (anc h : nat) : option body :=
  if (0 <? msize y) && (expo o <=? expo x + expo y)%Z then
    let k := (cl * 2 ^ (expo x + expo y - expo o))%Z in
    let core := hybrid_core (anc :: out) (msize o + 1) x y qx qy k (if negb tolerant && negb qft then Some h else None) in
    match initial init anc out, (if qft then QFT true out false true 1 else Some []) with
    | Some v, Some w => Some (v ++ core ++ [qH anc] ++ w ++ (if negb tolerant && qft then phase_fix o out else []))
    | _, _ => None
    end
  else None.
(** SB 634-903 with a given output *)
Definition hybrid_mult_into (a b o : shape) (qa qb out : list nat) (init : init_op) (qft tolerant : bool) (cl : Z) (anc h : nat) : option body :=
  if size b <? size a then hybrid_run a b o qa qb out init qft tolerant cl anc h else hybrid_run b a o qb qa out init qft tolerant cl anc h.
(** SB 634-903 with the default arguments: the shape of the output is that of create_output_qf([y, x], op="mul") (SB 726), moved by both
    exponents (SB 896). SB 926: q_mult calls it for different registers, and QuantumFloat.__mul__ (quantum_float.py:502-503) that. *)
Definition hybrid_mult (a b : shape) (qa qb out : list nat) (cl : Z) (anc h : nat) : option (shape * body) :=
  let o := if size b <? size a then out_shape Mul false b a else out_shape Mul false a b in
  match hybrid_mult_into a b o qa qb out InitH true false cl anc h with Some c => Some (o, c) | None => None end.
(** SB 907-926, q_mult with method "auto" for different registers: the target is not passed on *)
Definition q_mult (a b : shape) (qa qb : list nat) (target : option (list nat)) (fresh : list nat) (anc h : nat) : option (shape * body) :=
  hybrid_mult a b qa qb fresh 1 anc h.
