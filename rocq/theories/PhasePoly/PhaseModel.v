(** Model of phase polynomials: app_sb_phase_polynomial and app_phase_polynomial of
    /repo/src/qrisp/alg_primitives/arithmetic/SBP_arithmetic.py (SB below), outside tracing. *)
From Coq Require Import List ZArith QArith Qcanon Bool Arith.
Import ListNotations.
From Verif.Inverse Require Import InvModel.
From Verif.CtrlOps Require Import CtrlModel.
From Verif.Fourier Require Import FourierModel.
From Verif.QFloat Require Import QFModel.
From Verif.Sbp Require Import SbpModel.
Local Open Scope nat_scope.

(** circuit/standard_operations.py:278-293 *)
Definition gGPhase (a : Qc) : qop := mk_u3 Qcplus n_gphase 0%Qc 0%Qc 0%Qc a.
(** mcp (core/gate_application_functions.py:732-828) with the default control state, as the controlled phase gate it stands for: its
    circuits for fewer than four qubits are those of C64, for four and more those of C63. *)
Definition mcp (a : Qc) (qs : list nat) : body := match qs with [q] => [qP a q] | _ => [(Ctrl (repeat true (length qs - 1)) (gP a), qs)] end.
(** the sum and the composition of circuits with exceptions *)
Fixpoint join (l : list (option body)) : option body :=
  match l with
  | [] => Some []
  | Some c :: l => match join l with Some d => Some (c ++ d) | None => None end
  | None :: _ => None
  end.
Fixpoint lookup (qubits : list nat) (vars : list nat) : option (list nat) :=
  match vars with
  | [] => Some []
  | v :: vars => match nth_error qubits v, lookup qubits vars with Some q, Some qs => Some (q :: qs) | _, _ => None end
  end.
(** SB 1167-1206: one monomial: a coefficient (in units of pi; t and the coefficients are exact rationals here, floats in the code) and
    its variables, as positions in symbol_list, with multiplicity (monomial_to_list, poly_tools.py:40-63, divides by the variables one
    by one, so that powers filter_pow has left are unrolled). The order of the control qubits (SB 1190) is not modelled. None: a
    variable outside symbol_list, which the code makes part of a symbolic coefficient; or a constant without a qubit to put it on *)
Definition phase_monomial (qubits : list nat) (t : Q) (m : monomial) : option body :=
  match lookup qubits (snd m) with
  | None => None
  | Some l =>
      match nodup Nat.eq_dec l with
      | [] => match qubits with [] => None | q :: _ => Some [(gGPhase (Q2Qc (fst m * t)), [q])] end
      | qs => Some (mcp (Q2Qc (fst m * t)) qs)
      end
  end.
(** SB 1086-1206; [symbols]: the length of symbol_list. Monomials with the same variables are merged by sympy, here they are not. *)
Definition app_sb_phase_polynomial (regs : list (list nat)) (symbols : nat) (p : list monomial) (t : Q) : option body :=
  if symbols =? length (concat regs) then join (map (phase_monomial (concat regs) t) p) else None.

(** SB 1333-1340: the polynomial of one QuantumFloat in the symbols [syms] *)
Definition float_poly (f : shape) (syms : list nat) : list monomial :=
  register_poly f 0 syms ++ (if signed f then [((- pw (Z.of_nat (msize f) + 2 + expo f))%Q, [nth (msize f) syms 0])] else []).
(** SB 1333-1343: the polynomials of all QuantumFloats, the symbols of each after those of the earlier ones *)
Fixpoint float_polys (off : nat) (fs : list shape) : list (list monomial) :=
  match fs with [] => [] | f :: fs => float_poly f (seq off (size f)) :: float_polys (off + size f) fs end.
(** SB 1345-1350: substitution and expansion *)
Definition substitute (subst : list (list monomial)) (p : list monomial) : list monomial :=
  flat_map (fun m => fold_right (fun v acc => times_poly (nth v subst []) acc) [(fst m, [])] (snd m)) p.
(** SB 1210-1353. None: exception, or a variable outside symbol_list *)
Definition app_phase_polynomial (floats : list (shape * list nat)) (symbols : nat) (p : list monomial) (t : Q) : option body :=
  if (symbols =? length floats) && forallb (fun m => forallb (fun v => v <? symbols) (snd m)) p
  then app_sb_phase_polynomial (map snd floats) (length (concat (map (fun f => seq 0 (size (fst f))) floats))) (substitute (float_polys 0 (map fst floats)) p) t
  else None.
