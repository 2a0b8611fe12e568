(** Model of the quantum Fourier transform (/repo/src/qrisp/alg_primitives/qft.py, QF below) and of Fourier arithmetic
    (alg_primitives/arithmetic/adders/fourier_adder.py, FA below). Circuits are lists of operations of InvModel with the positions
    of their qubits. Angles are rational multiples of pi ([Qc], unit pi); the floats of the code are exact here.
    The wrapping of the circuit into one gate (gate_wrap) is left out, the options use_gms and inpl_adder are not modelled. *)
From Coq Require Import List ZArith QArith Qcanon Ascii Bool.
Import ListNotations.
From Verif.Inverse Require Import InvModel.
From Verif.CtrlOps Require Import CtrlModel.
Local Open Scope nat_scope.

Definition zq (z : Z) : Qc := Q2Qc (inject_Z z).
Definition half : Qc := q_half.
Definition is_zero (a : Qc) : bool := if Qc_eq_dec a 0%Qc then true else false.
Definition qH (q : nat) : qop * list nat := (gH, [q]).
Definition qP (a : Qc) (q : nat) : qop * list nat := (gP a, [q]).
Definition qX (q : nat) : qop * list nat := (gX, [q]).
Definition qS (q : nat) : qop * list nat := (gS, [q]).
Definition qCX (c t : nat) : qop * list nat := (gCX, [c; t]).
Definition qCZ (c t : nat) : qop * list nat := (Ctrl [true] (Pauli PZ), [c; t]).
Definition qCP (a : Qc) (c t : nat) : qop * list nat := (Ctrl [true] (gP a), [c; t]).
Definition qSwap (a b : nat) : qop * list nat := (gSwap, [a; b]).
Definition invert_circuit (c : body) : option body := inverse_circuit Qcopp Qcplus c.
(** environments/conjugation_environment.py: conjugate(V): V, the body, the inverse of V *)
Definition conjugate (v b : body) : option body := match invert_circuit v with Some w => Some (v ++ b ++ w) | None => None end.

(** * QFT *)
(** QF 76: the phase of step k, inplace_mult * 2 * pi / 2 ** (k + 2) *)
Definition qft_phase (m : Z) (k : nat) : Qc := (zq m * zq 2 * half ^ (k + 2))%Qc.
(** QF 82-84 *)
Definition zz (phase : Qc) (a b : nat) : body := [qCX a b; qP (- phase * half)%Qc b; qCX a b].
(** QF 65-87: the inner loop for the qubit q, over the qubits after it, from step k on *)
Fixpoint qft_row (m : Z) (q k : nat) (qs : list nat) : body :=
  match qs with [] => [] | t :: qs => zz (qft_phase m k) q t ++ qft_row m q (S k) qs end.
(** QF 86: accumulated_phases[i] after the inner loop; QF 87: the phases accumulated for the qubits after i *)
Fixpoint row_sum (m : Z) (k n : nat) : Qc := match n with O => 0%Qc | S n => (qft_phase m k * half + row_sum m (S k) n)%Qc end.
Fixpoint row_acc (m : Z) (k : nat) (acc : list Qc) : list Qc :=
  match acc with [] => [] | a :: acc => (a + qft_phase m k * half)%Qc :: row_acc m (S k) acc end.
(** QF 54-87: the loop over the qubits; [acc]: accumulated_phases of the qubits that remain. Result: the gates and
    accumulated_phases after the loop. *)
Definition opt_p (a : Qc) (q : nat) : body := if is_zero a then [] else [qP a q].
Fixpoint qft_rows (m : Z) (qv : list nat) (acc : list Qc) : body * list Qc :=
  match qv, acc with
  | q :: qs, a :: acc =>
      let r := qft_rows m qs (row_acc m 0 acc) in
      (opt_p a q ++ [qH q] ++ qft_row m q 0 qs ++ fst r, row_sum m 0 (length qs) :: snd r)
  | _, _ => ([], [])
  end.
(** QF 89-92 *)
Definition qft_finals (qv : list nat) (acc : list Qc) : body := flat_map (fun '(q, a) => opt_p a q) (combine qv acc).
(** QF 131-133 *)
Definition reverse_swaps (qv : list nat) : body :=
  flat_map (fun i => [qSwap (nth i qv 0) (nth (length qv - i - 1) qv 0)]) (seq 0 (length qv / 2)).
(** QF 24-135, inpl_adder = None; None: exception of line 51 *)
Definition qft_inner (qv : list nat) (exec_swap qiskit_endian : bool) (inplace_mult : Z) : option body :=
  let qv := if qiskit_endian then rev qv else qv in
  if Z.odd inplace_mult then
    let '(c, acc) := qft_rows inplace_mult qv (repeat 0%Qc (length qv)) in
    Some (c ++ qft_finals qv acc ++ (if exec_swap then reverse_swaps qv else []))
  else None.
(** QF 138-209 *)
Definition QFT (inv : bool) (qv : list nat) (exec_swap qiskit_endian : bool) (inplace_mult : Z) : option body :=
  match qft_inner qv exec_swap qiskit_endian inplace_mult with
  | Some c => if inv then invert_circuit c else Some c
  | None => None
  end.
(** QF 212-228, jasp_qft; the loop index n - 1 - i is the position in the reversed list *)
Fixpoint jasp_row (q k : nat) (qs : list nat) : body :=
  match qs with [] => [] | t :: qs => qCP (zq 2 * half ^ (k + 2))%Qc t q :: jasp_row q (S k) qs end.
Fixpoint jasp_rows (qv : list nat) : body := match qv with [] => [] | q :: qs => qH q :: jasp_row q 0 qs ++ jasp_rows qs end.
Definition jasp_qft (qv : list nat) (exec_swap : bool) : body := jasp_rows (rev qv) ++ (if exec_swap then reverse_swaps qv else []).

(** * fourier_adder *)
(** FA 100-113, QuasiRZZ *)
Definition n_rzz : name := ["q"; "r"; "z"; "z"]%char.
Definition quasi_rzz (a : Qc) : qop := Comp n_rzz 2 0 [qCX 1 0; qP a 0; qCX 1 0] [a].
(** multiple of 2 * pi *)
Definition full_turn (a : Qc) : bool := Pos.eqb (Qden (this (a * half)%Qc)) 1.
(** FA 67-69: an integer summand, on the reversed list of qubits *)
Definition int_phases (a : Z) (b : list nat) : body :=
  flat_map (fun i => [qP (zq a * zq 2 ^ (1 + i) * half ^ length b)%Qc (nth i b 0)]) (seq 0 (length b)).
(** 2 ** (1 + j + i - len(b)) / 2 for 1 + j + i < len(b) *)
Definition pair_phase (n j i : nat) : Qc := (half ^ (n - 1 - j - i) * half)%Qc.
(** FA 79-90: one pair of qubits *)
Definition pair_gate (a b : list nat) (j i : nat) : body :=
  let n := length b in
  if n <? 1 + j + i then [] else
  if 1 + j + i =? n then [qCZ (nth j a 0) (nth i b 0)] else [(quasi_rzz (- pair_phase n j i)%Qc, [nth j a 0; nth i b 0])].
(** what FA 89-90 add to the corrections *)
Definition pair_corr (n j i : nat) : Qc := if 1 + j + i <? n then pair_phase n j i else 0%Qc.
Definition qsum (l : list Qc) : Qc := fold_right Qcplus 0%Qc l.
(** FA 75-97; the corrections are summed up front *)
Definition corr_gate (c : Qc) (q : nat) : body := if full_turn c then [] else [qP c q].
Definition quantum_phases (a b : list nat) : body :=
  let n := length b in
  flat_map (fun j => flat_map (pair_gate a b j) (seq 0 n)) (seq 0 (length a)) ++
  flat_map (fun i => corr_gate (qsum (map (fun j => pair_corr n j i) (seq 0 (length a)))) (nth i b 0)) (seq 0 n) ++
  flat_map (fun j => corr_gate (qsum (map (fun i => pair_corr n j i) (seq 0 n))) (nth j a 0)) (seq 0 (length a)).
(** FA 26-97; None: exception of line 73 *)
Definition fourier_adder (a : Z + list nat) (b : list nat) (perform_QFT : bool) : option body :=
  let phases := match a with inl k => Some (int_phases k (rev b)) | inr a => if length b <? length a then None else Some (quantum_phases a (rev b)) end in
  match phases with
  | None => None
  | Some p => if perform_QFT then match QFT false b false true 1 with Some v => conjugate v p | None => None end else Some p
  end.
