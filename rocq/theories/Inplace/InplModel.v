(** Model of in-place multiplication of QuantumFloats by numbers and of bit shifts on the quantum device
    (/repo/src/qrisp/alg_primitives/arithmetic/SBP_arithmetic.py, SB below), outside tracing. Registers are lists of positions, lowest
    qubit first; new qubits are taken from a list of fresh ones. Angles are exact rational multiples of pi (CPGate of the code
    leaves out angles below 1e-8). *)
From Coq Require Import List ZArith QArith Qround Qcanon Bool Arith.
Import ListNotations.
From Verif.Inverse Require Import InvModel.
From Verif.CtrlOps Require Import CtrlModel.
From Verif.Fourier Require Import FourierModel.
From Verif.QFloat Require Import QFModel.
From Verif.Iterables Require Import IterModel.
Local Open Scope nat_scope.

(** SB 949, 952, 958: the angle f * 2 * pi / 2 ** (k + 2) *)
Definition cp_angle (f : Z) (k : nat) : Qc := (zq f * zq 2 * half ^ (k + 2))%Qc.
(** SB 947-952: one pass of the inner loop for the qubit q, over the qubits after it, from k on; the last one is special *)
Fixpoint forward_row (m : Z) (q k : nat) (qs : list nat) : body :=
  match qs with
  | [] => []
  | t :: qs => qCP (cp_angle (match qs with [] => m - 1 | _ => m end)%Z k) t q :: forward_row m q (S k) qs
  end.
(** SB 940-952 *)
Fixpoint forward (m : Z) (qv : list nat) : body :=
  match qv with
  | [] => []
  | q :: qs => match qs with [] => [] | _ => qH q :: forward_row m q 0 qs ++ forward m qs end
  end.
(** SB 956-958, in reverse order of k *)
Fixpoint backward_row (q k : nat) (qs : list nat) : body :=
  match qs with
  | [] => []
  | t :: qs => backward_row q (S k) qs ++ match qs with [] => [] | _ => [qCP (cp_angle (-1) k) t q] end
  end.
(** SB 955-961, in reverse order of i *)
Fixpoint backward (qv : list nat) : body :=
  match qv with
  | [] => []
  | q :: qs => match qs with [] => [] | _ => backward qs ++ backward_row q 0 qs ++ [qH q] end
  end.
(** SB 929-963; None: exception of line 937 *)
Definition QFT_inpl_mult (qv : list nat) (m : Z) : option body :=
  let qv := rev qv in if Z.odd m then Some (forward m qv ++ backward qv) else None.

(** core/quantum_variable.py 833-889: new qubits at a position *)
Definition extend (reg : list nat) (position : nat) (new : list nat) : list nat := firstn position reg ++ new ++ skipn position reg.
(** iterable_processing.py cyclic_shift (IterModel) as gates; swaps of a qubit with itself, which do not occur, are left out *)
Definition swap_gates (sw : list (nat * nat)) : body := flat_map (fun '(a, b) => if a =? b then [] else [qSwap a b]) sw.
(** SB 1068-1082 for a classical shift: shape and register afterwards, the gates and the fresh qubits left. None: exceptions, or too few fresh
    qubits *)
Definition shift_register (f : shape) (q : list nat) (s : Z) (treat_overflow : bool) (fresh : list nat) : option (shape * list nat * list nat) :=
  let k := Z.to_nat (Z.abs s) in
  if treat_overflow then
    if length fresh <? k then None else
    let new := firstn k fresh in
    if (0 <? s)%Z then Some (mk (msize f + k) (expo f) (signed f), extend q (if signed f then size f - 1 else size f) new, skipn k fresh)
    else Some (mk (msize f + k) (expo f + s) (signed f), extend q 0 new, skipn k fresh)
  else Some (f, q, fresh).
Definition quantum_bit_shift (f : shape) (q : list nat) (s : Z) (treat_overflow : bool) (fresh : list nat) : option (shape * list nat * body * list nat) :=
  match shift_register f q s treat_overflow fresh with
  | None => None
  | Some (f', q', fresh') =>
      match cyclic_shift (if signed f then removelast q' else q') s with Some sw => Some (f', q', swap_gates sw, fresh') | None => None end
  end.
(** SB 1058-1066: shift by an unsigned QuantumFloat on the qubits [sh], for each qubit of significance i a controlled shift by 2 ** i. The
    control environment controls the gates, not the allocation of qubits. *)
Definition controlled (c : nat) (g : body) : body := map (fun '(o, qs) => (Ctrl [true] o, c :: qs)) g.
Fixpoint quantum_shift_loop (f : shape) (q : list nat) (i : Z) (sh : list nat) (fresh : list nat) : option (shape * list nat * body * list nat) :=
  match sh with
  | [] => Some (f, q, [], fresh)
  | c :: sh =>
      if (i <? 0)%Z then None else
      match quantum_bit_shift f q (2 ^ i) true fresh with
      | None => None
      | Some (f, q, g, fresh) =>
          match quantum_shift_loop f q (i + 1) sh fresh with Some (f, q, g', fresh) => Some (f, q, controlled c g ++ g', fresh) | None => None end
      end
  end.
Definition quantum_quantum_bit_shift (f : shape) (q : list nat) (g : shape) (sh : list nat) (fresh : list nat) : option (shape * list nat * body * list nat) :=
  if signed g || signed f then None else quantum_shift_loop f q (expo g) sh fresh.

(** SB 1018-1035: odd factor and bit shift. None: exception of line 1027, or still running after [fuel] rounds *)
Definition split_factor (fuel : nat) (mult : Q) : option (Z * Z) :=
  if Qeq_bool (inject_Z (qtrunc mult)) mult then odd_part fuel (qtrunc mult) 0
  else match find (fun i => let c := (inject_Z (2 ^ Z.of_nat i) * Qabs.Qabs mult)%Q in Qeq_bool (inject_Z (qtrunc c)) c) (seq 0 32) with
       | Some i => Some (qtrunc (inject_Z (2 ^ Z.of_nat i) * mult)%Q, (- Z.of_nat i)%Z)
       | None => None
       end.
(** SB 1037-1046 *)
Definition odd_mult (f : shape) (q : list nat) (m : Z) (treat_overflow : bool) (fresh : list nat) : option (shape * list nat * body * list nat) :=
  if (m =? 1)%Z then Some (f, q, [], fresh) else
  let k := if treat_overflow then Z.to_nat (Z.log2_up (Z.abs m)) else 0 in
  if length fresh <? k then None else
  let new := firstn k fresh in
  let q' := if treat_overflow then extend q (size f - 1) new else q in
  match QFT_inpl_mult q' m with
  | Some c => Some (mk (msize f + k) (expo f) (signed f), q', (if signed f then map (fun t => qCX (last q' 0) t) new else []) ++ c, skipn k fresh)
  | None => None
  end.
(** SB 966-1051 *)
Definition inpl_mult (fuel : nat) (f : shape) (q : list nat) (mult : Q) (treat_overflow : bool) (fresh : list nat) : option (shape * list nat * body) :=
  if ltq mult 0 && negb (signed f) then None else
  match split_factor fuel mult with
  | None => None
  | Some (m, s) =>
      match odd_mult f q m treat_overflow fresh with
      | None => None
      | Some (f, q, c, fresh) =>
          match quantum_bit_shift f q s treat_overflow fresh with
          | None => None
          | Some (f', q', c', _) =>
              let k := Z.to_nat (Z.abs s) in
              let tail := if treat_overflow && (s <? 0)%Z && signed f then map (fun t => qCX (last q' 0) t) (firstn k (skipn (length q' - 1 - k) q')) else [] in
              Some (f', q', c ++ c' ++ tail)
          end
      end
  end.
