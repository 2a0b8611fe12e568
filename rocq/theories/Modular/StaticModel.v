(** Model of ripple multiplication (/repo/src/qrisp/alg_primitives/arithmetic/ripple_mult.py, RM below) and of the modular products outside
    tracing (/repo/src/qrisp/alg_primitives/arithmetic/modular_arithmetic/modular_multiplication.py, MM below; its functions are the ones
    that modular_arithmetic/__init__.py exports). Programs, steps and registers as in ModModel. Qubits that a function allocates are
    arguments. *)
From Coq Require Import List ZArith Bool Arith.
Import ListNotations.
From Verif.Fourier Require Import FourierSpec.
From Verif.ModTools Require Import ModToolsModel.
From Verif.Modular Require Import ModModel.
Local Open Scope nat_scope.

(** RM 25-26: the longer factor comes first *)
Definition longer (f1 f2 : list nat) : list nat := if length f1 <? length f2 then f2 else f1.
Definition shorter (f1 f2 : list nat) : list nat := if length f1 <? length f2 then f1 else f2.
(** RM 43 (a target is given) or 37-38 (new target) *)
Definition q_int_start (target_given : bool) (f1 f2 s : list nat) : list step :=
  if target_given then [Add [] (Qu (firstn (length s - length f1) f2)) (skipn (length f1) s)] else copy f2 (skipn (length f1) s).
(** RM 49-56 *)
Definition q_int_round (f1 f2 s : list nat) (i : nat) : list step :=
  [Add [] (Qu (firstn (length s - i) f2)) (skipn i s)] ++
  if i =? length f1 - 1 then [] else [Cx (nth i f1 0) (nth (i + 1) f1 0)] ++ map (Cx (nth (i + 1) f1 0)) s ++ [Cx (nth i f1 0) (nth (i + 1) f1 0)].
Definition q_int_loop (f1 f2 s : list nat) (rounds : nat) : list step := flat_map (q_int_round f1 f2 s) (seq 0 rounds).
(** RM 23-62 [q_int_mult] for unsigned factors; [low]: the qubit that extends the target below (41) or the lowest of the new register (33), it
    is given back (60). Simplification: the slices of RM 43 and 50 have no negative ends, that is, the first factor is not longer than the target *)
Definition q_int_mult (f1 f2 : list nat) (target_given : bool) (target : list nat) (low : nat) : list step :=
  let a := longer f1 f2 in let b := shorter f1 f2 in let s := low :: target in
  q_int_start target_given a b s ++ map Flip s ++ [Add [] (Qu b) s] ++ map (Cx (nth 0 a 0)) s ++ q_int_loop a b s (length a)
  ++ map (Cx (last a 0)) s ++ map Flip s.
(** RM 65-71 [inpl_q_int_mult]: None: even numbers are refused. The same loop as JM 279-283 *)
Definition inpl_q_int_mult (operand : list nat) (cl_int : Z) : option (list step) :=
  if Z.even cl_int then None else Some (qc_mul_inplace operand cl_int).

(** MM 96-153 [QREDC]; afterwards S is t[m : -1] and u is t[: m] followed by the sign qubit (80-91, 143-146) *)
Definition qredc_loop (t : list nat) (N : Z) (m : nat) : list step :=
  flat_map (fun k => [Add [nth k t 0] (Cl (- (N - 1) / 2)%Z) (skipn (k + 1) t)]) (seq 0 m).
Definition qredc_S (t : list nat) (m : nat) : list nat := removelast (skipn m t).
Definition qredc_u (t : list nat) (m : nat) : list nat := firstn m t ++ [last t 0].
Definition qredc (t : list nat) (N : Z) (m : nat) : list step :=
  qredc_loop t N m ++ [Add [last t 0] (Cl N) (qredc_S t m)] ++ [Cx (nth 0 (qredc_S t m) 0) (last t 0)].
(** MM 157-169 [montgomery_red] for two registers *)
Definition montgomery_red_q (t a b : list nat) (N : Z) (m : nat) (low : nat) : option (list step) :=
  match inpl_q_int_mult (qredc_u t m) (N mod 2 ^ Z.of_nat (m + 1))%Z with
  | None => None
  | Some p => Some (qredc t N m ++ p ++ inverted (q_int_mult a b true (qredc_u t m) low))
  end.
(** MM 170-180 [montgomery_red] for a register and a number. The multi-controlled X on u[-1] with the control state 0...01 adds 1 to one
    qubit between X gates. None: no modular inverse *)
Definition montgomery_red_c (t a : list nat) (b N : Z) (m : nat) (permeable_if_zero : bool) : option (list step) :=
  match modinv_py N (2 ^ Z.of_nat (m + 1))%Z with
  | None => None
  | Some N1 =>
    Some (qredc t N m
      ++ flat_map (fun k => [Add [nth k a 0] (Cl (- (2 ^ Z.of_nat k * b) * N1)%Z) (qredc_u t m)]) (seq 0 (length a))
      ++ if permeable_if_zero then map Flip a ++ [Add (a ++ [nth 0 (qredc_S t m) 0]) (Cl 1%Z) [last (qredc_u t m) 0]] ++ map Flip a else [])
  end.
(** MM 394-428 [montgomery_mod_mul] without a given output: t has size + m qubits and a sign; ceil and log2 are exact here, floats in the
    code. None: different moduli, or an exception in [montgomery_red]. low: the qubit below the target in both multiplications *)
Definition static_shift (N : Z) (size : nat) : nat := Z.to_nat (Z.log2_up ((N - 1) ^ 2) + 1 - Z.of_nat size).
Definition montgomery_mod_mul (a b : qmod) (t : list nat) (low : nat) : option (list step * qmod) :=
  if (modulus a =? modulus b)%Z then
    let N := modulus a in let m := static_shift N (length (reg a)) in
    match montgomery_red_q t (reg a) (reg b) N m low with
    | None => None
    | Some p => Some (q_int_mult (reg a) (reg b) true t low ++ p, mkq (qredc_S t m) N (shift a + shift b - Z.of_nat m))
    end
  else None.
(** MM 207-273 [montgomery_mod_semi_mul]; out: the given or new register; fresh m: the m qubits below it and the sign. The new register has
    the shift of a (261, 151) *)
Definition montgomery_mod_semi_mul (a : qmod) (b : Z) (output_given : bool) (out : list nat) (fresh : nat -> list nat * nat) (permeable_if_zero : bool)
    : option (list step * qmod) :=
  let N := modulus a in
  let b := (b mod N)%Z in
  let result := mkq out N (shift a) in
  if (b =? 0)%Z then Some ([], result) else
  if (b =? 1)%Z then Some (if output_given then [Add [] (Qu (reg a)) out] else copy (reg a) out, result) else
  match find_best_montgomery_shift b N with
  | None => None
  | Some m =>
    let b_encoded := (mont_enc_py b (2 ^ Z.of_nat m) N mod N)%Z in
    let t := fst (fresh m) ++ out ++ [snd (fresh m)] in
    match montgomery_red_c t (reg a) b_encoded N m permeable_if_zero with
    | None => None
    | Some p =>
      Some (flat_map (fun i => if Z.testbit b_encoded (Z.of_nat i) then [Add [] (Qu (reg a)) (skipn i t)] else []) (seq 0 (Z.to_nat (Z.log2_up N))) ++ p, result)
    end
  end.
(** MM 288-391 [semi_cl_inpl_mult] with treat_invalid = False; a may only be changed if the control is on. None: exceptions *)
Definition semi_cl_inpl_mult (a : qmod) (X : Z) (ctrl : option nat) (tmp : list nat) (fresh fresh' : nat -> list nat * nat) : option (list step) :=
  let X := (X mod modulus a)%Z in
  if (X =? 0)%Z then None else if (X =? 1)%Z then Some [] else
  let permeable := match ctrl with None => false | Some _ => true end in
  let guarded := match ctrl with None => [] | Some c => [Flip c] ++ swap_regs [c] tmp (reg a) ++ [Flip c] end in
  match montgomery_mod_semi_mul a X true tmp fresh permeable, modinv_py X (modulus a) with
  | Some (forward, r), Some X1 =>
    match montgomery_mod_semi_mul r X1 true (reg a) fresh' permeable with
    | Some (backward, _) => Some (guarded ++ forward ++ guarded ++ inverted backward ++ swap_regs (opt_control ctrl) tmp (reg a))
    | None => None
    end
  | _, _ => None
  end.
