(** Model of the Gidney adder, /repo/src/qrisp/alg_primitives/arithmetic/adders/gidney_adder.py
    (GA below), traced (jasp) path, where [mcx(.., method="gidney")] is the Clifford+T circuit
    of [GAND] and "gidney_inv" the measurement-based [GUNAND]. *)
From Verif.Lib Require Export Rev.
From Verif.Adders Require Export CuccaroModel.

Section Quantum.
Variables (n : nat) (a b anc : nat -> qubit).

(** GA 240-246: bit 0 carry setup *)
Definition gq_init (cin : option qubit) : list gate :=
  match cin with
  | Some c => [CX c (b 0); CX c (a 0); GAND (a 0) (b 0) (anc 0); CX c (anc 0)]
  | None => [GAND (a 0) (b 0) (anc 0)]
  end.
(** GA 255-265 *)
Definition gq_fwd (i : nat) : list gate :=
  [CX (anc (i - 1)) (b i); CX (anc (i - 1)) (a i); GAND (a i) (b i) (anc i); CX (anc (i - 1)) (anc i)].
(** GA 269-281 *)
Definition gq_msb (has_cout : bool) (ctrl : option qubit) : list gate :=
  match ctrl with
  | Some c => GAND c (anc (n - 2)) (b (n - 1)) :: (if has_cout then [] else [GAND c (a (n - 1)) (b (n - 1))])
  | None => CX (anc (n - 2)) (b (n - 1)) :: (if has_cout then [] else [CX (a (n - 1)) (b (n - 1))])
  end.
(** GA 286-298 *)
Definition gq_bwd (ctrl : option qubit) (i : nat) : list gate :=
  [CX (anc (i - 1)) (anc i); GUNAND (a i) (b i) (anc i)] ++
  match ctrl with
  | Some c => [GAND c (a i) (b i); CX (anc (i - 1)) (a i); CX (anc (i - 1)) (b i)]
  | None => [CX (anc (i - 1)) (a i); CX (a i) (b i)]
  end.
(** GA 301-321 *)
Definition gq_final (cin ctrl : option qubit) : list gate :=
  match cin with
  | Some c =>
    [CX c (anc 0); GUNAND (a 0) (b 0) (anc 0)] ++
    match ctrl with
    | Some k => [GAND k c (anc 0); CX (anc 0) (b 0); GUNAND k c (anc 0); CX c (b 0)]
    | None => []
    end ++ [CX c (a 0)]
  | None => [GUNAND (a 0) (b 0) (anc 0)]
  end.
(** GA 208-321 [_apply_quantum_carry_chain] *)
Definition gq_chain (cin : option qubit) (has_cout : bool) (ctrl : option qubit) : list gate :=
  gq_init cin ++ loop 1 (n - 2) gq_fwd ++ gq_msb has_cout ctrl ++ loop_rev 1 (n - 2) (gq_bwd ctrl) ++ gq_final cin ctrl.
(** GA 500-503 *)
Definition gq_lsb (ctrl : option qubit) : list gate :=
  match ctrl with Some c => [GAND c (a 0) (b 0)] | None => [CX (a 0) (b 0)] end.
(** GA 480-503; [n] is the length of b plus the optional c_out *)
Definition gidney_q (cin : option qubit) (has_cout : bool) (ctrl : option qubit) : list gate :=
  (match cin with
   | Some c => if n <=? 1 then (match ctrl with Some k => [GAND k c (b 0)] | None => [CX c (b 0)] end) else []
   | None => []
   end) ++
  (if 1 <? n then gq_chain cin has_cout ctrl ++ loop 0 (n - 1) (fun i => [DEL (anc i)]) else []) ++
  gq_lsb ctrl.
End Quantum.

(** GA 476-478: c_out is appended to b *)
Definition out_b (db : nat) (has_cout : bool) (i : nat) : qubit :=
  if has_cout then (if i <? db then (RB, i) else if i =? db then QCOUT else (RB, i - 1)) else (RB, i).
Definition bit1 (b : bool) : nat := if b then 1 else 0.

(** GA 464-505, quantum a and b *)
Definition gidney_adder (da db : nat) (has_cin has_cout has_ctrl : bool) : list gate :=
  gidney_q (db + bit1 has_cout) (ext_a da db) (out_b db has_cout) (fun i => (RANC, i))
    (opt has_cin QCIN) has_cout (opt has_ctrl QCTRL) ++
  del_reg REXT (db - da).

Section Classical.
Variables (n : nat) (b anc : nat -> qubit) (v : nat -> bool) (ctrl : option qubit).

(** GA 110-125 [_apply_x_bit] *)
Definition x_bit (t : qubit) : gate := match ctrl with Some c => CX c t | None => X t end.
Definition when (c : bool) (l : list gate) : list gate := if c then l else [].
(** GA 152-156 / 201-205: bit 0 *)
Definition gc_init : list gate :=
  when (v 0) (match ctrl with Some c => [GAND c (b 0) (anc 0)] | None => [CX (b 0) (anc 0)] end).
Definition gc_final : list gate :=
  when (v 0) (match ctrl with Some c => [GUNAND c (b 0) (anc 0)] | None => [CX (b 0) (anc 0)] end).
(** GA 166-181 *)
Definition gc_fwd (i : nat) : list gate :=
  [CX (anc (i - 1)) (b i)] ++ when (v i) [x_bit (anc (i - 1))] ++ [GAND (anc (i - 1)) (b i) (anc i)] ++
  when (v i) [x_bit (anc (i - 1))] ++ [CX (anc (i - 1)) (anc i)].
(** GA 188-198 *)
Definition gc_bwd (i : nat) : list gate :=
  [CX (anc (i - 1)) (anc i)] ++ when (v i) [x_bit (anc (i - 1))] ++ [GUNAND (anc (i - 1)) (b i) (anc i)] ++
  when (v i) [x_bit (anc (i - 1))].
(** GA 128-205 [_apply_classical_carry_chain] *)
Definition gc_chain : list gate :=
  gc_init ++ loop 1 (n - 2) gc_fwd ++ [CX (anc (n - 2)) (b (n - 1))] ++ loop_rev 1 (n - 2) gc_bwd ++ gc_final.
(** GA 431-453 *)
Definition gidney_c (start : nat) : list gate :=
  (if 1 <? n then gc_chain ++ loop 0 (n - 1) (fun i => [DEL (anc i)]) else []) ++
  loop start (n - start) (fun i => when (v i) [x_bit (b i)]).
End Classical.

(** GA 418-429: [c_in] is prepended and [c_out] appended to b *)
Definition io_b (db : nat) (has_cin has_cout : bool) (i : nat) : qubit :=
  if has_cin then (match i with 0 => QCIN | S j => out_b db has_cout j end) else out_b db has_cout i.

(** GA 388-454, classical a given as an integer: reduced modulo 2^len(b), then shifted when a
    carry-in is present (GA 427).  For traced scalars (no reduction, GA 393-406) see
    [gidney_adder_traced_int]. *)
Definition gidney_int (v : Z) (db : nat) (has_cin has_cout has_ctrl : bool) : list gate :=
  let v := if has_cin then (Z.shiftl v 1 + 1)%Z else v in
  gidney_c (db + bit1 has_cin + bit1 has_cout) (io_b db has_cin has_cout) (fun i => (RANC, i))
    (fun i => Z.testbit v (Z.of_nat i)) (opt has_ctrl QCTRL) (bit1 has_cin).
Definition gidney_adder_int (v : Z) (db : nat) := gidney_int (v mod 2 ^ Z.of_nat db)%Z db.
Definition gidney_adder_traced_int (v : Z) (db : nat) := gidney_int v db.
