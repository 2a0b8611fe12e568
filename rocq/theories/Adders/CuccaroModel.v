(** Model of the Cuccaro adder, /repo/src/qrisp/alg_primitives/arithmetic/adders/cuccaro_adder.py
    (CU below).  Circuits are written for arbitrary qubit accessors [a], [b], [anc]. *)
From Verif.Lib Require Export Rev.

Section Circuit.
Variables (n : nat) (a b anc : nat -> qubit).

(** CU 142-144: first MAJ *)
Definition cu_maj0 : list gate := [CX (a 0) (b 0); CX (a 0) (anc 0); CCX (anc 0) (b 0) (a 0)].
(** CU 148-151 *)
Definition cu_maj (i : nat) : list gate := [CX (a i) (b i); CX (a i) (a (i - 1)); CCX (a (i - 1)) (b i) (a i)].
(** CU 159-168 *)
Definition cu_uma (i : nat) : list gate :=
  [X (b i); CX (a (i - 1)) (b i); CCX (a (i - 1)) (b i) (a i); X (b i); CX (a i) (a (i - 1)); CX (a i) (b i)].
(** CU 171-176 *)
Definition cu_uma0 : list gate :=
  [X (b 0); CX (anc 0) (b 0); CCX (anc 0) (b 0) (a 0); X (b 0); CX (a 0) (anc 0); CX (a 0) (b 0)].
(** CU 180-187 *)
Definition cu_uma_ctrl (ctrl : qubit) (i : nat) : list gate :=
  [CCX (a (i - 1)) (b i) (a i); CCX ctrl (a (i - 1)) (b i); CX (a i) (a (i - 1)); CX (a i) (b i)].
(** CU 190-193 *)
Definition cu_uma0_ctrl (ctrl : qubit) : list gate :=
  [CCX (anc 0) (b 0) (a 0); CCX ctrl (anc 0) (b 0); CX (a 0) (anc 0); CX (a 0) (b 0)].

(** CU 126-196 after the size matching; [cin]/[cout]/[ctrl] are the optional qubits.
    [for j in jrange(dim_a - 1): i = dim_a - j - 1] is the descending loop over 1..n-1. *)
Definition cuccaro (cin cout ctrl : option qubit) : list gate :=
  match cin with Some q => [CX q (anc 0)] | None => [] end ++
  cu_maj0 ++ loop 1 (n - 1) cu_maj ++
  match cout with Some q => [CX (a (n - 1)) q] | None => [] end ++
  match ctrl with
  | None => loop_rev 1 (n - 1) cu_uma ++ cu_uma0
  | Some c => loop_rev 1 (n - 1) (cu_uma_ctrl c) ++ cu_uma0_ctrl c
  end ++
  match cin with Some q => [CX q (anc 0)] | None => [] end.
End Circuit.

(** registers *)
Notation RA := 0 (only parsing).
Notation RB := 1 (only parsing).
Notation REXT := 2 (only parsing).
Notation RANC := 3 (only parsing).
Notation QCIN := (4, 0) (only parsing).
Notation QCOUT := (5, 0) (only parsing).
Notation QCTRL := (6, 0) (only parsing).

(** CU 106-122: [a[:min(dim_a, dim_b)] + extension_anc_a[:]] *)
Definition ext_a (da db : nat) (i : nat) : qubit :=
  if i <? min da db then (RA, i) else (REXT, i - min da db).

Definition opt (b : bool) (q : qubit) : option qubit := if b then Some q else None.

(** The whole quantum-quantum call: registers a (width da), b (width db), fresh extension and
    carry ancillas, which are deleted at the end (CU 199-202). *)
Definition cuccaro_adder (da db : nat) (has_cin has_cout has_ctrl : bool) : list gate :=
  cuccaro db (ext_a da db) (fun i => (RB, i)) (fun i => (RANC, i))
    (opt has_cin QCIN) (opt has_cout QCOUT) (opt has_ctrl QCTRL) ++
  del_reg RANC (max da db) ++ del_reg REXT (db - da).

(** CU 89-99: classical [a]: encode into a fresh register q_a (here: register 0) of b's size, add, decode,
    delete.  [int_encoder] flips exactly the bits of the encoded number ([a] modulo 2^size,
    a.size = b.size; negative or too large numbers raise in int_encoder). *)
Definition int_encode (r n : nat) (v : Z) : list gate :=
  loop 0 n (fun i => if Z.testbit v (Z.of_nat i) then [X (r, i)] else []).
Definition cuccaro_adder_classical (v : Z) (db : nat) (has_cin has_cout has_ctrl : bool) : list gate :=
  int_encode RA db v ++ cuccaro_adder db db has_cin has_cout has_ctrl ++ int_encode RA db v ++ del_reg RA db.
