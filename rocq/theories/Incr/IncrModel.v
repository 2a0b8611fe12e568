(** Model of /repo/src/qrisp/alg_primitives/arithmetic/adders/incrementation.py (IN below), over the gates of Lib/Rev.v.
    Register 0 is the register that is incremented, registers 1 and 2 are the ancillas; (3, 0) and (4, 0) are the carry
    qubits of lin_incr. *)
From Verif.Lib Require Export Rev.
From Verif.Mcx Require Export McxModel.
From Verif.Adders Require Export CuccaroModel.

(** ** IN 69-96, increment_qb_list; the qubit list is [q 0 .. q (n-1)]. mcx with method gray_pt and two controls is
    [pt2], with gray_pt_inv its inverse (multi_cx.py; see Mcx/GateProofs) *)
Definition incr_anc (i : nat) : qubit := (1, i).
Definition increment_qb_list (n : nat) (q : nat -> qubit) : list gate :=
  if n =? 1 then [X (q 0)]
  else if n =? 2 then [CX (q 0) (q 1); X (q 0)]
  else
    pt2 (q 0) (q 1) (incr_anc 0) ++
    loop 2 (n - 3) (fun i => pt2 (q i) (incr_anc (i - 2)) (incr_anc (i - 1))) ++
    [CX (incr_anc (n - 3)) (q (n - 1))] ++
    loop_rev 2 (n - 3) (fun i => inv (pt2 (q i) (incr_anc (i - 2)) (incr_anc (i - 1))) ++ [CX (incr_anc (i - 2)) (q i)]) ++
    inv (pt2 (q 0) (q 1) (incr_anc 0)) ++ [CX (q 0) (q 1); X (q 0)] ++ del_reg 1 (n - 2).

(** ** IN 107-139 *)
Definition cMAJ (v : bool) (a b c : qubit) : list gate := (if v then [X a; X b] else []) ++ [CCX a b c].
Definition cUMA (v : bool) (a b c : qubit) : list gate := [CCX a b c] ++ (if v then [X a] else []) ++ [CX a b].
(** IN 172: the first slot *)
Definition slot_1 (i : nat) : qubit := if i =? 0 then (2, 0) else (1, i - 1).
(** IN 145-203, increment_arbitrary_constant_qubit_list, for n >= 2 (for n = 1 the variable [qbits] of line 187 is unbound);
    [int_encode]: lines 158-160 and 197-199 *)
Definition increment_constant (n : nat) (q : nat -> qubit) (c : Z) : list gate :=
  let a i := Z.testbit c (Z.of_nat i) in
  int_encode 1 n c ++
  loop 0 (n - 1) (fun i => cMAJ (a i) (slot_1 i) (q i) (1, i)) ++
  [CX (1, n - 2) (q (n - 1))] ++
  loop_rev 0 (n - 1) (fun i => cUMA (a i) (slot_1 i) (q i) (1, i)) ++
  [CX (1, n - 1) (q (n - 1))] ++
  int_encode 1 n c ++ del_reg 1 n ++ del_reg 2 1.

(** ** IN 24-64, increment, for a QuantumFloat with [n] mantissa and sign qubits and the amount given as a multiple of
    2^exponent (off-grid amounts are not among the decoder values and raise).
    IN 50-52: while amount % 2 == 0 *)
Fixpoint factor2 (fuel : nat) (po : nat) (a : Z) : nat * Z :=
  match fuel with
  | O => (po, a)
  | S fuel => if Z.even a then factor2 fuel (S po) (a / 2) else (po, a)
  end.
(** IN 28: the decoder values are 0 .. 2^n - 1 (unsigned) or -2^(n-1) .. 2^(n-1) - 1 (signed) *)
Definition representable (signed : bool) (n : nat) (a : Z) : bool :=
  if signed then (- 2 ^ (Z.of_nat n - 1) <=? a)%Z && (a <? 2 ^ (Z.of_nat n - 1))%Z else (0 <=? a)%Z && (a <? 2 ^ Z.of_nat n)%Z.
Inductive outcome := Raises | Circuit (l : list gate).
Definition increment (signed : bool) (n : nat) (amount : Z) : outcome :=
  if (amount =? 0)%Z then Circuit []
  else if negb (representable signed n (Z.abs amount)) then Raises
  else
    let (po, a) := factor2 n 0 (Z.abs amount) in
    let q i := (0, po + i) in
    let xs := if (amount <? 0)%Z then loop 0 n (fun i => [X (0, i)]) else [] in
    Circuit (xs ++ (if (a =? 1)%Z then increment_qb_list (n - po) q else increment_constant (n - po) q a) ++ xs).

(** ** IN 209-236, lin_incr; [n]: length of [a], without the appended [c_out] *)
Definition lin_list (n i : nat) : qubit := if i <? n then (0, i) else (4, 0).
Definition lin_incr (n : nat) (c_in c_out : bool) : outcome :=
  let m := if c_out then S n else n in
  let a := lin_list n in
  if m =? 1 then (if c_in then Circuit [CX (3, 0) (a 0)] else Raises)
  else if m =? 0 then Raises
  else Circuit (
    (if c_in then [GAND (3, 0) (a 0) (incr_anc 0)] else []) ++
    loop 0 (m - 2) (fun i => [GAND (incr_anc i) (a (i + 1)) (incr_anc (i + 1))]) ++
    [CX (incr_anc (m - 2)) (a (m - 1))] ++
    loop_rev 0 (m - 2) (fun i => [GUNAND (incr_anc i) (a (i + 1)) (incr_anc (i + 1)); CX (incr_anc i) (a (i + 1))]) ++
    (if c_in then [GUNAND (3, 0) (a 0) (incr_anc 0); CX (3, 0) (a 0)] else []) ++
    del_reg 1 (m - 1)).
