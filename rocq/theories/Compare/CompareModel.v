(** Model of /repo/src/qrisp/alg_primitives/arithmetic/uint_clifford_t_comparisons.py (UC below) and of
    [equal] in /repo/src/qrisp/alg_primitives/arithmetic/comparisons.py (CM below), on basis states. *)
From Coq Require Export ZArith List Bool Lia.
Export ListNotations.
Local Open Scope Z_scope.

(** ** unsigned comparisons *)
(** The in-place adder passed in is modelled by its effect on a [w]-qubit register (established for
    the Cuccaro and Gidney adders in Verif.Adders); [invert()] turns it into a subtraction. *)
Definition adder (x v w : Z) : Z := (v + x) mod 2 ^ w.
Definition inv_adder (x v w : Z) : Z := (v - x) mod 2 ^ w.

(** outcome of a comparison: result bit, and the two operand registers afterwards; [None] if a
    deleted ancilla is not |0> *)
Definition outcome := option (bool * Z * Z).

(** [with conjugate(inv_adder)(x, v_reg + anc): cx(anc, res)] on a register of [w] value qubits
    holding [v] and one fresh ancilla on top: returns the copied ancilla bit and the restored register,
    provided the ancilla is clean again (UC 32-35, 52-56, 70-73). *)
Definition conj_top (x v w : Z) : option (bool * Z) :=
  let d := inv_adder x v (w + 1) in
  let top := Z.testbit d w in
  let v' := adder x d (w + 1) in
  if Z.testbit v' w then None else Some (top, v').

(** UC 25-39: [a] is padded with max(0, nb - na) fresh qubits (deleted afterwards) *)
Definition qq_less_than (na nb a b : Z) : outcome :=
  let w := Z.max na nb in
  match conj_top b a w with
  | Some (r, v) => if v <? 2 ^ na then Some (r, v, b) else None
  | None => None
  end.

(** int64 wrap-around of traced arithmetic; static Python ints do not wrap *)
Definition wrap64 (x : Z) : Z := (x + 2 ^ 63) mod 2 ^ 64 - 2 ^ 63.
Definition num (traced : bool) (x : Z) : Z := if traced then wrap64 x else x.

(** UC 42-58: classical [a], quantum [b] *)
Definition cq_less_than (traced : bool) (nb a b : Z) : outcome :=
  let r0 := a <? 0 in
  if (0 <=? a) && (a <? num traced (num traced (2 ^ nb) - 1)) then
    match conj_top (num traced (a + 1)) b nb with
    | Some (r, v) => Some (negb (xorb r0 r), a, v)
    | None => None
    end
  else Some (r0, a, b).
(** UC 61-75: quantum [a], classical [b] *)
Definition qc_less_than (traced : bool) (na a b : Z) : outcome :=
  let r0 := num traced (2 ^ na) <? b in
  if (0 <=? b) && (b <=? num traced (2 ^ na)) then
    match conj_top b a na with
    | Some (r, v) => Some (xorb r0 r, v, b)
    | None => None
    end
  else Some (r0, a, b).

(** operands: a quantum register of given size, or a classical integer *)
Inductive operand := Q (n v : Z) | C (v : Z).
(** UC 78-91 *)
Definition less_than (traced : bool) (a b : operand) : outcome :=
  match a, b with
  | Q na x, Q nb y => qq_less_than na nb x y
  | Q na x, C y => qc_less_than traced na x y
  | C x, Q nb y => cq_less_than traced nb x y
  | C x, C y => Some (x <? y, x, y)
  end.
Definition swap_out (o : outcome) : outcome := match o with Some (r, x, y) => Some (r, y, x) | None => None end.
Definition flip_out (o : outcome) : outcome := match o with Some (r, x, y) => Some (negb r, x, y) | None => None end.
(** UC 94-107 *)
Definition uint_lt (t : bool) (a b : operand) := less_than t a b.
Definition uint_gt (t : bool) (a b : operand) := swap_out (less_than t b a).
Definition uint_le (t : bool) (a b : operand) := flip_out (swap_out (less_than t b a)).
Definition uint_ge (t : bool) (a b : operand) := flip_out (less_than t a b).

(** ** equality of QuantumFloats *)
(** a QuantumFloat basis state: mantissa size is [length mant], [sign] is the sign qubit if signed *)
Record qf := { mant : list bool; expo : Z; sgn : option bool }.
Definition reg (q : qf) : list bool := mant q ++ match sgn q with Some s => [s] | None => [] end.
Definition zlen {A} (l : list A) : Z := Z.of_nat (length l).
(** Python slice l[lo:hi] with negative indices *)
Definition norm_index (n i : Z) : Z := if i <? 0 then Z.max 0 (n + i) else Z.min n i.
Definition slice {A} (l : list A) (lo hi : Z) : list A :=
  let n := zlen l in let lo := norm_index n lo in let hi := norm_index n hi in
  firstn (Z.to_nat (hi - lo)) (skipn (Z.to_nat lo) l).
(** Python / jax indexing of a qubit list; only non-negative in-range indices occur *)
Definition getq (l : list bool) (i : Z) : bool := nth (Z.to_nat i) l false.
Fixpoint xor_at (l : list bool) (i : nat) (v : bool) : list bool :=
  match l, i with
  | [], _ => []
  | h :: t, O => xorb h v :: t
  | h :: t, S i => h :: xor_at t i v
  end.
(** CM 224-226 *)
Definition conjugate_bits (r0 r1 : list bool) (l e0 e1 d : Z) : list bool :=
  fold_left (fun r i => xor_at r (Z.to_nat (Z.of_nat i + l - e0)) (getq r1 (Z.of_nat i + l - e1))) (seq 0 (Z.to_nat d)) r0.
(** CM 196-237; the sign qubit is the last qubit of the register *)
Definition equal (x y : qf) : bool :=
  let '(q0, q1) := match sgn y, sgn x with Some _, None => (y, x) | _, _ => (x, y) end in
  let both := match sgn q0, sgn q1 with Some _, Some _ => true | _, _ => false end in
  let m0 := zlen (mant q0) in let m1 := zlen (mant q1) in
  let e0 := expo q0 in let e1 := expo q1 in
  let r1 := reg q1 in
  let r0 := if both then xor_at (reg q0) (length (mant q0)) (getq r1 m1) else reg q0 in
  let l := Z.max e0 e1 in
  let r := Z.min (e0 + m0) (e1 + m1) in
  let r0' := conjugate_bits r0 r1 l e0 e1 (r - l) in
  (* the listed qubits are all 0 *)
  forallb negb (r0' ++ slice r1 0 (l - e1) ++ slice r1 (e0 + m0 - e1) (e1 + m1 - e1)).
