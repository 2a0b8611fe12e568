(** Model of <, >, <=, >= of QuantumFloats outside of tracing, on basis states
    (/repo/src/qrisp/alg_primitives/arithmetic/comparisons.py, CM below; /repo/src/qrisp/qtypes/quantum_float.py, QF below). *)
From Coq Require Import List ZArith QArith Bool.
Import ListNotations.
From Verif.QFloat Require Import QFModel.
From Verif.Compare Require CompareModel.
Local Open Scope Z_scope.

(** a QuantumFloat with its qubits, least significant first (QF 341-365) *)
Record qf := mkqf { reg : list bool; ex : Z; sg : bool }.
Definition form (a : qf) : shape := mk (length (reg a) - (if sg a then 1 else 0)) (ex a) (sg a).
Definition bit (l : list bool) (i : nat) : bool := nth i l false.
Fixpoint code (l : list bool) : Z := match l with [] => 0 | b :: l => Z.b2z b + 2 * code l end.
Definition word (n : nat) (c : Z) : list bool := map (fun i => Z.testbit c (Z.of_nat i)) (seq 0 n).
Definition set_reg (a : qf) (l : list bool) : qf := mkqf l (ex a) (sg a).
(** /repo/src/qrisp/core/quantum_variable.py:833-889: a new qubit in state 0 before position i *)
Definition extend (a : qf) (i : nat) : qf := set_reg a (firstn i (reg a) ++ false :: skipn i (reg a)).
(** quantum_variable.py:891-943: removing the qubit at position i; returns its state, which nobody looks at (verify = False) *)
Definition reduce (a : qf) (i : nat) : qf * bool := (set_reg a (firstn i (reg a) ++ skipn (S i) (reg a)), bit (reg a) i).
Definition size_of (a : qf) : nat := length (reg a).
(** cx(a[-1], a[-2]) *)
Definition cx_top (a : qf) : qf :=
  let n := size_of a in
  set_reg a (firstn (n - 2) (reg a) ++ xorb (bit (reg a) (n - 2)) (bit (reg a) (n - 1)) :: skipn (n - 1) (reg a)).
Definition set_ex (a : qf) (e : Z) : qf := mkqf (reg a) e (sg a).
Definition set_sg (a : qf) (s : bool) : qf := mkqf (reg a) (ex a) s.

(** the second operand of the gate *)
Inductive other := Reg (b : qf) | Num (x : Q).
(** QF 672-691, 701-724: a += b and a -= b; the circuit is modelled and verified in Sbp/ (C67). None: exceptions. *)
Definition inplace (negative : bool) (a : qf) (o : other) : option qf :=
  let f := form a in
  let go ms := Some (set_reg a (word (size_of a) (encode_monomials f ms (code (reg a))))) in
  match o with
  | Reg b => if negb (signed f) && sg b then None else
      let p := poly_of (form b) (size f) (code (reg b)) in
      go (if negative then map (fun '(k, bs) => ((- k)%Q, bs)) p else p)
  | Num x => if Qeq_bool (inject_Z (qtrunc (x / pw (ex a))%Q)) (x / pw (ex a))%Q
      then go [((if negative then - x else x)%Q, [])] else None
  end.
(** mshape[1] *)
Definition top (a : qf) : Z := ex a + Z.of_nat (msize (form a)).

(** CM 37-51. None: still running after [fuel] rounds *)
Fixpoint upper (fuel : nat) (added_sign : bool) (o : other) (a : qf) (count : nat) : option (qf * nat) :=
  match fuel with
  | O => None
  | S fuel =>
      let a := extend a (size_of a - 1) in
      let a := if added_sign then a else cx_top a in
      let count := S count in
      match o with
      | Reg b => if top a <? top b + 1 then upper fuel added_sign o a count else Some (a, count)
      | Num _ => Some (a, count)
      end
  end.
(** CM 53-61 *)
Fixpoint lower (fuel : nat) (b : qf) (a : qf) (count : nat) : option (qf * nat) :=
  match fuel with
  | O => None
  | S fuel => if ex b <? ex a then lower fuel b (let a := extend a 0 in set_ex a (ex a - 1)) (S count) else Some (a, count)
  end.
(** CM 81-88; the states of the removed qubits are kept *)
Fixpoint unupper (n : nat) (added_sign : bool) (a : qf) (gone : list bool) : qf * list bool :=
  match n with
  | O => (a, gone)
  | S n =>
      let (a, g) := if added_sign then reduce a (size_of a - 1) else let a := cx_top a in reduce a (size_of a - 2) in
      unupper n added_sign a (g :: gone)
  end.
(** CM 90-92 *)
Fixpoint unlower (n : nat) (a : qf) (gone : list bool) : qf * list bool :=
  match n with
  | O => (a, gone)
  | S n => let (a, g) := reduce a 0 in unlower n (set_ex a (ex a + 1)) (g :: gone)
  end.
(** CM 22-114: the result bit, a afterwards, and the states of the qubits that are given back. The qubits of b only
    control. The gate is built on duplicates of a and b and applied to a and b (CM 121-139); duplicate(),
    compile() and to_gate() are not modelled here. *)
Definition less_than_gate (fuel : nat) (a : qf) (o : other) : option (bool * qf * list bool) :=
  let added_sign := negb (sg a) in
  let a := if added_sign then set_sg (extend a (size_of a)) true else a in
  match upper fuel added_sign o a 0 with
  | None => None
  | Some (a, added_upper) =>
  match (match o with Reg b => lower fuel b a 0 | Num _ => Some (a, O) end) with
  | None => None
  | Some (a, added_lower) =>
  match inplace true a o with
  | None => None
  | Some a =>
      let '(a, res) := if added_sign then reduce a (size_of a - 1) else (a, bit (reg a) (size_of a - 1)) in
      match inplace false a o with
      | None => None
      | Some a =>
          let (a, gone) := unupper added_upper added_sign a [] in
          let (a, gone) := unlower added_lower a gone in
          Some (res, if added_sign then set_sg a false else a, gone)
      end
  end end end.

(** labels.sort() *)
Fixpoint insert (x : Q) (l : list Q) : list Q :=
  match l with [] => [x] | y :: r => if Qle_bool x y then x :: l else y :: insert x r end.
Definition sort (l : list Q) : list Q := fold_right insert [] l.
(** CM 150-155 *)
Fixpoint next_label (l : list Q) (x : Q) : Q :=
  match l with
  | y :: ((z :: _) as r) => if ltq y x && Qle_bool x z then z else next_label r x
  | [y] => y
  | [] => 0%Q
  end.
(** an operand of a comparison: a QuantumFloat or a number *)
Inductive operand := QF (a : qf) | NU (x : num).
(** nearest float64 of a rational with a power of two as denominator (no overflow, no underflow) *)
Definition rndq (q : Q) : Q := (inject_Z (rnd53 (Qnum q)) / inject_Z (Zpos (Qden q)))%Q.
(** CM 184: -a - 2**b.exponent in Python: exact on integers, float64 otherwise *)
Definition mirror (x : num) (e : Z) : num :=
  match x with
  | Int z => if 0 <=? e then Int (- z - 2 ^ e) else Flt (rndq (inject_Z (rnd53 (- z)) - pw e))
  | Flt q => Flt (rndq (- q - pw e))
  end.
(** result bit, operands afterwards, and the states of the qubits that are given back *)
Definition outcome := option (bool * operand * operand * list bool).
(** CM 141-174: QuantumFloat < number *)
Definition less_than_number (fuel : nat) (a : qf) (x : num) : option (bool * qf * list bool) :=
  let ls := sort (map (fun i => decoder (form a) (Z.of_nat i)) (seq 0 (2 ^ size_of a))) in
  if ltq (last ls 0%Q) (value_of x) then Some (true, a, [])
  else if Qle_bool (value_of x) (hd 0%Q ls) then Some (false, a, [])
  else less_than_gate fuel a (Num (next_label ls (value_of x))).
(** x(a) *)
Definition flip_all (a : qf) : qf := set_reg a (map negb (reg a)).
(** CM 117-192; comparing two numbers is not a matter of this function *)
Definition less_than (fuel : nat) (a b : operand) : outcome :=
  match a, b with
  | QF a, QF b => match less_than_gate fuel a (Reg b) with Some (r, a, gone) => Some (r, QF a, QF b, gone) | None => None end
  | QF a, NU x => match less_than_number fuel a x with Some (r, a, gone) => Some (r, QF a, NU x, gone) | None => None end
  | NU x, QF b =>
      let added_sign := negb (sg b) in
      let b := if added_sign then set_sg (extend b (size_of b)) true else b in
      match less_than_number fuel (flip_all b) (mirror x (ex b)) with
      | Some (r, b, gone) =>
          let b := flip_all b in
          let (b, gone) := if added_sign then let (b, g) := reduce b (size_of b - 1) in (set_sg b false, g :: gone) else (b, gone) in
          Some (r, NU x, QF b, gone)
      | None => None
      end
  | NU _, NU _ => None
  end.
Definition swap_out (o : outcome) : outcome := match o with Some (r, a, b, g) => Some (r, b, a, g) | None => None end.
Definition flip_out (o : outcome) : outcome := match o with Some (r, a, b, g) => Some (negb r, a, b, g) | None => None end.
(** CM 264-281, called by QF 748-790; adaptive_condition is not modelled *)
Definition lt (fuel : nat) (a b : operand) : outcome := less_than fuel a b.
Definition gt (fuel : nat) (a b : operand) : outcome := swap_out (less_than fuel b a).
Definition geq (fuel : nat) (a b : operand) : outcome := flip_out (lt fuel a b).
Definition leq (fuel : nat) (a b : operand) : outcome := flip_out (gt fuel a b).
(** QF 751-752, 762-763, 773-774, 784-785: while tracing, QuantumFloats are compared like the unsigned integers on their qubits *)
Definition traced_operand (f : shape) (c : Z) : CompareModel.operand := CompareModel.Q (Z.of_nat (size f)) c.
Definition traced_lt (f g : shape) (c d : Z) := CompareModel.uint_lt true (traced_operand f c) (traced_operand g d).
Definition traced_gt (f g : shape) (c d : Z) := CompareModel.uint_gt true (traced_operand f c) (traced_operand g d).
Definition traced_le (f g : shape) (c d : Z) := CompareModel.uint_le true (traced_operand f c) (traced_operand g d).
Definition traced_ge (f g : shape) (c d : Z) := CompareModel.uint_ge true (traced_operand f c) (traced_operand g d).
