(** Model of +=, -=, +, - of QuantumFloats while tracing, of the traced products and of ** (/repo/src/qrisp/qtypes/quantum_float.py, QF;
    /repo/src/qrisp/alg_primitives/arithmetic/jasp_arithmetic/jasp_multiplyers.py, JM), on basis states. *)
From Coq Require Import List ZArith QArith Bool.
Import ListNotations.
From Verif.QFloat Require Import QFModel.
From Verif.Order Require Import OrderModel.
From Verif.Division Require Import DivModel.
Local Open Scope Z_scope.

(** gidney_adder(a, t), its inverse if [neg] (adders/gidney_adder.py:325-560): addition modulo 2^len(t). The circuit is modelled in Adders/ and C15 proves that it adds.
    Phases are not modelled here: C15_controlled_phase_refuted shows that the controlled adder, which the products use, leaves one. *)
Definition add_reg (neg : bool) (a t : list bool) : list bool := word (length t) (code t + (if neg then - code a else code a)).
(** t[k:] replaced by f(t[k:]) *)
Definition on_tail (k : nat) (f : list bool -> list bool) (t : list bool) : list bool := firstn k t ++ f (skipn k t).
(** t[k : k + n] replaced *)
Definition on_window (k n : nat) (f : list bool -> list bool) (t : list bool) : list bool := firstn k t ++ f (firstn n (skipn k t)) ++ skipn (k + n) t.

(** QF 651-660, 704-707, another QuantumFloat. None: no qubits to add to (the adder then indexes an empty register) *)
Definition traced_iadd (neg : bool) (a b : qf) : option qf :=
  let start := Z.max (ex b) (ex a) in
  let k := Z.to_nat (start - ex a) in
  if (size_of a <=? k)%nat then None else
  Some (set_reg a (on_tail k (add_reg neg (skipn (Z.to_nat (start - ex b)) (reg b))) (reg a))).
(** QF 385-435 while tracing: no checks *)
Definition traced_encoder (f : shape) (x : num) : Z :=
  let y := (to_f64 x / pw (expo f))%Q in if signed f then iso (sat64 (qtrunc y)) (msize f) else sat64 (qtrunc y).
(** QF 661-664, 704-707, a number. None: an empty register; or a negative code, which the model of the traced adder (C15) does not cover *)
Definition traced_iadd_number (neg : bool) (a : qf) (x : num) : option qf :=
  let v := traced_encoder (form a) x in
  if (size_of a =? 0)%nat || (v <? 0) then None else
  Some (set_reg a (word (size_of a) (code (reg a) + if neg then - v else v))).
(** QF 533-578 while tracing: a + b and a - b. The result is a duplicate of a (its format); the operands are not changed. *)
Definition traced_add (neg : bool) (a b : qf) : option qf :=
  let res := set_reg a (map (fun '(x, y) => xorb x y) (combine (reg a) (repeat false (size_of a)))) in
  traced_iadd neg res b.

(** cx(ctrl, q) for all qubits *)
Definition fan (c : bool) (s : list bool) : list bool := map (xorb c) s.
(** cx(a[j], s[k + j]) for all j *)
Fixpoint xor_list (a s : list bool) : list bool := match a, s with x :: a, y :: s => xorb x y :: xor_list a s | _, s => s end.
Definition copy_to (k : nat) (a s : list bool) : list bool := on_tail k (xor_list a) s.
(** cx(l[i], l[j]) *)
Definition cnot (i j : nat) (l : list bool) : list bool := firstn j l ++ xorb (bit l i) (bit l j) :: skipn (S j) l.
(** JM 85-92: one round; x: factor_1, y: factor_2 *)
Definition mult_round (y : list bool) (i : nat) (st : list bool * list bool) : list bool * list bool :=
  let '(x, s) := st in
  let s := on_tail (i - 1) (add_reg false (firstn (length s - i) y)) s in
  let x := cnot i (i + 1) x in
  let s := fan (bit x (i + 1)) s in
  (cnot i (i + 1) x, s).
(** JM 74-100, the non-trivial case *)
Definition mult_core (x y : list bool) (s : list bool) : list bool * list bool :=
  let n := (length x - 1)%nat in
  let s := copy_to n y s in
  let s := map negb s in
  let s := if bit x 0 then s else add_reg false y s in
  let s := fan (bit x 1) s in
  let '(x, s) := fold_left (fun st i => mult_round y i st) (seq 1 (length x - 2)) (x, s) in
  let s := on_tail (length x - 2) (add_reg false (firstn (length s - length x + 1) y)) s in
  let s := fan (bit x (length x - 1)) s in
  (x, map negb s).
(** JM 52-104. [tracing] = false: outside tracing, where all branches of the classical controls are executed (and dropped), so that factor_1[1] is an error for one qubit.
    None: errors, or a factor without qubits. Result: factor_1, product *)
Definition jasp_multiplyer (tracing : bool) (f1 f2 : qf) : option (qf * qf) :=
  let x := reg f1 in let y := reg f2 in
  let s := repeat false (length x + length y) in
  let out s := mkqf s (ex f1 + ex f2) false in
  if (length x =? 0)%nat || (length y =? 0)%nat then None else
  if (length x =? 1)%nat then
    if tracing then Some (f1, out (if bit x 0 then copy_to 0 y s else s)) else None
  else if (length y =? 1)%nat then Some (f1, out (if bit y 0 then copy_to 0 x s else s))
  else let '(x, s) := mult_core x y s in Some (set_reg f1 x, out s).
(** JM 25-34 *)
Definition jasp_controlling_multiplyer (a b : qf) : qf :=
  mkqf (fold_left (fun s i => if bit (reg b) i then on_window i (size_of a + 1) (add_reg false (reg a)) s else s) (seq 0 (size_of b)) (repeat false (size_of a + size_of b))) 0 false.
(** JM 37-49. The copy of a[i] in the QuantumBool is undone in every round. *)
Definition jasp_squaring (a : qf) : qf :=
  mkqf (fold_left (fun s i => if bit (reg a) i then on_window i (size_of a + 1) (add_reg false (reg a)) s else s) (seq 0 (size_of a)) (repeat false (2 * size_of a))) 0 false.
(** QF 486-498: a * b while tracing; [same]: a is b *)
Definition traced_mul (same : bool) (a b : qf) : option qf :=
  if same then Some (jasp_squaring a) else match jasp_multiplyer true b a with Some (_, s) => Some s | None => None end.
(** QF 617-644, a ** (p + 1): the intermediate results are computed into p + 1 registers, the last is copied, they are uncomputed (the inverse circuit) and deleted.
    [chain]: their contents. *)
Fixpoint chain (tracing : bool) (a : qf) (p : nat) : option (list bool) :=
  match p with
  | O => Some (reg a)
  | S p => match chain tracing a p with
           | Some t => match jasp_multiplyer tracing a (mkqf t 0 false) with Some (_, s) => Some (reg s) | None => None end
           | None => None
           end
  end.
Definition power (tracing : bool) (a : qf) (p : nat) : option qf :=
  match chain tracing a p with Some t => Some (mkqf (xor_list t (repeat false (length t))) 0 false) | None => None end.
