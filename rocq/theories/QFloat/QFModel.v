(** Model of the labels of QuantumFloat, truncation, and out-of-place arithmetic
    (/repo/src/qrisp/qtypes/quantum_float.py, alg_primitives/arithmetic/SBP_arithmetic.py). *)
From Coq Require Import ZArith QArith Qround Qabs List Bool.
Import ListNotations.
Local Open Scope Z_scope.

(** quantum_float.py:341-365. [size = msize + 1] if signed. The exponent is an integer of any sign. *)
Record shape := mk { msize : nat; expo : Z; signed : bool }.
Definition size (f : shape) : nat := if signed f then S (msize f) else msize f.
Definition pw (e : Z) : Q := Qpower 2 e.
Definition ltq (a b : Q) : bool := negb (Qle_bool b a).

(** * Numbers *)
(** nearest integer with at most 53 significant bits, ties to even: float64(z) *)
Definition rnd53 (z : Z) : Z :=
  let a := Z.abs z in
  if a <? 2 ^ 53 then z else
  let s := Z.log2 a - 52 in
  let q := a / 2 ^ s in let r := a mod 2 ^ s in
  let q' := if (2 * r <? 2 ^ s) then q else if (2 ^ s <? 2 * r) then q + 1 else if Z.even q then q else q + 1 in
  Z.sgn z * (q' * 2 ^ s).
(** a Python integer or a float64 (as the rational it is) *)
Inductive num := Int (z : Z) | Flt (q : Q).
Definition value_of (n : num) : Q := match n with Int z => inject_Z z | Flt q => q end.
Definition to_f64 (n : num) : Q := match n with Int z => inject_Z (rnd53 z) | Flt q => q end.
(** int64 arithmetic of jax *)
Definition wrap64 (z : Z) : Z := (z + 2 ^ 63) mod 2 ^ 64 - 2 ^ 63.
Definition shl64 (a : Z) (n : Z) : Z := if n <? 64 then wrap64 (a * 2 ^ n) else 0.
(** conversion of a float64 to int64: truncation towards zero, saturating *)
Definition qtrunc (q : Q) : Z := if Qle_bool 0 q then Qfloor q else Qceiling q.
Definition sat64 (z : Z) : Z := Z.max (- 2 ^ 63) (Z.min (2 ^ 63 - 1) z).
(** jnp.round, np.round: nearest integer, ties to even *)
Definition qround (q : Q) : Z :=
  let f := Qfloor q in
  match Qcompare (q - inject_Z f)%Q (1 # 2) with Lt => f | Gt => f + 1 | Eq => if Z.even f then f else f + 1 end.

(** quantum_float.py:30-53 (x already converted to int64) *)
Definition iso (x : Z) (n : nat) : Z := Z.land x (wrap64 (shl64 1 (Z.of_nat n + 1) - 1)).
(** quantum_float.py:57-85 *)
Definition iso_inv (y : Z) (n : nat) : Z :=
  let mask := wrap64 (shl64 1 (Z.of_nat n + 1) - 1) in
  let w := Z.land y mask in
  let sign_bit := shl64 1 (Z.of_nat n) in
  if Z.land w sign_bit =? 0 then w else wrap64 (w - shl64 1 (Z.of_nat n + 1)).
(** quantum_float.py:368-380 *)
Definition decoder (f : shape) (i : Z) : Q :=
  if signed f then (inject_Z (rnd53 (iso_inv i (msize f))) * pw (expo f))%Q else (inject_Z (rnd53 i) * pw (expo f))%Q.
(** quantum_float.py:385-435, outside of tracing; None: ValueError. Multiplying the bounds by a negative power of two
    converts them to float64 first. *)
Definition bound (f : shape) (k : Z) : Q := if 0 <=? expo f then (inject_Z k * pw (expo f))%Q else (inject_Z (rnd53 k) * pw (expo f))%Q.
Definition encoder (f : shape) (i : num) : option Z :=
  let max_int := 2 ^ Z.of_nat (msize f) - 1 in
  let min_int := if signed f then - 2 ^ Z.of_nat (msize f) else 0 in
  if negb (signed f) && ltq (value_of i) 0 then None
  else if ltq (bound f max_int) (value_of i) || ltq (value_of i) (bound f min_int) then None
  else let x := (to_f64 i / pw (expo f))%Q in
  Some (if signed f then iso (sat64 (qtrunc x)) (msize f) else sat64 (qtrunc x)).
(** quantum_float.py:475-482: encode with rounding=True. numpy's argmin returns the first minimum; the
    labels are passed to the encoder as floats. *)
Definition labels (f : shape) : list Q := map (fun i => decoder f (Z.of_nat i)) (seq 0 (2 ^ size f)).
Fixpoint argmin (x : Q) (best : Q) (l : list Q) : Q :=
  match l with
  | [] => best
  | a :: l => argmin x (if Qle_bool (Qabs (x - best)) (Qabs (x - a)) then best else a) l
  end.
Definition encode_rounding (f : shape) (x : Q) : option Z :=
  match labels f with [] => None | a :: l => encoder f (Flt (argmin x a l)) end.
(** quantum_float.py:998-1039 *)
Definition truncate (f : shape) (x : Q) : Q :=
  let res := sat64 (qround (x / pw (expo f))%Q) in
  let res := Z.min (2 ^ Z.of_nat (msize f) - 1) res in
  decoder f (if signed f then iso (Z.max (- 2 ^ Z.of_nat (msize f)) res) (size f) else Z.max 0 res).

(** * Out-of-place arithmetic *)
(** quantum_float.py:1183-1210: create_output_qf for "add", "sub", "mul"; [same]: both operands are the same register *)
Inductive opr := Add | Sub | Mul.
Definition out_shape (o : opr) (same : bool) (a b : shape) : shape :=
  let top f := expo f + Z.of_nat (msize f) in
  match o with
  | Add => let e := Z.min (expo a) (expo b) in mk (Z.to_nat (Z.max (top a) (top b) + 1 - e + 1)) e (signed a || signed b)
  | Sub => let e := Z.min (expo a) (expo b) in mk (Z.to_nat (Z.max (top a) (top b) + 1 - e + 1)) e true
  | Mul => mk (msize a + msize b + (if signed a && signed b then 1 else 0)) (expo a + expo b)
             (if same && (signed a && signed b) then false else signed a || signed b)
  end.
(** quantum_float.py:437-473: coefficients of the semi-boolean polynomial, without the factor 2**exponent. Powers of two
    are float64 in the code; their sums and products are exact here. *)
Definition sb_poly (f : shape) (m : nat) : list Z :=
  let m := match m with 0%nat => size f | _ => m end in
  map (fun i => 2 ^ Z.of_nat i + (if signed f && (S i =? size f)%nat then 2 ^ (Z.of_nat m + 1) - 2 ^ Z.of_nat (size f) else 0)) (seq 0 (size f)).
Definition bits (f : shape) (c : Z) : list bool := map (fun i => Z.testbit c (Z.of_nat i)) (seq 0 (size f)).
(** SBP_arithmetic.py:195-330: a polynomial in the qubits is a list of coefficients with the values of its qubits; for each
    monomial whose qubits are all one, the rounded coefficient is added to the output modulo 2^size (the QFT part is
    modelled in Sbp/). Equal monomials are merged by sympy; here they are not, which makes no difference to
    integer coefficients. *)
Definition encode_monomials (out : shape) (ms : list (Q * list bool)) (c : Z) : Z :=
  fold_left (fun acc '(k, bs) => (acc + (if forallb (fun b => b) bs then qround (k / pw (expo out))%Q else 0)) mod 2 ^ Z.of_nat (size out)) ms c.
Definition poly_of (f : shape) (m : nat) (c : Z) : list (Q * list bool) :=
  map (fun '(w, b) => ((inject_Z w * pw (expo f))%Q, [b])) (combine (sb_poly f m) (bits f c)).
(** SBP_arithmetic.py:338-494 *)
Definition sbp (o : opr) (same : bool) (a b : shape) (ca cb : Z) : shape * Z :=
  let out := out_shape o same a b in
  let pa := poly_of a (msize out) ca in let pb := poly_of b (msize out) cb in
  (out, encode_monomials out (match o with
    | Add => pa ++ pb
    | Sub => pa ++ map (fun '(k, bs) => ((- k)%Q, bs)) pb
    | Mul => flat_map (fun '(k, bs) => map (fun '(l, cs) => ((k * l)%Q, bs ++ cs)) pb) pa
    end) 0).

(** quantum_float.py:505-508: dividing out the powers of two; None: still running after [fuel] rounds *)
Fixpoint odd_part (fuel : nat) (other shift : Z) : option (Z * Z) :=
  match fuel with
  | O => None
  | S fuel => if other mod 2 =? 0 then odd_part fuel (other / 2) (shift + 1) else Some (other, shift)
  end.
(** quantum_float.py:504-527: multiplication by an integer. polynomial_encoder uses sb_poly(output_qf.size)
    (SBP_arithmetic.py:578). np.log2 is exact here. *)
Definition mul_int (fuel : nat) (f : shape) (other : Z) (c : Z) : option (shape * Z) :=
  match odd_part fuel other 0 with
  | None => None
  | Some (o, s) =>
      let out := mk (msize f + Z.to_nat (Z.log2_up (Z.abs o))) (expo f) (signed f || (o <? 0)) in
      let code := encode_monomials out (map (fun '(k, bs) => ((inject_Z o * k)%Q, bs)) (poly_of f (size out) c)) 0 in
      Some (mk (msize out) (expo out + s) (signed out), code)
  end.
(** quantum_float.py:549-553, 680-691: adding a classical number to a duplicate of self; None: precision too low *)
Definition add_num (f : shape) (x : Q) (c : Z) : option (shape * Z) :=
  if Qeq_bool (inject_Z (qtrunc (x / pw (expo f))%Q)) (x / pw (expo f))%Q
  then Some (f, encode_monomials f [(x, [])] c) else None.

(** quantum_float.py:1127-1169 for the polynomial of matmul with res_bit_shape="safe" (matrix_multiplication.py:97-112):
    a sum of n products of entries of two arrays with entries of shapes a and b. *)
Definition dot_shape (n : nat) (a b : shape) : shape :=
  let min_sig := expo a + expo b in
  let max_sig := Z.log2_up (Z.of_nat n) + (expo a + Z.of_nat (msize a)) + (expo b + Z.of_nat (msize b)) in
  mk (Z.to_nat (max_sig - min_sig)) min_sig (signed a || signed b).
