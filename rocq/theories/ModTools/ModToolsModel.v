(** Model of the classical number theory helpers.
    Sources (under /repo/src/qrisp/alg_primitives/arithmetic):
      jasp_arithmetic/jasp_mod_tools.py            (JMT below)
      modular_arithmetic/mod_tools.py              (MT below)
      modular_arithmetic/modular_multiplication.py (MM below)
    Python ints are [Z]; [//] and [%] are [Z.div] and [Z.modulo] (both floor).
    Loops take fuel; [None] means "out of fuel" or a Python exception, as noted. *)
From Verif.Lib Require Import Arr.
Local Open Scope Z_scope.

(** number of rounds that Euclid's algorithm needs at most (proved) *)
Definition euclid_fuel (a m : Z) : nat := Z.to_nat (Z.log2 (Z.abs a + 1) + Z.log2 (Z.abs m + 1) + 4).

(** JMT 328-338 (traced, ideal integers) and 340-345 (int path) and MT 46-63: state (t, nt, r, nr) *)
Definition mi_cond (st : Z * Z * Z * Z) : bool := let '(t, nt, r, nr) := st in negb (nr =? 0).
Definition mi_body (st : Z * Z * Z * Z) : Z * Z * Z * Z :=
  let '(t, nt, r, nr) := st in
  let q := r / nr in
  (nt, t - q * nt, nr, r - q * nr).
(** JMT 297-345 [modinv] for Python ints *)
Definition modinv (a m : Z) : option Z :=
  match while (euclid_fuel a m) mi_cond mi_body (0, 1, m, a) with
  | Some (t, _, _, _) => Some (if t <? 0 then t + m else t)
  | None => None
  end.

(** MT 36-41 [egcd] (recursive); fuel bounds the recursion depth *)
Fixpoint egcd (fuel : nat) (a b : Z) : option (Z * Z * Z) :=
  match fuel with
  | O => None
  | S f =>
    if a =? 0 then Some (b, 0, 1)
    else match egcd f (b mod a) a with
         | Some (g, y, x) => Some (g, x - (b / a) * y, y)
         | None => None
         end
  end.
(** MT 64-68 [modinv] outside of tracing; [None]: "modular inverse does not exist" (or fuel, proved impossible) *)
Definition modinv_py (a m : Z) : option Z :=
  match egcd (euclid_fuel a m) a m with
  | Some (g, x, _) => if g =? 1 then Some (x mod m) else None
  | None => None
  end.

(** JMT 264-294 [egcd]: [lax.while_loop]'s cond unpacks a 6-tuple into 4 names, so tracing it
    raises ValueError for every input; the result is modelled as [None]. *)
Definition egcd_jasp (a b : Z) : option (Z * Z * Z) := None.

(** JMT 190 [montgomery_encoder] for ints; MT 30-33 computes [(y % N * R % N) % N], which parses as
    [(((y % N) * R) % N) % N] *)
Definition mont_enc (x R N : Z) : Z := ((x mod N) * (R mod N)) mod N.
Definition mont_enc_py (y R N : Z) : Z := (((y mod N) * R) mod N) mod N.
(** JMT 260-261 / MT 24-27 [montgomery_decoder] for integer R (the fractional-R branch is not modelled) *)
Definition mont_dec (y R N : Z) : option Z :=
  match modinv R N with
  | Some R1 => Some (((y mod N) * (R1 mod N)) mod N)
  | None => None
  end.
Definition mont_dec_py (y R N : Z) : option Z :=
  match modinv_py R N with
  | Some R1 => Some ((y * R1) mod N)
  | None => None
  end.
(** JMT 164 [pow2mod] outside tracing: Python's [pow(2, exp, modulus)] *)
Definition pow2mod_py (e N : Z) : Z := (2 ^ e) mod N.
(** JMT 226-231 [new_montgomery_decoder], int path *)
Definition new_mont_dec (y m N : Z) : option Z :=
  let power := pow2mod_py (Z.abs m) N in
  if m >? 0 then
    match modinv power N with Some f => Some (mont_enc y f N) | None => None end
  else Some (mont_enc y power N).

(** int64 wrap-around (two's complement) *)
Definition i64 (x : Z) : Z := (x + 2 ^ 63) mod 2 ^ 64 - 2 ^ 63.
(** JMT 47-93 [pow2_mod_N] with an int64 modulus; the exponent is an int64, so 63 rounds suffice *)
Definition p2_cond (st : Z * Z * Z) : bool := let '(_, _, e) := st in 0 <? e.
Definition p2_body (N : Z) (st : Z * Z * Z) : Z * Z * Z :=
  let '(res, b, e) := st in
  let is_odd := e mod 2 =? 1 in
  let res := if is_odd then i64 (res * b) mod N else res in
  (res, i64 (b * b) mod N, e / 2).
Definition pow2_mod_N (m N : Z) : option Z :=
  match while 63 p2_cond (p2_body N) (1, 2 mod N, m) with
  | Some (res, _, _) => Some res
  | None => None
  end.

(** JMT 366-367 [smallest_power_of_two] for ints: [(n-1).bit_length() if n > 1 else 0] *)
Definition bit_length (n : Z) : Z := if n =? 0 then 0 else Z.log2 (Z.abs n) + 1.
Definition smallest_power_of_two (n : Z) : Z := if n >? 1 then bit_length (n - 1) else 0.
(** JMT 362-364 for BigIntegers: [n.bit_size()] (C05 proves bit_size is [bit_length] of the value) *)
Definition smallest_power_of_two_big (n : Z) : Z := bit_length n.
(** JMT 377-415 [best_montgomery_shift] for ints, with modulus *)
Definition best_montgomery_shift (n N : Z) : Z :=
  let num := n * (N - 1) in
  let ceil_div := (num + N - 1) / N in
  smallest_power_of_two ceil_div.

(** MM 40-76 [cl_montgomery_reduction] *)
Definition clm_body (N : Z) (k : nat) (st : Z * Z) : Z * Z :=
  let '(x, u) := st in
  let temp := x mod 2 in
  let x := x - temp * N in
  (x / 2, Z.lor u (Z.shiftl temp (Z.of_nat k))).
Definition cl_montgomery_reduction (t N : Z) (m : nat) : Z * Z :=
  let '(x, u) := fori m (clm_body N) (t, 0) in
  (if x <? 0 then x + N else x, u).

(** MM 191-202 [find_best_montgomery_shift]; the loop is bounded by log2 N + 2 (proved) *)
Definition fbm_ok (b N : Z) (m : nat) : bool :=
  let b_trial := mont_enc_py b (Z.shiftl 1 (Z.of_nat m)) N mod N in
  (N - 1) * b_trial <? N * 2 ^ Z.of_nat m.
Fixpoint fbm (fuel : nat) (b N : Z) (m : nat) : option nat :=
  match fuel with
  | O => None
  | S f => if fbm_ok b N m then Some m else fbm f b N (S m)
  end.
Definition find_best_montgomery_shift (b N : Z) : option nat :=
  fbm (S (Z.to_nat (Z.log2 N + 1))) b N 0.
