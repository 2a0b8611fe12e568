(** Model of [BigInteger], the fixed-width base-2^32 integers.
    Source: /repo/src/qrisp/alg_primitives/arithmetic/jasp_arithmetic/jasp_bigintiger.py

    A BigInteger is its little-endian [digits] array, a [list Z] with entries in
    [0, 2^32).  All [uint32]/[uint64] computations wrap explicitly ([w32]/[w64]).
    Not modelled: JAX tracing/jit, pytrees, [__repr__], the float result of
    [__call__] under tracing, and the implicit [create] of non-BigInteger operands
    (callers apply [create] first). *)
From Verif.Lib Require Import Arr.
Local Open Scope Z_scope.

(** jasp_bigintiger.py:25 [BASE = 2**32] *)
Definition BASE : Z := 2 ^ 32.
(** [uint32] / [uint64] wrap-around *)
Definition w32 (x : Z) : Z := x mod BASE.
Definition w64 (x : Z) : Z := x mod (BASE * BASE).

(** jasp_bigintiger.py:77-82 [__call__] outside of tracing: the Python int denoted. *)
Definition call (ds : list Z) : Z :=
  fori (length ds) (fun i r => if aget ds i =? 0 then r else r + aget ds i * 2 ^ (Z.of_nat i * 32)) 0.

(** jasp_bigintiger.py:115-144 [create_static]; [None] is the ValueError for negative input. *)
Definition create_static (n : Z) (size : nat) : option (list Z) :=
  if n <? 0 then None
  else Some (fst (fori size (fun _ '(digits, n) => (digits ++ [w32 (n mod BASE)], n / BASE)) ([], n))).

(** jasp_bigintiger.py:146-181 [create] (traceable). The input is taken as an unbounded
    integer; the JAX version is limited to the width of the scalar that is passed in. *)
Definition create (n : Z) (size : nat) : list Z :=
  fst (fori size (fun i '(digits, num) => (aset digits i (w32 (num mod BASE)), num / BASE))
         (repeat 0 size, n)).

(** jasp_bigintiger.py:206-246 [coerce] for a BigInteger argument; [None] is the ValueError
    raised when limbs would be dropped. *)
Definition coerce_big (n : list Z) (size : nat) : option (list Z) :=
  let cur := length n in
  if (cur =? size)%nat then Some n
  else if (size <? cur)%nat then None
  else Some (n ++ repeat 0 (size - cur)).

(** jasp_bigintiger.py:248-282 [__add__] *)
Definition add_step (a b : list Z) (i : nat) (st : Z * list Z) : Z * list Z :=
  let '(carry, result) := st in
  let s := w64 (w64 (aget a i + aget b i) + carry) in
  let digit := w32 (Z.land s (BASE - 1)) in
  let new_carry := w64 (Z.shiftr s 32) in
  (new_carry, aset result i (w32 digit)).
Definition add (a b : list Z) : list Z :=
  snd (fori (length a) (add_step a b) (0, repeat 0 (length a))).

(** jasp_bigintiger.py:284-322 [__sub__] *)
Definition sub_step (a b : list Z) (i : nat) (st : Z * list Z) : Z * list Z :=
  let '(carry, result) := st in
  let '(s, new_carry) :=
    if aget a i >=? w64 (aget b i + carry)
    then (w32 (aget a i - aget b i - carry), 0)
    else (w32 (w64 (w64 (w64 (aget a i + BASE) - aget b i) - carry)), 1) in
  (new_carry, aset result i (w32 s)).
Definition sub (a b : list Z) : list Z :=
  snd (fori (length a) (sub_step a b) (0, repeat 0 (length a))).

(** jasp_bigintiger.py:766-776 [__invert__]: bitwise complement of every uint32 limb *)
Definition invert (a : list Z) : list Z := map (fun d => w32 (Z.lnot d)) a.

(** jasp_bigintiger.py:324-342 [__sub_alt__] *)
Definition sub_alt (a b : list Z) : list Z := invert (add (invert a) b).

(** jasp_bigintiger.py:344-388 [__mul__] *)
Definition mul_inner (a b : list Z) (i : nat) (j : nat) (st : list Z * Z) : list Z * Z :=
  let '(res, carry) := st in
  let k := (i + j)%nat in
  let tmp := w64 (w64 (aget res k + w64 (aget a i * aget b j)) + carry) in
  let new_digit := w32 (Z.land tmp (2 ^ 32 - 1)) in
  (aset res k new_digit, Z.shiftr tmp 32).
Definition mul_outer (a b : list Z) (n : nat) (i : nat) (result : list Z) : list Z :=
  fst (fori (n - i) (mul_inner a b i) (result, 0)).
Definition mul (a b : list Z) : list Z :=
  let n := length a in
  fori n (mul_outer a b n) (repeat 0 n).

(** jasp_bigintiger.py:390-433 [__pow__]; the exponent is converted to [uint64].
    The loop runs at most 64 times, so fuel 64 always suffices (proved). *)
Definition pow_body (st : list Z * Z * list Z) : list Z * Z * list Z :=
  let '(base, exp, acc) := st in
  let acc := if w64 (Z.land exp 1) =? 1 then mul acc base else acc in
  (mul base base, Z.shiftr exp 1, acc).
Definition pow (self : list Z) (other : Z) : option (list Z) :=
  let n := length self in
  match while 64 (fun '(_, exp, _) => 0 <? exp) pow_body (self, w64 other, create 1 n) with
  | Some (_, _, acc) => Some acc
  | None => None
  end.

(** jasp_bigintiger.py:474-485 / 559-570: the scan shared by [__lt__] and [__le__].
    State: (i, res_found) with res_found = -5 for "undecided". *)
Definition cmp_body (d0 d1 : list Z) (st : nat * Z) : nat * Z :=
  let '(i, res_found) := st in
  let i := (i - 1)%nat in
  let res_found := if aget d0 i <? aget d1 i then 1 else -5 in
  let res_found := if aget d0 i >? aget d1 i then 0 else res_found in
  (i, res_found).
Definition cmp_cond (st : nat * Z) : bool := let '(i, r) := st in (r =? -5) && (0 <? i)%nat.
(** The loop counter starts at n and decreases, so fuel n suffices; [None] = out of fuel,
    proved impossible. Assertion failure on different limb counts is also [None]. *)
Definition cmp_loop (d0 d1 : list Z) : option Z :=
  match while (length d0) cmp_cond (cmp_body d0 d1) (length d0, -5) with
  | Some (_, r) => Some r
  | None => None
  end.
(** jasp_bigintiger.py:447-487 [__lt__] *)
Definition lt (a b : list Z) : option bool :=
  if (length a =? length b)%nat then
    match cmp_loop a b with
    | Some res => let res := if res =? -5 then 0 else res in Some (negb (res =? 0))
    | None => None
    end
  else None.
(** jasp_bigintiger.py:532-572 [__le__] *)
Definition le (a b : list Z) : option bool :=
  if (length a =? length b)%nat then
    match cmp_loop a b with
    | Some res => let res := if res =? -5 then 1 else res in Some (negb (res =? 0))
    | None => None
    end
  else None.
(** jasp_bigintiger.py:574-597 [__gt__], 599-622 [__ge__] *)
Definition gt (a b : list Z) : option bool :=
  if (length a =? length b)%nat then lt b a else None.
Definition ge (a b : list Z) : option bool :=
  if (length a =? length b)%nat then le b a else None.
(** jasp_bigintiger.py:489-513 [__eq__], 515-530 [__ne__] *)
Definition eq (a b : list Z) : option bool :=
  if (length a =? length b)%nat
  then Some (forallb (fun p => fst p =? snd p) (combine a b)) else None.
Definition ne (a b : list Z) : option bool := option_map negb (eq a b).

(** jasp_bigintiger.py:845-862 [get_bit] *)
Definition get_bit (ds : list Z) (i : Z) : Z :=
  let pos := Z.to_nat (i / 32) in
  let pos_in := i mod 32 in
  Z.land (Z.shiftr (aget ds pos) pos_in) 1.
(** jasp_bigintiger.py:864-883 [flip_bit] *)
Definition flip_bit (ds : list Z) (i : Z) : list Z :=
  let pos := Z.to_nat (i / 32) in
  let pos_in := i mod 32 in
  aset ds pos (w32 (Z.lxor (aget ds pos) (Z.shiftl 1 pos_in))).

(** [lax.fori_loop(lo, hi, body, s)] with integer bounds *)
Definition fori_range {S} (lo hi : Z) (body : Z -> S -> S) (s : S) : S :=
  fori (Z.to_nat (hi - lo)) (fun k => body (lo + Z.of_nat k)) s.

(** jasp_bigintiger.py:624-660 [__lshift__] *)
Definition lshift (self : list Z) (shift : Z) : list Z :=
  let total_bits := Z.of_nat (length self) * 32 in
  let zeros := repeat 0 (length self) in
  if shift >=? total_bits then zeros
  else fori_range 0 (total_bits - shift)
         (fun i x => if negb (get_bit self i =? 0) then flip_bit x (i + shift) else x) zeros.
(** jasp_bigintiger.py:662-698 [__rshift__] *)
Definition rshift (self : list Z) (shift : Z) : list Z :=
  let total_bits := Z.of_nat (length self) * 32 in
  let zeros := repeat 0 (length self) in
  if shift >=? total_bits then zeros
  else fori_range shift total_bits
         (fun i x => if negb (get_bit self i =? 0) then flip_bit x (i - shift) else x) zeros.

(** jasp_bigintiger.py:700-764 [__and__], [__or__], [__xor__]: elementwise on uint32 limbs
    (equal lengths; unequal lengths would be a broadcasting error and are not modelled) *)
Definition limbwise (f : Z -> Z -> Z) (a b : list Z) : list Z :=
  map (fun p => f (fst p) (snd p)) (combine a b).
Definition band := limbwise Z.land.
Definition bor := limbwise Z.lor.
Definition bxor := limbwise Z.lxor.

(** Scan for the most significant non-zero limb, jasp_bigintiger.py:903-909 and 1008-1014:
    start at n-1, step down while i > 0 and limb i is zero. *)
Fixpoint ms_scan (a : list Z) (i : nat) : nat :=
  match i with
  | O => O
  | S j => if aget a i =? 0 then ms_scan a j else i
  end.

(** jasp_bigintiger.py:885-915 [bit_size]. [floor(log2(float64(limb)))] is modelled by the
    integer logarithm (a 32-bit limb is exact in float64). *)
Definition bit_size (a : list Z) : Z :=
  if forallb (fun d => d =? 0) a then 0
  else let ms := ms_scan a (length a - 1) in
       32 * Z.of_nat ms + (Z.log2 (aget a ms) + 1).

(** jasp_bigintiger.py:945-956 [get_larger], also the "pad" idiom at 1348-1352, 1471-1474, 1518-1521 *)
Definition get_larger (a : list Z) : list Z := a ++ repeat 0 (length a).

(** jasp_bigintiger.py:959-985 [_clz32]; the loop condition bounds it by 32 rounds. *)
Definition clz_cond (st : Z * Z) : bool :=
  let '(x, s) := st in (s <? 32) && (Z.land x (2 ^ 31) =? 0).
Definition clz_body (st : Z * Z) : Z * Z :=
  let '(x, s) := st in (w32 (Z.shiftl x 1), s + 1).
Definition clz32 (x : Z) : option Z :=
  match while 32 clz_cond clz_body (x, 0) with Some (_, s) => Some s | None => None end.

(** jasp_bigintiger.py:988-1017 [_ms_length] *)
Definition ms_length (a : list Z) : nat :=
  if forallb (fun d => d =? 0) a then O else S (ms_scan a (length a - 1)).

(** jasp_bigintiger.py:1020-1062 [_shl_bits] *)
Definition shl_body (arr : list Z) (s : Z) (i : nat) (st : Z * list Z) : Z * list Z :=
  let '(carry, out) := st in
  let ai := aget arr i in
  let low := w32 (Z.land (w64 (Z.shiftl ai s)) (2 ^ 32 - 1)) in
  let new_digit := w32 (Z.lor low carry) in
  (w32 (Z.shiftr ai (32 - s)), aset out i new_digit).
Definition shl_bits (arr : list Z) (s : Z) : list Z * Z :=
  if s =? 0 then (arr, 0)
  else let '(carry_out, out) := fori (length arr) (shl_body arr s) (0, repeat 0 (length arr)) in
       (out, carry_out).

(** jasp_bigintiger.py:1065-1106 [_shr_bits]. Line 1100 parses as
    [ai & ((1 << s) - 1)] because [-] binds tighter than [&]. *)
Definition shr_body (arr : list Z) (s : Z) (i : nat) (st : Z * list Z) : Z * list Z :=
  let '(carry, out) := st in
  let idx := (length arr - 1 - i)%nat in
  let ai := aget arr idx in
  let high := w32 (Z.land (w64 (Z.shiftl carry (32 - s))) (2 ^ 32 - 1)) in
  let new_digit := w32 (Z.lor (Z.shiftr ai s) high) in
  (w32 (Z.land ai (w32 (Z.shiftl 1 s) - 1)), aset out idx new_digit).
Definition shr_bits (arr : list Z) (s : Z) : list Z :=
  if s =? 0 then arr
  else snd (fori (length arr) (shr_body arr s) (0, repeat 0 (length arr))).

(** jasp_bigintiger.py:1109-1142 [_divmod_single_limb] *)
Definition dsl_body (u : list Z) (d : Z) (i : nat) (st : list Z * Z) : list Z * Z :=
  let '(q, rem) := st in
  let idx := (length u - 1 - i)%nat in
  let cur := w64 (w64 (Z.shiftl rem 32) + aget u idx) in
  let qi := w32 (cur / d) in
  (aset q idx qi, w64 (cur mod d)).
Definition divmod_single_limb (u : list Z) (d : Z) : list Z * Z :=
  let '(q, rem) := fori (length u) (dsl_body u d) (repeat 0 (length u), 0) in
  (q, w32 rem).

(** jasp_bigintiger.py:1217-1239: the trial quotient of one step, from the top three limbs
    u2, u1, u0 of the window and the top two limbs den, vm2 of the normalised divisor. *)
Definition trial_quotient (u2 u1 u0 den vm2 : Z) : Z :=
  let num := w64 (w64 (Z.shiftl u2 32) + u1) in
  let qhat := Z.min (num / den) (2 ^ 32 - 1) in
  let rhat := w64 (num - w64 (qhat * den)) in
  let cond1 := (qhat =? 2 ^ 32 - 1) &&
               (w64 (qhat * vm2) >? w64 (w64 (Z.shiftl rhat 32) + u0)) in
  let qhat' := if cond1 then w64 (qhat - 1) else qhat in
  let rhat' := if cond1 then w64 (rhat + den) else rhat in
  let cond2 := w64 (qhat' * vm2) >? w64 (w64 (Z.shiftl rhat' 32) + u0) in
  if cond2 then w64 (qhat' - 1) else qhat'.

(** jasp_bigintiger.py:1244-1257 [sub_body] *)
Definition knuth_sub_body (v_norm : list Z) (qhat : Z) (j : nat) (i : nat) (st : list Z * Z) : list Z * Z :=
  let '(u_norm, carry) := st in
  let p := w64 (w64 (qhat * aget v_norm i) + carry) in
  let p_low := w32 (Z.land p (2 ^ 32 - 1)) in
  let p_high := Z.shiftr p 32 in
  let idx := (j + i)%nat in
  let u_di := aget u_norm idx in
  let borrow := if u_di <? p_low then 1 else 0 in
  let new_u := w32 (Z.land (w64 (w64 (u_di + BASE) - p_low)) (2 ^ 32 - 1)) in
  (aset u_norm idx new_u, w64 (p_high + borrow)).
(** jasp_bigintiger.py:1271-1278 [add_body] *)
Definition knuth_add_body (v_norm : list Z) (j : nat) (i : nat) (st : list Z * Z) : list Z * Z :=
  let '(u_norm, carry2) := st in
  let idx := (j + i)%nat in
  let ssum := w64 (w64 (aget u_norm idx + aget v_norm i) + carry2) in
  let new_digit := w32 (Z.land ssum (2 ^ 32 - 1)) in
  (aset u_norm idx new_digit, Z.shiftr ssum 32).
(** jasp_bigintiger.py:1212-1292 [do_step] *)
Definition knuth_step (v_norm : list Z) (m j : nat) (st : list Z * list Z) : list Z * list Z :=
  let '(u_norm, q) := st in
  let ujm := (j + m)%nat in
  let qhat := trial_quotient (aget u_norm ujm) (aget u_norm (ujm - 1)) (aget u_norm (ujm - 2))
                             (aget v_norm (m - 1)) (aget v_norm (m - 2)) in
  let '(u_norm, carry) := fori m (knuth_sub_body v_norm qhat j) (u_norm, 0) in
  let top_before := aget u_norm ujm in
  let underflow := top_before <? w32 carry in
  let top_after := w32 (Z.land (w64 (w64 (top_before + BASE) - carry)) (2 ^ 32 - 1)) in
  let u_norm := aset u_norm ujm top_after in
  let '(u_norm, qhat) :=
    if underflow then
      let qhat := w64 (qhat - 1) in
      let '(u_norm, _) := fori m (knuth_add_body v_norm j) (u_norm, 0) in
      (aset u_norm ujm (w32 (w64 (aget u_norm ujm + 1))), qhat)
    else (u_norm, qhat) in
  (u_norm, aset q j (w32 (Z.land qhat (2 ^ 32 - 1)))).
(** jasp_bigintiger.py:1208-1295 [body] *)
Definition knuth_body (v_norm : list Z) (m j_count : nat) (t : nat) (st : list Z * list Z) : list Z * list Z :=
  if (t <=? j_count)%nat then knuth_step v_norm m (j_count - t) st else st.

(** jasp_bigintiger.py:1192-1309 [multi_limb_path]; result (r, q). [None]: clz32 out of fuel (impossible). *)
Definition multi_limb_path (u v : list Z) (m n_eff : nat) : option (list Z * list Z) :=
  let N := length u in
  match clz32 (aget v (m - 1)) with
  | None => None
  | Some s =>
    let '(v_norm, _) := shl_bits v s in
    let '(u_norm_part, carry_u) := shl_bits u s in
    let u_norm := u_norm_part ++ [carry_u] in
    let j_count := (n_eff - m)%nat in
    let '(u_norm, q) := fori N (knuth_body v_norm m j_count) (u_norm, repeat 0 N) in
    let r_norm_full := fori N (fun i r_acc => aset r_acc i (if (i <? m)%nat then aget u_norm i else 0)) (repeat 0 N) in
    Some (shr_bits r_norm_full s, q)
  end.

(** jasp_bigintiger.py:1145-1315 [_remainder_division_knuth]; result (r, q) *)
Definition remainder_division_knuth (u v : list Z) : option (list Z * list Z) :=
  let m := ms_length v in
  let n_eff := ms_length u in
  if (m =? 0)%nat then Some (repeat 0 (length u), repeat 0 (length u))
  else if (n_eff <? m)%nat then Some (u, repeat 0 (length u))
  else if (m =? 1)%nat then
    let '(q, r_low) := divmod_single_limb u (aget v 0) in
    Some (aset (repeat 0 (length u)) 0 r_low, q)
  else multi_limb_path u v m n_eff.

(** jasp_bigintiger.py:917-943 [remainder_division]; [None] is the AssertionError on
    different limb counts. *)
Definition remainder_division (a b : list Z) : option (list Z * list Z) :=
  if (length a =? length b)%nat then remainder_division_knuth a b else None.
(** jasp_bigintiger.py:778-799 [__mod__], 822-843 [__floordiv__] *)
Definition modulo (a b : list Z) : option (list Z) := option_map fst (remainder_division a b).
Definition floordiv (a b : list Z) : option (list Z) := option_map snd (remainder_division a b).
