(** Properties C01-C09: BigInteger arithmetic denotes arithmetic on integers.
    [value] is the denoted number, [wf] says every limb is a 32-bit word and [cap n] is
    2^(32 n) (BigIntSpec.v).  Operations are the model's (BigIntModel.v). *)
From Verif.Lib Require Import Arr.
From Verif.BigInt Require Import BigIntSpec BigIntModel BigIntLemmas BigIntArith BigIntBits BigIntDiv BigIntKnuth BigIntDivTop.
Local Open Scope Z_scope.

(** ** C01 *)
Theorem C01_add : forall a b, wf a -> wf b -> length a = length b ->
  wf (add a b) /\ length (add a b) = length a /\ value (add a b) = (value a + value b) mod cap (length a).
Proof. exact (fun a b Ha Hb Hl => conj (add_wf a b Ha Hb) (conj (add_length a b) (add_value a b Ha Hb Hl))). Qed.
Print Assumptions C01_add.

Theorem C01_sub : forall a b, wf a -> wf b -> length a = length b ->
  wf (sub a b) /\ length (sub a b) = length a /\ value (sub a b) = (value a - value b) mod cap (length a).
Proof. exact (fun a b Ha Hb Hl => conj (sub_wf a b Ha Hb) (conj (sub_length a b) (sub_value a b Ha Hb Hl))). Qed.
Print Assumptions C01_sub.

(** the alternative subtraction ~(~a + b) agrees *)
Theorem C01_sub_alt : forall a b, wf a -> wf b -> length a = length b ->
  value (sub_alt a b) = (value a - value b) mod cap (length a).
Proof. exact sub_alt_value. Qed.
Print Assumptions C01_sub_alt.

Example C01_ex : let a := [4294967295; 4294967295; 7] in let b := [1; 0; 4294967290] in
  wf a /\ wf b /\ length a = length b /\ add a b = [0; 0; 2] /\ sub b a = [2; 0; 4294967282].
Proof. cbv zeta. split; [wf_lit|]. split; [wf_lit|]. vm_compute. auto. Qed.

(** ** C02 *)
Theorem C02_mul : forall a b, wf a -> wf b -> length a = length b ->
  wf (mul a b) /\ length (mul a b) = length a /\ value (mul a b) = (value a * value b) mod cap (length a).
Proof. exact (fun a b Ha Hb Hl => conj (mul_wf a b Ha Hb Hl) (conj (mul_length a b Ha Hb Hl) (mul_value a b Ha Hb Hl))). Qed.
Print Assumptions C02_mul.

Example C02_ex : let a := [4294967295; 4294967295] in wf a /\ mul a a = [1; 0] /\
  mul [4294967295; 0] [4294967295; 0] = [1; 4294967294].
Proof. cbv zeta. split; [wf_lit|]. vm_compute. auto. Qed.

(** ** C03 *)
Theorem C03_comparisons : forall a b, wf a -> wf b -> length a = length b ->
  lt a b = Some (value a <? value b) /\ le a b = Some (value a <=? value b) /\
  gt a b = Some (value a >? value b) /\ ge a b = Some (value a >=? value b) /\
  eq a b = Some (value a =? value b) /\ ne a b = Some (negb (value a =? value b)).
Proof.
  exact (fun a b Ha Hb Hl => conj (lt_value a b Ha Hb Hl) (conj (le_value a b Ha Hb Hl) (conj (gt_value a b Ha Hb Hl)
    (conj (ge_value a b Ha Hb Hl) (conj (eq_value a b Ha Hb Hl) (ne_value a b Ha Hb Hl)))))).
Qed.
Print Assumptions C03_comparisons.

(** different limb counts are rejected by every comparison *)
Theorem C03_length_mismatch : forall a b, length a <> length b ->
  lt a b = None /\ le a b = None /\ gt a b = None /\ ge a b = None /\ eq a b = None /\ ne a b = None.
Proof. exact cmp_length_mismatch. Qed.
Print Assumptions C03_length_mismatch.

Example C03_ex : lt [5; 7; 1] [4; 8; 1] = Some true /\ le [5; 7; 1] [5; 7; 1] = Some true /\ gt [0; 0; 2] [9; 9; 1] = Some true.
Proof. vm_compute. auto. Qed.

(** ** C04 *)
Theorem C04_lshift : forall a s, wf a -> 0 <= s ->
  wf (lshift a s) /\ length (lshift a s) = length a /\ value (lshift a s) = (value a * 2 ^ s) mod cap (length a).
Proof. exact lshift_spec. Qed.
Print Assumptions C04_lshift.

Theorem C04_rshift : forall a s, wf a -> 0 <= s ->
  wf (rshift a s) /\ length (rshift a s) = length a /\ value (rshift a s) = value a / 2 ^ s.
Proof. exact rshift_spec. Qed.
Print Assumptions C04_rshift.

Example C04_ex : lshift [2147483649; 3] 1 = [2; 7] /\ rshift [1; 3] 1 = [2147483648; 1] /\
  lshift [5; 0] 32 = [0; 5] /\ lshift [5; 1] 64 = [0; 0].
Proof. vm_compute. auto. Qed.

(** ** C05 *)
Theorem C05_bitwise : forall a b i, wf a -> wf b -> length a = length b -> 0 <= i ->
  wf (band a b) /\ wf (bor a b) /\ wf (bxor a b) /\
  Z.testbit (value (band a b)) i = Z.testbit (value a) i && Z.testbit (value b) i /\
  Z.testbit (value (bor a b)) i = Z.testbit (value a) i || Z.testbit (value b) i /\
  Z.testbit (value (bxor a b)) i = xorb (Z.testbit (value a) i) (Z.testbit (value b) i).
Proof.
  intros a b i Ha Hb Hl Hi.
  destruct (band_value a b Ha Hb Hl) as [W1 [_ ->]]. destruct (bor_value a b Ha Hb Hl) as [W2 [_ ->]]. destruct (bxor_value a b Ha Hb Hl) as [W3 [_ ->]].
  rewrite Z.land_spec, Z.lor_spec, Z.lxor_spec. auto 10.
Qed.
Print Assumptions C05_bitwise.

Theorem C05_invert : forall a, wf a -> wf (invert a) /\ length (invert a) = length a /\ value (invert a) = cap (length a) - 1 - value a.
Proof. exact (fun a Ha => conj (invert_wf a) (conj (invert_length a) (invert_value a Ha))). Qed.
Print Assumptions C05_invert.

Theorem C05_get_bit : forall a i, wf a -> 0 <= i -> get_bit a i = Z.b2z (Z.testbit (value a) i).
Proof. exact get_bit_spec. Qed.
Print Assumptions C05_get_bit.

Theorem C05_flip_bit : forall a i j, wf a -> 0 <= i < 32 * Z.of_nat (length a) -> 0 <= j ->
  Z.testbit (value (flip_bit a i)) j = xorb (Z.testbit (value a) j) (i =? j).
Proof. exact flip_bit_spec. Qed.
Print Assumptions C05_flip_bit.

(** bit_size is the least k with a < 2^k *)
Theorem C05_bit_size : forall a, wf a ->
  0 <= bit_size a /\ value a < 2 ^ bit_size a /\ forall k, 0 <= k -> value a < 2 ^ k -> bit_size a <= k.
Proof. exact bit_size_least. Qed.
Print Assumptions C05_bit_size.

Example C05_ex : band [12; 5] [10; 4] = [8; 4] /\ invert [0; 1] = [4294967295; 4294967294] /\
  get_bit [0; 4] 34 = 1 /\ flip_bit [0; 4] 34 = [0; 0] /\ bit_size [0; 5] = 35 /\ bit_size [0; 0] = 0.
Proof. vm_compute. repeat split. Qed.

(** ** C06 *)
Theorem C06_create : forall v n,
  wf (create v n) /\ length (create v n) = n /\ value (create v n) = v mod cap n.
Proof. exact (fun v n => conj (create_wf v n) (conj (create_length v n) (create_value v n))). Qed.
Print Assumptions C06_create.

Theorem C06_create_static : forall v n,
  create_static v n = if v <? 0 then None else Some (create v n).
Proof. exact create_static_eq. Qed.
Print Assumptions C06_create_static.

(** creating and reading back returns the number whenever it fits *)
Theorem C06_roundtrip : forall v n, 0 <= v < cap n ->
  exists d, create_static v n = Some d /\ call d = v.
Proof. exact create_static_call. Qed.
Print Assumptions C06_roundtrip.

(** widening keeps the value; narrowing is refused *)
Theorem C06_coerce : forall d n,
  match coerce_big d n with
  | Some r => length r = n /\ value r = value d /\ (wf d -> wf r)
  | None => (n < length d)%nat
  end.
Proof. exact coerce_big_value. Qed.
Print Assumptions C06_coerce.

Example C06_ex : create_static (2 ^ 70 + 5) 3 = Some [5; 0; 64] /\ call [5; 0; 64] = 2 ^ 70 + 5 /\
  create_static (-1) 3 = None /\ coerce_big [1; 2] 3 = Some [1; 2; 0] /\ coerce_big [1; 0] 1 = None.
Proof. vm_compute. repeat split. Qed.

(** ** C07 *)
Theorem C07_single_limb_divisor : forall u v, wf u -> wf v -> length u = length v -> 0 < value v < 2 ^ 32 ->
  exists r q, remainder_division u v = Some (r, q) /\ wf r /\ wf q /\ length r = length u /\ length q = length u /\
    value q = value u / value v /\ value r = value u mod value v.
Proof. exact div_single. Qed.
Print Assumptions C07_single_limb_divisor.

Theorem C07_division_by_zero : forall u v, length u = length v -> wf v -> value v = 0 ->
  exists r q, remainder_division u v = Some (r, q) /\ length r = length u /\ length q = length u /\ value q = 0 /\ value r = 0.
Proof. exact div_zero_value. Qed.
Print Assumptions C07_division_by_zero.

Example C07_ex : remainder_division [5; 7; 9] [10; 0; 0] = Some ([1; 0; 0], [429496730; 3865470567; 0])
  /\ remainder_division [5; 7; 9] [0; 0; 0] = Some ([0; 0; 0], [0; 0; 0]).
Proof. vm_compute. auto. Qed.

(** ** C08: false in general, true whenever the true quotient has no base-2^32 digit above
    2^32 - 4 (in particular for every quotient up to 2^32 - 4), and for every divisor of the
    form c * 2^(32 k). *)
Theorem C08_refuted : exists u v, wf u /\ wf v /\ length u = length v /\ 0 < value v /\
  exists r q, remainder_division u v = Some (r, q) /\ value q <> value u / value v /\ value r <> value u mod value v.
Proof.
  exists [5; 2147483648; 2147483648], [4294967295; 2147483648; 0].
  split; [wf_lit|]. split; [wf_lit|]. split; [reflexivity|]. split; [reflexivity|].
  eexists; eexists. split; [vm_compute; reflexivity|]. split; vm_compute; discriminate.
Qed.
Print Assumptions C08_refuted.

Theorem C08_division_partial : forall u v, wf u -> wf v -> length u = length v -> 0 < value v ->
  (forall i : nat, (value u / value v / (2 ^ 32) ^ Z.of_nat i) mod 2 ^ 32 <= 2 ^ 32 - 4) ->
  exists r q, remainder_division u v = Some (r, q) /\ wf r /\ wf q /\ length r = length u /\ length q = length u /\
    value q = value u / value v /\ value r = value u mod value v.
Proof. exact div_digits. Qed.
Print Assumptions C08_division_partial.

Theorem C08_small_quotient_partial : forall u v, wf u -> wf v -> length u = length v -> 0 < value v ->
  value u / value v <= 2 ^ 32 - 4 ->
  exists r q, remainder_division u v = Some (r, q) /\ wf r /\ wf q /\ length r = length u /\ length q = length u /\
    value q = value u / value v /\ value r = value u mod value v.
Proof. exact div_small_quotient. Qed.
Print Assumptions C08_small_quotient_partial.

Theorem C08_shifted_limb_divisor_partial : forall u v k c, wf u -> wf v -> length u = length v -> 0 < c < 2 ^ 32 ->
  value v = c * (2 ^ 32) ^ Z.of_nat k ->
  exists r q, remainder_division u v = Some (r, q) /\ wf r /\ wf q /\ length r = length u /\ length q = length u /\
    value q = value u / value v /\ value r = value u mod value v.
Proof. exact div_limb_shift. Qed.
Print Assumptions C08_shifted_limb_divisor_partial.

(** a division with two-limb divisor and two-digit quotient, so several Knuth steps *)
Example C08_ex : let u := [1; 2; 3; 4] in let v := [7; 9; 0; 0] in
  remainder_division u v = Some ([2757262960; 6; 0; 0], [3287505831; 1908874353; 0; 0]) /\
  (value u = value v * value [3287505831; 1908874353; 0; 0] + value [2757262960; 6; 0; 0]).
Proof. vm_compute. auto. Qed.

(** ** C09 *)
Theorem C09_pow : forall a e, wf a -> 0 <= e < 2 ^ 64 ->
  exists r, pow a e = Some r /\ wf r /\ length r = length a /\ value r = (value a ^ e) mod cap (length a).
Proof. exact pow_value. Qed.
Print Assumptions C09_pow.

Example C09_ex : pow [3; 0] 40 = Some [689956897; 2830677074] /\ (3 ^ 40) mod cap 2 = value [689956897; 2830677074].
Proof. vm_compute. auto. Qed.
