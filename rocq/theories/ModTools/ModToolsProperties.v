(** C10-C12: modular inverses, Montgomery representation, Montgomery reduction (Python ints). *)
From Verif.Lib Require Import Arr.
From Verif.ModTools Require Import ModToolsModel ModToolsProofs.
Local Open Scope Z_scope.

(** ** C10: modular inverse *)
Theorem C10_modinv : forall a m, 0 <= a -> 2 <= m -> Z.gcd a m = 1 ->
  exists x, modinv a m = Some x /\ 0 <= x < m /\ (a * x) mod m = 1.
Proof. exact modinv_spec. Qed.
Print Assumptions C10_modinv.

Theorem C10_modinv_plain : forall a m, 0 <= a -> 2 <= m ->
  (Z.gcd a m = 1 -> exists x, modinv_py a m = Some x /\ 0 <= x < m /\ (a * x) mod m = 1) /\
  (Z.gcd a m <> 1 -> modinv_py a m = None).
Proof. exact modinv_py_spec. Qed.
Print Assumptions C10_modinv_plain.

Theorem C10_egcd_bezout : forall a m, 0 <= a -> 0 < m ->
  exists g x y, egcd (euclid_fuel a m) a m = Some (g, x, y) /\ g = Z.gcd a m /\ x * a + y * m = g.
Proof. exact egcd_total. Qed.
Print Assumptions C10_egcd_bezout.

Example C10_ex : modinv 1234567 1000003 = Some 678286 /\ modinv 3 (2 ^ 61 - 1) = Some 1537228672809129301
  /\ modinv_py 12 18 = None /\ modinv_py 1000003 97 = Some 55.
Proof. vm_compute. repeat split. Qed.

(** negative arguments are outside the claim: the loop then stops with gcd -1 and the sign is lost *)
Example C10_negative_argument : exists x, modinv (-3) 7 = Some x /\ ((-3) * x) mod 7 <> 1.
Proof. eexists. split; [vm_compute; reflexivity|]. vm_compute. discriminate. Qed.

(** ** C11: Montgomery representation *)
Theorem C11_roundtrip : forall x R N, 2 <= N -> 0 <= R -> Z.gcd R N = 1 -> 0 <= x < N ->
  mont_dec (mont_enc x R N) R N = Some x.
Proof. exact mont_roundtrip. Qed.
Print Assumptions C11_roundtrip.

Theorem C11_roundtrip_plain : forall x R N, 2 <= N -> 0 <= R -> Z.gcd R N = 1 -> 0 <= x < N ->
  mont_dec_py (mont_enc_py x R N) R N = Some x.
Proof. exact mont_roundtrip_py. Qed.
Print Assumptions C11_roundtrip_plain.

Theorem C11_encoder_value : forall x R N, N <> 0 -> mont_enc x R N = (x * R) mod N.
Proof. exact mont_enc_value. Qed.
Print Assumptions C11_encoder_value.

Theorem C11_decoder_value : forall y R N, 2 <= N -> 0 <= R -> Z.gcd R N = 1 ->
  exists x, mont_dec y R N = Some x /\ 0 <= x < N /\ (x * R) mod N = y mod N.
Proof. exact mont_dec_value. Qed.
Print Assumptions C11_decoder_value.

Theorem C11_shift_decoder : forall y m N, 2 <= N -> Z.odd N = true ->
  exists x, new_mont_dec y m N = Some x /\ 0 <= x < N /\
    (0 < m -> (x * 2 ^ m) mod N = y mod N) /\ (m <= 0 -> x = (y * 2 ^ (- m)) mod N).
Proof. exact new_mont_dec_spec. Qed.
Print Assumptions C11_shift_decoder.

Theorem C11_pow2_mod_N : forall m N, 2 <= N <= 3037000500 -> 0 <= m < 2 ^ 63 -> pow2_mod_N m N = Some ((2 ^ m) mod N).
Proof. exact pow2_mod_N_spec. Qed.
Print Assumptions C11_pow2_mod_N.

(** the int64 squaring overflows for larger moduli: the bound above is sharp up to one *)
Theorem C11_pow2_mod_N_refuted : exists m N, 2 <= N < 2 ^ 63 /\ 0 <= m < 2 ^ 63 /\ pow2_mod_N m N <> Some ((2 ^ m) mod N).
Proof. exists 100, (2 ^ 61 - 1). vm_compute. repeat split; discriminate. Qed.
Print Assumptions C11_pow2_mod_N_refuted.

Example C11_ex : mont_enc 5 64 77 = 12 /\ mont_dec 12 64 77 = Some 5 /\ mont_enc_py 5 64 77 = 12 /\ mont_dec_py 12 64 77 = Some 5
  /\ new_mont_dec 12 6 77 = Some 5 /\ new_mont_dec 12 (-2) 77 = Some 48 /\ pow2_mod_N 1000 1000003 = Some 510646.
Proof. vm_compute. repeat split. Qed.

(** ** C12: classical Montgomery reduction *)
Theorem C12_reduction : forall t N m, 0 < N -> Z.odd N = true -> 0 <= t < N * 2 ^ Z.of_nat m ->
  let '(s, u) := cl_montgomery_reduction t N m in
  0 <= s < N /\ (s * 2 ^ Z.of_nat m) mod N = t mod N /\
  0 <= u < 2 ^ Z.of_nat m /\ (u * N) mod 2 ^ Z.of_nat m = t mod 2 ^ Z.of_nat m.
Proof. exact cl_mont_spec. Qed.
Print Assumptions C12_reduction.

Theorem C12_find_best_shift : forall b N, 2 <= N ->
  exists m, find_best_montgomery_shift b N = Some m /\
    (forall a, 0 <= a < N -> a * ((b * 2 ^ Z.of_nat m) mod N) < N * 2 ^ Z.of_nat m) /\
    (forall k, (k < m)%nat -> ~ forall a, 0 <= a < N -> a * ((b * 2 ^ Z.of_nat k) mod N) < N * 2 ^ Z.of_nat k).
Proof. exact find_best_shift_spec. Qed.
Print Assumptions C12_find_best_shift.

Theorem C12_best_shift_sufficient : forall n N x, 2 <= N -> 0 <= n < N -> 0 <= x < N ->
  n * x < N * 2 ^ best_montgomery_shift n N.
Proof. exact best_shift_spec. Qed.
Print Assumptions C12_best_shift_sufficient.

Example C12_ex : cl_montgomery_reduction 1234 77 6 = (65, 26) /\ (65 * 64) mod 77 = 1234 mod 77
  /\ find_best_montgomery_shift 10 77 = Some 3%nat /\ best_montgomery_shift 10 77 = 4.
Proof. vm_compute. repeat split. Qed.

(** ** C51: the smallest power of two *)
Theorem C51_smallest_power_of_two : forall n,
  0 <= smallest_power_of_two n /\ n <= 2 ^ smallest_power_of_two n /\
  (forall k, 0 <= k -> n <= 2 ^ k -> smallest_power_of_two n <= k).
Proof. exact smallest_power_spec. Qed.
Print Assumptions C51_smallest_power_of_two.

(** the BigInteger overload returns a larger exponent on exact powers of two *)
Theorem C51_biginteger_refuted : exists n, 0 < n /\
  ~ (forall k, 0 <= k -> n <= 2 ^ k -> smallest_power_of_two_big n <= k).
Proof. exists 8. split; [reflexivity|]. intros H. specialize (H 3 ltac:(discriminate) ltac:(discriminate)). vm_compute in H. apply H. reflexivity. Qed.
Print Assumptions C51_biginteger_refuted.
