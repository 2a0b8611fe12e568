(** Properties C10 and C11 for BigIntegers.  As in C13, the results assume that the divisions
    made are ones proved exact in C07/C08: the modulus fits in one limb, or the partial quotients
    met by Euclid's algorithm are at most 2^32 - 4 (all but a fraction of about 2^-32 of them are).
    [cf_digits x y ds]: ds are the quotients of Euclid's algorithm on x, y (CFSpec.v). *)
From Verif.BigInt Require Import BigIntSpec BigIntModel.
From Verif.ContFrac Require Import CFSpec CFModel.
From Verif.BigMod Require Import BigModModel BigModProofs.
From Coq Require Import ZArith List Lia.
Import ListNotations.
Local Open Scope Z_scope.

(** the loop ends after at most length ds + 1 tests and returns the inverse; a may exceed m *)
Theorem C10_bi_modinv_partial : forall a m ds fuel, wf a -> wf m -> length a = length m -> 2 <= value m -> 0 < value a ->
  Z.gcd (value a) (value m) = 1 -> cf_digits (value m) (value a) ds ->
  value m < 2 ^ 32 \/ Forall (fun x => x <= 2 ^ 32 - 4) ds -> (length ds < fuel)%nat ->
  exists x, bi_modinv fuel a m = Ok x /\ wf x /\ length x = length a /\
    0 <= value x < value m /\ (value a * value x) mod value m = 1.
Proof. exact modinv_correct. Qed.
Print Assumptions C10_bi_modinv_partial.

(** the cofactors satisfy Bezout's identity modulo the range of an n-limb integer *)
Theorem C10_bi_extended_euclidean_partial : forall a b ds fuel, wf a -> wf b -> length a = length b -> 0 < value b ->
  cf_digits (value a) (value b) ds -> value b < 2 ^ 32 \/ Forall (fun x => x <= 2 ^ 32 - 4) ds -> (length ds < fuel)%nat ->
  exists g x y, bi_extended_euclidean fuel a b = Ok (g, x, y) /\ wf g /\ wf x /\ wf y /\
    length g = length a /\ length x = length a /\ length y = length a /\ value g = Z.gcd (value a) (value b) /\
    (value x * value a + value y * value b) mod cap (length a) = value g.
Proof. exact egcd_correct. Qed.
Print Assumptions C10_bi_extended_euclidean_partial.

Example C10_bi_ex : cf_digits 77 64 [1; 4; 1; 12] /\ Forall (fun x => x <= 2 ^ 32 - 4) [1; 4; 1; 12] /\
  bi_modinv 5 [64; 0] [77; 0] = Ok [71; 0] /\ (64 * 71) mod 77 = 1 /\
  bi_modinv 9 [17; 5] [7; 0] = Ok [4; 0] /\
  bi_extended_euclidean 9 [240; 0] [46; 0] = Ok ([2; 0], [4294967287; 4294967295], [47; 0]).
Proof.
  split.
  { apply (cf_next 77 64); [reflexivity|discriminate|]. apply (cf_next 64 13); [reflexivity|discriminate|].
    apply (cf_next 13 12); [reflexivity|discriminate|]. apply (cf_last 12 1); reflexivity. }
  split; [repeat (apply Forall_cons; [lia|]); apply Forall_nil|]. vm_compute. auto.
Qed.

Theorem C11_bi_encode_partial : forall x R m, wf x -> wf R -> wf m -> length x = length m -> length R = length m -> 0 < value m ->
  value m < 2 ^ 32 \/ (forall i : nat, (value x * value R / value m / (2 ^ 32) ^ Z.of_nat i) mod 2 ^ 32 <= 2 ^ 32 - 4) ->
  exists r, bi_montgomery_encode x R m = Ok r /\ wf r /\ length r = length m /\ value r = (value x * value R) mod value m.
Proof. exact encode_correct. Qed.
Print Assumptions C11_bi_encode_partial.

Theorem C11_bi_roundtrip_partial : forall x R m fuel ds, wf x -> wf R -> wf m -> length x = length m -> length R = length m ->
  2 <= value m < 2 ^ 32 -> Z.gcd (value R) (value m) = 1 -> value x < value m ->
  cf_digits (value m) (value R) ds -> (length ds < fuel)%nat ->
  exists y z, bi_montgomery_encode x R m = Ok y /\ value y = (value x * value R) mod value m /\
    bi_montgomery_decode fuel y R m = Ok z /\ wf z /\ length z = length m /\ value z = value x.
Proof. exact roundtrip_correct. Qed.
Print Assumptions C11_bi_roundtrip_partial.

Example C11_bi_ex : bi_montgomery_encode [5; 0] [64; 0] [77; 0] = Ok [12; 0] /\
  bi_montgomery_decode 5 [12; 0] [64; 0] [77; 0] = Ok [5; 0] /\
  bi_montgomery_encode [5; 7] [0; 1] [4294967291; 0] = Ok [200; 0].
Proof. vm_compute. auto. Qed.
