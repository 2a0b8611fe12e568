(** Properties C43 (RSA helpers) and C44 (factoring).  [order_of], [proper_divisor]: ShorSpec.v.
    The quantum measurement enters as an arbitrary list of phases (n, d), meaning n/d, resp. as
    arbitrary outcomes [order] of the order finding; the order of the proposals, which depends on
    a cost function, is an arbitrary permutation. *)
From Verif.Shor Require Import ShorSpec ShorModel ShorProofs RSAModel RSAProofs.
From Coq Require Import ZArith List Lia Znumtheory Permutation.
Import ListNotations.
Local Open Scope Z_scope.

(** ** C44 *)
(** whatever the order finding returns, a returned factor is a proper divisor *)
Theorem C44_proper_divisor : forall N ps order g, 2 < N -> Permutation ps (candidates N) ->
  shors_alg N ps order = Ok g -> proper_divisor g N.
Proof.
  intros N ps order g HN HP H. unfold shors_alg in H.
  destruct (Z.eqb_spec (N mod 2) 0) as [E|E].
  - injection H as <-. split; [apply Z.mod_divide; [lia|exact E]|].
    assert (N <> 2) by lia. lia.
  - destruct ps as [|a ps']; [discriminate|]. eapply shor_loop_proper; [exact HN| |exact H].
    intros b Hb. apply (candidates_spec N b). eapply Permutation_in; eassumption.
Qed.
Print Assumptions C44_proper_divisor.

(** the bases tried are exactly the units 2 <= a < min(100, N-1) *)
Theorem C44_candidates : forall N a, In a (candidates N) <-> 2 <= a < N - 1 /\ a < 100 /\ Z.gcd a N = 1.
Proof.
  intros N a. split.
  - intros H. apply candidates_spec in H. lia.
  - intros (H1 & H2 & H3). now apply candidates_complete.
Qed.
Print Assumptions C44_candidates.

(** if the order finding returns the multiplicative order of each base and some base has an even
    order r with a^(r/2) <> -1 (mod N), a factor is returned *)
Theorem C44_success : forall N ps order, 2 < N -> N mod 2 <> 0 -> Permutation ps (candidates N) ->
  (forall a, In a ps -> exists r, order a = Ok (PyInt r) /\ order_of a N r) ->
  (exists a r, In a ps /\ order_of a N r /\ r mod 2 = 0 /\ a ^ (r / 2) mod N <> N - 1) ->
  exists g, shors_alg N ps order = Ok g /\ proper_divisor g N.
Proof.
  intros N ps order HN HO HP H1 H2.
  assert (HG : forall b, In b ps -> Z.gcd b N = 1).
  { intros b Hb. apply (candidates_spec N b). eapply Permutation_in; eassumption. }
  destruct (shor_loop_succeeds N order HN ps HG H1 H2) as [g Hg].
  exists g. unfold shors_alg. apply Z.eqb_neq in HO. rewrite HO.
  destruct ps as [|a ps']; [discriminate|]. split; [exact Hg|]. eapply shor_loop_proper; eassumption.
Qed.
Print Assumptions C44_success.

(** N = 2 returns 2, which is not a proper divisor *)
Theorem C44_two_refuted : exists N g, 1 < N /\ (forall ps order, shors_alg N ps order = Ok g) /\ ~ proper_divisor g N.
Proof. exists 2, 2. split; [lia|]. split; [reflexivity|]. intros [_ H]. lia. Qed.
Print Assumptions C44_two_refuted.

(** a Python int returned by extract_order is an exponent with a^r = 1; a numpy integer is one if
    the power does not overflow *)
Theorem C44_extract_order_partial : forall mes a N r, extract_order mes a N = Ok r ->
  (r = PyInt (num_val r) -> 1 < num_val r /\ a ^ num_val r mod N = 1) /\
  (r = Np64 (num_val r) -> - 2 ^ 63 <= a ^ num_val r < 2 ^ 63 -> a ^ num_val r mod N = 1).
Proof.
  intros mes a N r H. apply extract_sound in H. destruct r as [r|r]; cbn [num_val sound] in *.
  - split; [intros _; exact H|discriminate].
  - split; [discriminate|]. intros _ B. rewrite wrap64_small in H by exact B. apply H.
Qed.
Print Assumptions C44_extract_order_partial.

(** overflow of the int64 power: 5^128 = 4 (mod 21), but extract_order accepts 128 *)
Theorem C44_extract_order_refuted : exists mes a N r, extract_order mes a N = Ok r /\ a ^ num_val r mod N <> 1.
Proof. exists [(16, 2048)], 5, 21, (Np64 128). vm_compute. split; [reflexivity|discriminate]. Qed.
Print Assumptions C44_extract_order_refuted.

(** a measured phase close enough to s/r (r the order, s coprime to r) yields exactly the order *)
Theorem C44_recovers_order : forall mes rest a N n d s r,
  remove_zero mes = (n, d) :: rest -> 0 <= n -> 0 < d -> order_of a N r -> 1 < r -> Z.gcd s r = 1 ->
  2 * r * Z.abs (n * r - d * s) < d -> extract_order mes a N = Ok (PyInt r).
Proof. exact extract_recovers. Qed.
Print Assumptions C44_recovers_order.

(** find_order uses the overwritten base: for N = 15, a = 2 (order 4) and the phase 1/2, which an
    ideal run measures with probability 1/4, it answers 2 *)
Theorem C44_find_order_refuted : exists size mes a N r, find_order size mes a N = Ok r /\ order_of a N 4 /\ a ^ num_val r mod N <> 1.
Proof.
  exists 4%nat, [(256, 512)], 2, 15, (PyInt 2). split; [vm_compute; reflexivity|]. split; [|vm_compute; discriminate].
  split; [lia|]. split; [reflexivity|]. intros k Hk. assert (C : k = 1 \/ k = 2 \/ k = 3) by lia.
  destruct C as [->|[->| ->]]; vm_compute; discriminate.
Qed.
Print Assumptions C44_find_order_refuted.

Example C44_ex : candidates 15 = [2; 4; 7; 8; 11; 13] /\
  extract_order [(0, 512); (128, 512)] 7 15 = Ok (PyInt 4) /\
  shors_alg 15 (rev (candidates 15)) (fun a => extract_order [(128, 512)] a 15) = Ok 5 /\
  shors_alg 21 (candidates 21) (fun a => extract_order [(341, 2048); (1707, 2048)] a 21) = Ok 3 /\
  shors_alg 9 (candidates 9) (fun a => IndexError) = IndexError.
Proof. vm_compute. repeat split. Qed.
(** hypotheses of C44_recovers_order: a = 2 has order 6 modulo 21, phase 341/2048 near 1/6 *)
Example C44_ex_recover : order_of 2 21 6 /\ Z.gcd 1 6 = 1 /\ 2 * 6 * Z.abs (341 * 6 - 2048 * 1) < 2048.
Proof.
  split; [|split; reflexivity]. split; [lia|]. split; [reflexivity|]. intros k Hk.
  assert (C : k = 1 \/ k = 2 \/ k = 3 \/ k = 4 \/ k = 5) by lia.
  destruct C as [->|[->|[->|[->| ->]]]]; vm_compute; discriminate.
Qed.

(** ** C43 *)
Theorem C43_roundtrip : forall p q e m ps order f, prime p -> prime q -> p <> q -> 0 <= e ->
  Z.gcd e ((p - 1) * (q - 1)) = 1 -> 0 <= m < p * q ->
  Permutation ps (candidates (p * q)) -> shors_alg (p * q) ps order = Ok f ->
  rsa_decrypt e (p * q) (rsa_encrypt e (p * q) m) f = Some m.
Proof.
  intros p q e m ps order f Pp Pq Hpq He G Hm HP HF.
  assert (HN : 2 < p * q) by (pose proof (prime_ge_2 p Pp); pose proof (prime_ge_2 q Pq); nia).
  pose proof (C44_proper_divisor _ _ _ _ HN HP HF) as PD.
  destruct (private_key_spec p q e f Pp Pq Hpq He G PD) as (d & K1 & K2 & K3).
  unfold rsa_decrypt. rewrite K1. unfold rsa_encrypt. f_equal. now apply rsa_core.
Qed.
Print Assumptions C43_roundtrip.

(** strings come back followed by one NUL character per seven bits of padding *)
Theorem C43_string_roundtrip_partial : forall p q e f message, prime p -> prime q -> p <> q -> 0 <= e ->
  Z.gcd e ((p - 1) * (q - 1)) = 1 -> proper_divisor f (p * q) -> Forall (fun x => 0 <= x < 128) message ->
  let N := p * q in
  let c := (bit_length N - 1)%nat in
  rsa_decrypt_string e N (rsa_encrypt_string e N message) f =
    Some (message ++ repeat 0 ((nchunks (7 * length message) c * c - 7 * length message) / 7)).
Proof. exact string_roundtrip. Qed.
Print Assumptions C43_string_roundtrip_partial.

(** hence exactly when fewer than seven bits of padding are needed, e.g. always for N < 256 *)
Theorem C43_string_roundtrip_small : forall p q e f message, prime p -> prime q -> p <> q -> 0 <= e ->
  Z.gcd e ((p - 1) * (q - 1)) = 1 -> proper_divisor f (p * q) -> Forall (fun x => 0 <= x < 128) message ->
  p * q < 256 -> rsa_decrypt_string e (p * q) (rsa_encrypt_string e (p * q) message) f = Some message.
Proof.
  intros p q e f message Pp Pq Hpq He G PD HM HS.
  rewrite (string_roundtrip p q e f message Pp Pq Hpq He G PD HM). f_equal.
  assert (HN : 2 <= p * q) by (pose proof (prime_ge_2 p Pp); pose proof (prime_ge_2 q Pq); nia).
  destruct (bit_length_bounds (p * q) HN) as (B1 & B2 & B3).
  assert (B4 : (bit_length (p * q) - 1 <= 7)%nat).
  { destruct (Nat.le_gt_cases (bit_length (p * q) - 1) 7) as [C|C]; [exact C|].
    assert (2 ^ 8 <= 2 ^ Z.of_nat (bit_length (p * q) - 1)) by (apply Z.pow_le_mono_r; lia). lia. }
  assert (Hc : (0 < bit_length (p * q) - 1)%nat) by lia.
  pose proof (nchunks_bounds (7 * length message) (bit_length (p * q) - 1) Hc) as NB.
  rewrite Nat.div_small by lia. apply app_nil_r.
Qed.
Print Assumptions C43_string_roundtrip_small.

Lemma prime_11 : prime 11.
Proof.
  apply prime_alt. split; [lia|]. intros n Hn [k K].
  assert (C : n = 2 \/ n = 3 \/ n = 4 \/ n = 5 \/ n = 6 \/ n = 7 \/ n = 8 \/ n = 9 \/ n = 10) by lia.
  repeat (destruct C as [->|C]; [lia|]). subst n. lia.
Qed.
Lemma prime_31 : prime 31.
Proof.
  apply prime_alt. split; [lia|]. intros n Hn [k K].
  assert (C : exists j, (j < 29)%nat /\ n = 2 + Z.of_nat j) by (exists (Z.to_nat (n - 2)); lia).
  destruct C as (j & Hj & ->). do 29 (destruct j as [|j]; [lia|]). lia.
Qed.

(** N = 341 has chunks of 8 bits: seven characters need seven bits of padding, and come back as eight *)
Theorem C43_string_refuted : exists p q e f message, prime p /\ prime q /\ p <> q /\ 0 <= e /\ Z.gcd e ((p - 1) * (q - 1)) = 1 /\
  proper_divisor f (p * q) /\ Forall (fun x => 0 <= x < 128) message /\
  rsa_decrypt_string e (p * q) (rsa_encrypt_string e (p * q) message) f <> Some message.
Proof.
  exists 11, 31, 7, 11, [65; 66; 67; 68; 69; 70; 71]. split; [exact prime_11|]. split; [exact prime_31|]. split; [lia|]. split; [lia|].
  split; [reflexivity|]. split; [split; [exists 31; reflexivity|lia]|].
  split; [repeat (apply Forall_cons; [lia|]); apply Forall_nil|]. vm_compute. discriminate.
Qed.
Print Assumptions C43_string_refuted.

Example C43_ex : rsa_encrypt 7 33 5 = 14 /\ rsa_decrypt 7 33 14 3 = Some 5 /\ rsa_decrypt 7 33 14 11 = Some 5 /\
  shors_alg 33 (candidates 33) (fun a => extract_order [(819, 8192)] a 33) = Ok 3 /\
  length (rsa_encrypt_string 7 33 [72; 105]) = 18%nat /\
  rsa_decrypt_string 7 33 (rsa_encrypt_string 7 33 [72; 105]) 3 = Some [72; 105].
Proof. vm_compute. repeat split. Qed.
