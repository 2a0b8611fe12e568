(** Proofs about the RSA helpers. *)
From Verif.ModTools Require Import ModToolsModel ModToolsProofs.
From Verif.Shor Require Import ShorSpec Fermat RSAModel.
From Coq Require Import ZArith List Lia Znumtheory Zpow_facts.
Import ListNotations.
Local Open Scope Z_scope.

(** ** Integers *)
Lemma mult_divide_coprime p q x : rel_prime p q -> (p | x) -> (q | x) -> (p * q | x).
Proof.
  intros R [a Ha] D. subst x. assert (D' : (q | p * a)) by (rewrite Z.mul_comm; exact D).
  apply Gauss in D'; [|now apply rel_prime_sym]. destruct D' as [b ->]. exists b. ring.
Qed.

Lemma rsa_core p q e d m : prime p -> prime q -> p <> q -> 0 <= e -> 0 <= d -> (e * d) mod ((p - 1) * (q - 1)) = 1 ->
  0 <= m < p * q -> (m ^ e mod (p * q)) ^ d mod (p * q) = m.
Proof.
  intros Pp Pq Hpq He Hd Hm Hr. pose proof (prime_ge_2 p Pp). pose proof (prime_ge_2 q Pq).
  rewrite <- Zpower_mod by lia. rewrite <- Z.pow_mul_r by lia.
  set (phi := (p - 1) * (q - 1)) in *.
  assert (Hphi : 0 < phi) by (unfold phi; nia).
  assert (Hk : 0 <= e * d / phi) by (apply Z.div_pos; [apply Z.mul_nonneg_nonneg; lia|exact Hphi]).
  set (k := e * d / phi) in *.
  assert (E : e * d = 1 + phi * k) by (pose proof (Z.div_mod (e * d) phi ltac:(lia)); unfold k; lia).
  assert (D1 : (p | m ^ (e * d) - m)).
  { rewrite E. replace (phi * k) with ((p - 1) * ((q - 1) * k)) by (unfold phi; ring).
    apply fermat_cycle; [exact Pp|]. apply Z.mul_nonneg_nonneg; lia. }
  assert (D2 : (q | m ^ (e * d) - m)).
  { rewrite E. replace (phi * k) with ((q - 1) * ((p - 1) * k)) by (unfold phi; ring).
    apply fermat_cycle; [exact Pq|]. apply Z.mul_nonneg_nonneg; lia. }
  assert (R : rel_prime p q).
  { apply prime_rel_prime; [exact Pp|]. intros D. apply prime_div_prime in D; auto. }
  destruct (mult_divide_coprime p q _ R D1 D2) as [j J].
  replace (m ^ (e * d)) with (m + j * (p * q)) by lia. rewrite Z.mod_add by lia. apply Z.mod_small. lia.
Qed.

Lemma proper_divisor_pq p q f : prime p -> prime q -> proper_divisor f (p * q) -> f = p \/ f = q.
Proof.
  intros Pp Pq [D B]. pose proof (prime_ge_2 p Pp). pose proof (prime_ge_2 q Pq).
  destruct (prime_mult p Pp f (p * q / f)) as [D1|D1].
  - assert (E : p * q = f * (p * q / f)) by (destruct D as [k K]; rewrite K, Z.div_mul by lia; ring).
    rewrite <- E. apply Z.divide_factor_l.
  - destruct D1 as [k K]. subst f. destruct D as [j J]. assert (E : q = j * k) by nia.
    destruct (prime_divisors q Pq k) as [C|[C|[C|C]]]; [exists j; exact E| | | |]; subst; nia.
  - destruct D as [j J]. rewrite J, Z.div_mul in D1 by lia. destruct D1 as [k K]. subst j.
    assert (E : q = k * f) by nia.
    destruct (prime_divisors q Pq f) as [C|[C|[C|C]]]; [exists k; exact E| | | |]; try lia.
Qed.

Lemma private_key_spec p q e f : prime p -> prime q -> p <> q -> 0 <= e -> Z.gcd e ((p - 1) * (q - 1)) = 1 ->
  proper_divisor f (p * q) ->
  exists d, private_key e (p * q) f = Some d /\ 0 <= d /\ (e * d) mod ((p - 1) * (q - 1)) = 1.
Proof.
  intros Pp Pq Hpq He G PD. pose proof (prime_ge_2 p Pp). pose proof (prime_ge_2 q Pq).
  assert (E : (f - 1) * (p * q / f - 1) = (p - 1) * (q - 1)).
  { destruct (proper_divisor_pq p q f Pp Pq PD) as [-> | ->].
    - rewrite (Z.mul_comm p q), Z.div_mul by lia. ring.
    - rewrite Z.div_mul by lia. ring. }
  unfold private_key. rewrite E.
  assert (2 <= (p - 1) * (q - 1)) by nia.
  destruct (modinv_py_spec e ((p - 1) * (q - 1)) He ltac:(assumption)) as [K _].
  destruct (K G) as (x & K1 & K2 & K3). exists x. repeat split; try lia; assumption.
Qed.

(** ** Bit strings *)
Lemma fold_int2 : forall s r, fold_left (fun r b => 2 * r + (if b : bool then 1 else 0)) s r = r * 2 ^ Z.of_nat (length s) + int2 s.
Proof.
  unfold int2. induction s as [|b s IH]; intros r; cbn [fold_left length]; [change (2 ^ Z.of_nat 0) with 1; lia|].
  rewrite IH. rewrite (IH (2 * 0 + _)). rewrite Nat2Z.inj_succ, Z.pow_succ_r by lia. ring.
Qed.
Lemma int2_cons b s : int2 (b :: s) = (if b then 1 else 0) * 2 ^ Z.of_nat (length s) + int2 s.
Proof. unfold int2 at 1. cbn [fold_left]. rewrite fold_int2. f_equal. Qed.
Lemma int2_bound : forall s, 0 <= int2 s < 2 ^ Z.of_nat (length s).
Proof.
  induction s as [|b s IH]; [cbn; lia|]. rewrite int2_cons. cbn [length]. rewrite Nat2Z.inj_succ, Z.pow_succ_r by lia.
  destruct b; lia.
Qed.
Lemma int2_inj : forall s s', length s = length s' -> int2 s = int2 s' -> s = s'.
Proof.
  induction s as [|b s IH]; intros [|b' s'] L E; try discriminate; [reflexivity|].
  cbn in L. injection L as L. rewrite !int2_cons, <- L in E.
  pose proof (int2_bound s) as B1. pose proof (int2_bound s') as B2. rewrite <- L in B2.
  assert (b = b') by (destruct b, b'; auto; lia). subst b'. f_equal. apply IH; [exact L|]. destruct b; lia.
Qed.
Lemma bits_pos_length : forall p acc, length (bits_pos p acc) = (length acc + Pos.size_nat p)%nat.
Proof. induction p; intros acc; cbn [bits_pos Pos.size_nat]; try rewrite IHp; cbn [length]; lia. Qed.
Lemma bits_pos_int2 : forall p acc, int2 (bits_pos p acc) = Zpos p * 2 ^ Z.of_nat (length acc) + int2 acc.
Proof.
  induction p; intros acc; cbn [bits_pos]; try rewrite IHp; rewrite ?int2_cons; cbn [length];
    rewrite ?Nat2Z.inj_succ, ?Z.pow_succ_r by lia.
  - rewrite (Pos2Z.inj_xI p). ring.
  - rewrite (Pos2Z.inj_xO p). ring.
  - ring.
Qed.
Lemma size_nat_lt : forall p w, Zpos p < 2 ^ Z.of_nat w -> (Pos.size_nat p <= w)%nat.
Proof.
  induction p; intros [|w] H; cbn [Pos.size_nat]; rewrite ?Nat2Z.inj_succ, ?Z.pow_succ_r in H by lia; try (cbn in H; lia).
  - apply le_n_S, IHp. rewrite Pos2Z.inj_xI in H. lia.
  - apply le_n_S, IHp. rewrite Pos2Z.inj_xO in H. lia.
Qed.
Lemma int2_zeros k : forall s, int2 (repeat false k ++ s) = int2 s.
Proof. induction k; intros s; [reflexivity|]. cbn [repeat app]. rewrite int2_cons, IHk. lia. Qed.
Lemma zfill_bin w x : (1 <= w)%nat -> 0 <= x < 2 ^ Z.of_nat w -> length (zfill w (bin x)) = w /\ int2 (zfill w (bin x)) = x.
Proof.
  intros Hw Hx. unfold zfill. rewrite app_length, repeat_length, int2_zeros. unfold bin.
  destruct x as [|p|p]; [|..].
  - split; [cbn; lia|reflexivity].
  - pose proof (size_nat_lt p w ltac:(lia)). rewrite bits_pos_length, bits_pos_int2. cbn [length].
    split; [cbn; lia|]. change (2 ^ Z.of_nat 0) with 1. change (int2 []) with 0. lia.
  - lia.
Qed.
Lemma zfill_bin_int2 w s : (1 <= w)%nat -> length s = w -> zfill w (bin (int2 s)) = s.
Proof.
  intros Hw L. pose proof (int2_bound s) as B. rewrite L in B. destruct (zfill_bin w (int2 s) Hw B) as [A1 A2].
  apply int2_inj; congruence.
Qed.

(** ** Chunks *)
Lemma concat_length_const {A} c : forall bs : list (list A), Forall (fun b => length b = c) bs -> length (concat bs) = (c * length bs)%nat.
Proof. induction 1 as [|b bs Hb H IH]; cbn [concat length]; [lia|]. rewrite app_length, IH, Hb. lia. Qed.
Lemma slice_concat c : forall bs t i, Forall (fun b => length b = c) bs -> (i < length bs)%nat ->
  slice (concat bs ++ t) c i = nth i bs [].
Proof.
  unfold slice. induction bs as [|b bs IH]; intros t i H Hi; [cbn in Hi; lia|].
  inversion H as [|? ? Hb H']; subst. cbn [concat]. rewrite <- app_assoc. destruct i as [|i]; cbn [nth].
  - cbn [Nat.mul skipn]. rewrite firstn_app, Nat.sub_diag, firstn_all. cbn [firstn]. apply app_nil_r.
  - rewrite skipn_app. replace (S i * length b - length b)%nat with (i * length b)%nat by lia.
    rewrite (skipn_all2 b) by lia. cbn [app]. apply IH; [exact H'|cbn in Hi; lia].
Qed.
Lemma nchunks_mul c k : (0 < c)%nat -> nchunks (c * k) c = k.
Proof.
  intros Hc. unfold nchunks. replace (c * k + c - 1)%nat with (k * c + (c - 1))%nat by lia.
  rewrite Nat.div_add_l by lia. rewrite Nat.div_small by lia. lia.
Qed.
Lemma slices_concat c bs : (0 < c)%nat -> Forall (fun b => length b = c) bs ->
  map (slice (concat bs) c) (seq 0 (nchunks (length (concat bs)) c)) = bs.
Proof.
  intros Hc H. rewrite (concat_length_const c bs H), nchunks_mul by exact Hc.
  apply nth_ext with (d := []) (d' := []); [now rewrite map_length, seq_length|].
  intros i Hi. rewrite map_length, seq_length in Hi.
  rewrite (nth_indep _ [] (slice (concat bs) c 0)) by now rewrite map_length, seq_length.
  rewrite map_nth, seq_nth by exact Hi. rewrite Nat.add_0_l.
  rewrite <- (app_nil_r (concat bs)). now apply slice_concat.
Qed.
Lemma b2s_blocks bs t : Forall (fun b => length b = 7%nat) bs -> (length t < 7)%nat ->
  bitstring_to_string (concat bs ++ t) = map int2 bs.
Proof.
  intros H Ht. unfold bitstring_to_string.
  replace (length (concat bs ++ t) / 7)%nat with (length bs).
  2: { rewrite app_length, (concat_length_const 7 bs H). rewrite Nat.mul_comm, Nat.div_add_l by lia.
       rewrite Nat.div_small by lia. lia. }
  apply nth_ext with (d := 0) (d' := 0); [now rewrite !map_length, seq_length|].
  intros i Hi. rewrite map_length, seq_length in Hi.
  rewrite (nth_indep _ 0 (int2 (firstn 7 (skipn (7 * 0) (concat bs ++ t))))) by now rewrite map_length, seq_length.
  rewrite (map_nth (fun i => int2 (firstn 7 (skipn (7 * i) (concat bs ++ t))))), seq_nth by exact Hi. rewrite Nat.add_0_l.
  change 0 with (int2 []) . rewrite map_nth. f_equal. rewrite (Nat.mul_comm 7 i). now apply (slice_concat 7).
Qed.

Definition padded (c : nat) (s : list bool) : list bool := s ++ repeat false (c - length s).
Lemma rev_zfill c s : rev (zfill c (rev s)) = padded c s.
Proof.
  unfold zfill, padded. rewrite rev_app_distr, rev_involutive, rev_length. f_equal.
  generalize (c - length s)%nat as k. induction k as [|k IH]; [reflexivity|]. cbn [repeat rev]. rewrite IH.
  clear. induction k; cbn; congruence.
Qed.
Lemma skipn_skipn' {A} a b (s : list A) : skipn a (skipn b s) = skipn (b + a) s.
Proof. revert s. induction b; intros s; [reflexivity|]. destruct s; [now rewrite !skipn_nil|]. cbn. apply IHb. Qed.
Lemma slice_S s c i : slice s c (S i) = slice (skipn c s) c i.
Proof. unfold slice. rewrite skipn_skipn'. f_equal. Qed.
Lemma padded_concat c : forall k s, (length s <= k * c)%nat ->
  concat (map (fun i => padded c (slice s c i)) (seq 0 k)) = s ++ repeat false (k * c - length s).
Proof.
  induction k as [|k IH]; intros s H.
  - destruct s; [reflexivity|cbn in H; lia].
  - cbn [seq map concat]. rewrite <- seq_shift, map_map.
    rewrite (map_ext (fun i => padded c (slice s c (S i))) (fun i => padded c (slice (skipn c s) c i)))
      by (intros i; now rewrite slice_S).
    rewrite IH by (rewrite skipn_length; lia).
    change (slice s c 0) with (firstn c s). unfold padded.
    destruct (Nat.le_gt_cases (length s) c) as [C|C].
    + rewrite firstn_all2 by exact C. rewrite (skipn_all2 s) by exact C. cbn [app length].
      rewrite <- app_assoc. f_equal. rewrite <- repeat_app. f_equal. lia.
    + rewrite firstn_length. replace (c - Nat.min c (length s))%nat with 0%nat by lia. cbn [repeat]. rewrite app_nil_r.
      rewrite app_assoc, firstn_skipn. f_equal. f_equal. rewrite skipn_length. lia.
Qed.
Lemma padded_length c s : (length s <= c)%nat -> length (padded c s) = c.
Proof. intros H. unfold padded. rewrite app_length, repeat_length. lia. Qed.
Lemma nchunks_bounds len c : (0 < c)%nat -> (len <= nchunks len c * c < len + c)%nat.
Proof.
  intros Hc. unfold nchunks. pose proof (Nat.div_mod (len + c - 1) c ltac:(lia)) as E.
  pose proof (Nat.mod_upper_bound (len + c - 1) c ltac:(lia)). lia.
Qed.

Lemma flat_map_concat_map' {A B} (f : A -> list B) l : flat_map f l = concat (map f l).
Proof. induction l; cbn; congruence. Qed.

Lemma bit_length_bounds N : 2 <= N -> (2 <= bit_length N)%nat /\ 2 ^ Z.of_nat (bit_length N - 1) <= N < 2 ^ Z.of_nat (bit_length N).
Proof.
  intros H. unfold bit_length. destruct N as [|n|n]; try lia. change (Z.abs (Z.pos n)) with (Z.pos n).
  pose proof (Z.log2_spec (Z.pos n) ltac:(lia)) as SP. pose proof (Z.log2_le_mono 2 _ H) as L. change (Z.log2 2) with 1 in L.
  split; [lia|]. replace (S (Z.to_nat (Z.log2 (Z.pos n))) - 1)%nat with (Z.to_nat (Z.log2 (Z.pos n))) by lia.
  rewrite Nat2Z.inj_succ, Z2Nat.id by lia. exact SP.
Qed.

Theorem string_roundtrip p q e f message : prime p -> prime q -> p <> q -> 0 <= e -> Z.gcd e ((p - 1) * (q - 1)) = 1 ->
  proper_divisor f (p * q) -> Forall (fun x => 0 <= x < 128) message ->
  let N := p * q in
  let c := (bit_length N - 1)%nat in
  rsa_decrypt_string e N (rsa_encrypt_string e N message) f =
    Some (message ++ repeat 0 ((nchunks (7 * length message) c * c - 7 * length message) / 7)).
Proof.
  intros Pp Pq Hpq He G PD HM. cbv zeta. set (N := p * q).
  pose proof (prime_ge_2 p Pp). pose proof (prime_ge_2 q Pq).
  assert (HN : 2 <= N) by (unfold N; nia).
  destruct (bit_length_bounds N HN) as (B1 & B2 & B3). set (c := (bit_length N - 1)%nat) in *.
  destruct (private_key_spec p q e f Pp Pq Hpq He G PD) as (d & K1 & K2 & K3). fold N in K1.
  unfold rsa_decrypt_string, rsa_encrypt_string. rewrite K1. fold c.
  assert (Hc : (0 < c)%nat) by (unfold c; lia).
  replace (c + 1)%nat with (bit_length N) by (unfold c; lia).
  assert (MB : Forall (fun b => length b = 7%nat) (map (fun x => zfill 7 (bin x)) message) /\
               map int2 (map (fun x => zfill 7 (bin x)) message) = message).
  { clear -HM. induction HM as [|x l Hx HM [I1 I2]]; [split; [constructor|reflexivity]|].
    destruct (zfill_bin 7 x ltac:(lia)) as [A1 A2]; [exact Hx|].
    split; [now apply Forall_cons|]. cbn [map]. now rewrite A2, I2. }
  destruct MB as [M1 M2].
  unfold message_bits. rewrite !(flat_map_concat_map' (fun x => zfill 7 (bin x)) message). set (mbs := map (fun x => zfill 7 (bin x)) message) in *.
  assert (LM : length (concat mbs) = (7 * length message)%nat).
  { rewrite (concat_length_const 7 mbs M1). unfold mbs. now rewrite map_length. }
  set (chunks := map (fun i => rev (zfill c (rev (slice (concat mbs) c i)))) (seq 0 (nchunks (length (concat mbs)) c))).
  assert (EC : chunks = map (fun i => padded c (slice (concat mbs) c i)) (seq 0 (nchunks (length (concat mbs)) c))).
  { unfold chunks. apply map_ext. intros i. apply rev_zfill. }
  assert (LC : Forall (fun b => length b = c) chunks).
  { rewrite EC. apply Forall_forall. intros b Hb. apply in_map_iff in Hb. destruct Hb as (i & <- & _).
    apply padded_length. unfold slice. rewrite firstn_length. lia. }
  assert (CC : concat chunks = concat mbs ++ repeat false (nchunks (length (concat mbs)) c * c - length (concat mbs))).
  { rewrite EC. apply padded_concat. apply nchunks_bounds. exact Hc. }
  rewrite !(flat_map_concat_map' (fun ch => zfill (bit_length N) (bin (rsa_encrypt e N (int2 ch)))) _).
  fold chunks. set (enc := map (fun ch => zfill (bit_length N) (bin (rsa_encrypt e N (int2 ch)))) chunks).
  assert (LE : Forall (fun b => length b = bit_length N) enc).
  { unfold enc. apply Forall_forall. intros b Hb. apply in_map_iff in Hb. destruct Hb as (ch & <- & _).
    apply zfill_bin; [lia|]. unfold rsa_encrypt. pose proof (Z.mod_pos_bound (int2 ch ^ e) N ltac:(lia)). lia. }
  rewrite (slices_concat (bit_length N) enc) by (try exact LE; lia).
  rewrite flat_map_concat_map'.
  replace (map (fun ch => zfill c (bin (int2 ch ^ d mod N))) enc) with chunks.
  2: { unfold enc. rewrite map_map. rewrite <- (map_id chunks) at 1. apply map_ext_in. intros ch Hch.
       rewrite Forall_forall in LC. specialize (LC ch Hch). pose proof (int2_bound ch) as IB. rewrite LC in IB.
       assert (R : 0 <= rsa_encrypt e N (int2 ch) < N) by (unfold rsa_encrypt; apply Z.mod_pos_bound; lia).
       destruct (zfill_bin (bit_length N) (rsa_encrypt e N (int2 ch)) ltac:(lia) ltac:(lia)) as [_ I2]. rewrite I2.
       unfold rsa_encrypt. unfold N. rewrite rsa_core; try assumption; try (fold N; lia).
       symmetry. apply zfill_bin_int2; [lia|exact LC]. }
  f_equal. rewrite CC, LM. set (pad := (nchunks (7 * length message) c * c - 7 * length message)%nat).
  rewrite (Nat.div_mod pad 7) at 1 by lia. rewrite repeat_app, app_assoc.
  assert (RR : forall k, repeat false (7 * k) = concat (repeat (repeat false 7) k)).
  { induction k as [|k IH]; [reflexivity|]. replace (7 * S k)%nat with (7 + 7 * k)%nat by lia. rewrite repeat_app, IH. reflexivity. }
  rewrite RR, <- concat_app. rewrite b2s_blocks.
  - rewrite map_app. f_equal; [exact M2|]. clear. induction (pad / 7)%nat as [|k IH]; [reflexivity|]. cbn [repeat map]. f_equal. exact IH.
  - apply Forall_app. split; [exact M1|]. apply Forall_forall. intros b Hb. apply repeat_spec in Hb. now subst b.
  - rewrite repeat_length. apply Nat.mod_upper_bound. lia.
Qed.
