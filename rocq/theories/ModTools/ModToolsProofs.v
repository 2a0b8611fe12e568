(** Proofs about the classical number theory helpers. *)
From Coq Require Import Znumtheory.
From Verif.Lib Require Import Arr.
From Verif.ModTools Require Import ModToolsModel.
From Coq Require Import Znumtheory Zpow_facts.
Local Open Scope Z_scope.

(** ** termination measure: r * nr halves *)
Lemma mod_half r n : 0 < n <= r -> 2 * (r mod n) < r.
Proof.
  intros H. pose proof (Z.div_mod r n ltac:(lia)) as E. pose proof (Z.mod_pos_bound r n ltac:(lia)) as B.
  assert (1 <= r / n) by (apply Z.div_le_lower_bound; lia).
  assert (n * 1 <= n * (r / n)) by (apply Z.mul_le_mono_nonneg_l; lia). lia.
Qed.

Lemma log2_measure k r n : 0 < n <= r -> r * n < 2 ^ Z.of_nat (S k) -> n * (r mod n) < 2 ^ Z.of_nat k.
Proof.
  intros H Hlt. pose proof (mod_half r n H). rewrite Nat2Z.inj_succ, Z.pow_succ_r in Hlt by lia.
  assert (n * (2 * (r mod n)) < n * r) by (apply Z.mul_lt_mono_pos_l; lia). lia.
Qed.

(** invariant of the extended Euclidean loop *)
Record mi_inv (a m s : Z) (st : Z * Z * Z * Z) : Prop := {
  mi_sign : s = 1 \/ s = -1;
  mi_det : let '(t, nt, r, nr) := st in s * (nt * r - t * nr) = m;
  mi_nt : let '(t, nt, r, nr) := st in 0 <= s * nt;
  mi_t : let '(t, nt, r, nr) := st in s * t <= 0;
  mi_r : let '(t, nt, r, nr) := st in (m | t * a - r);
  mi_nr : let '(t, nt, r, nr) := st in (m | nt * a - nr);
  mi_pos : let '(t, nt, r, nr) := st in 0 < r /\ 0 <= nr;
  mi_gcd : let '(t, nt, r, nr) := st in Z.gcd r nr = Z.gcd m a
}.

Lemma gcd_step r n : n <> 0 -> Z.gcd n (r - r / n * n) = Z.gcd r n.
Proof.
  intros H. rewrite (Z.gcd_comm r n). replace (r - r / n * n) with (r + (- (r / n)) * n) by ring.
  apply Z.gcd_add_mult_diag_r.
Qed.

Lemma mi_inv_step a m s st : mi_inv a m s st -> mi_cond st = true -> mi_inv a m (- s) (mi_body st).
Proof.
  destruct st as [[[t nt] r] nr]. intros [S D Nt T R Nr P G] C. cbn in C. apply negb_true_iff, Z.eqb_neq in C.
  destruct P as [P1 P2]. unfold mi_body.
  assert (E : r - r / nr * nr = r mod nr) by (rewrite Z.mod_eq by exact C; ring).
  pose proof (Z.mod_pos_bound r nr ltac:(lia)) as B. assert (Q : 0 <= r / nr) by (apply Z.div_pos; lia).
  split; try (cbn; assumption).
  - lia.
  - rewrite <- D. ring.
  - rewrite Z.mul_sub_distr_l. replace (- s * (r / nr * nt)) with (- (r / nr * (s * nt))) by ring.
    pose proof (Z.mul_nonneg_nonneg _ _ Q Nt). lia.
  - lia.
  - replace ((t - r / nr * nt) * a - (r - r / nr * nr)) with ((t * a - r) - r / nr * (nt * a - nr)) by ring.
    apply Z.divide_sub_r; [exact R|]. apply Z.divide_mul_r, Nr.
  - lia.
  - rewrite gcd_step by exact C. exact G.
Qed.

(** loop-head predicate for coprime arguments *)
Definition mi_head (a m : Z) (st : Z * Z * Z * Z) : Prop :=
  (exists s, mi_inv a m s st) /\
  let '(t, nt, r, nr) := st in (nr = 1 -> 2 <= r) /\ (nr = 0 -> r = 1 /\ 2 * Z.abs t <= m).

Lemma mi_head_step a m st : Z.gcd m a = 1 -> mi_head a m st -> mi_cond st = true -> mi_head a m (mi_body st).
Proof.
  intros Hg [[s I] Hh] C. pose proof (mi_inv_step a m s st I C) as I'. split; [eauto|].
  destruct st as [[[t nt] r] nr]. cbn in C. apply negb_true_iff, Z.eqb_neq in C.
  destruct I as [S D Nt T R Nr [P1 P2] G]. destruct Hh as [H1 H0].
  assert (E : r - r / nr * nr = r mod nr) by (rewrite Z.mod_eq by exact C; ring).
  pose proof (Z.mod_pos_bound r nr ltac:(lia)) as B. unfold mi_body. rewrite E. split; [lia|].
  intros Hz. destruct I' as [_ _ _ _ _ _ _ G']. cbn in G'. rewrite E, Hz, Z.gcd_0_r, Hg in G'.
  rewrite Z.abs_eq in G' by lia. split; [exact G'|]. rewrite G' in D. specialize (H1 G').
  assert (Hs : Z.abs nt = s * nt) by (destruct S as [-> | ->]; lia).
  assert (D2 : (s * nt) * r - s * t = m) by (rewrite <- D; ring).
  assert ((s * nt) * 2 <= (s * nt) * r) by (apply Z.mul_le_mono_nonneg_l; lia). lia.
Qed.

Lemma mi_terminates k : forall st, (let '(t, nt, r, nr) := st in 0 < r /\ 0 <= nr <= r /\ r * nr < 2 ^ Z.of_nat k) ->
  exists st', while k mi_cond mi_body st = Some st'.
Proof.
  induction k as [|k IH]; intros [[[t nt] r] nr] (Hr & Hn & Hp); cbn [while]; unfold mi_cond at 1.
  - change (2 ^ Z.of_nat 0) with 1 in Hp. replace nr with 0 by nia. cbn. eauto.
  - destruct (Z.eqb_spec nr 0) as [->|Hne]; cbn [negb]; [eauto|].
    unfold mi_body at 2. apply IH.
    assert (E : r - r / nr * nr = r mod nr) by (rewrite Z.mod_eq by exact Hne; ring). rewrite E.
    pose proof (Z.mod_pos_bound r nr ltac:(lia)). split; [lia|]. split; [lia|].
    apply log2_measure; lia.
Qed.

Lemma while_more {S} (c : S -> bool) b k : forall k' s s', (k <= k')%nat -> while k c b s = Some s' -> while k' c b s = Some s'.
Proof.
  induction k as [|k IH]; intros k' s s' Hk H; destruct k' as [|k']; cbn [while] in *; try lia; auto;
  destruct (c s); try discriminate; auto. apply IH; [lia|exact H].
Qed.

Lemma pow2_succ_bound x : 0 <= x -> x < 2 ^ (Z.log2 (x + 1) + 1).
Proof. intros H. pose proof (Z.log2_spec (x + 1) ltac:(lia)). unfold Z.succ in *. lia. Qed.

Lemma mi_total a m : 0 <= a -> 0 < m -> exists st', while (euclid_fuel a m) mi_cond mi_body (0, 1, m, a) = Some st'.
Proof.
  intros Ha Hm. unfold euclid_fuel. rewrite !Z.abs_eq by lia.
  set (L := Z.log2 (a + 1) + Z.log2 (m + 1)).
  pose proof (Z.log2_nonneg (a + 1)). pose proof (Z.log2_nonneg (m + 1)).
  pose proof (pow2_succ_bound a Ha) as Ba. pose proof (pow2_succ_bound m ltac:(lia)) as Bm.
  assert (HP : m * a < 2 ^ (L + 2)).
  { replace (L + 2) with ((Z.log2 (m + 1) + 1) + (Z.log2 (a + 1) + 1)) by (unfold L; lia). rewrite Z.pow_add_r by lia.
    apply Z.mul_lt_mono_nonneg; lia. }
  replace (Z.to_nat (L + 4)) with (S (S (Z.to_nat (L + 2)))) by lia.
  cbn [while]. unfold mi_cond at 1. destruct (Z.eqb_spec a 0) as [->|Hne]; cbn [negb]; [eauto|].
  destruct (mi_terminates (Z.to_nat (L + 2)) (mi_body (0, 1, m, a))) as [st' E].
  { unfold mi_body. assert (E : m - m / a * a = m mod a) by (rewrite Z.mod_eq by exact Hne; ring). rewrite E.
    pose proof (Z.mod_pos_bound m a ltac:(lia)). split; [lia|]. split; [lia|]. rewrite Z2Nat.id by lia.
    pose proof (Z.mod_le m a ltac:(lia) ltac:(lia)).
    assert (a * (m mod a) <= a * m) by (apply Z.mul_le_mono_nonneg_l; lia). lia. }
  exists st'. apply (while_more _ _ (Z.to_nat (L + 2)) (S (Z.to_nat (L + 2)))); [lia|exact E].
Qed.

Lemma divide_mod_1 m x : 1 < m -> (m | x - 1) -> x mod m = 1.
Proof.
  intros Hm [k E]. replace x with (1 + k * m) by lia. rewrite Z.mod_add by lia. apply Z.mod_small; lia.
Qed.

Lemma modinv_spec a m : 0 <= a -> 2 <= m -> Z.gcd a m = 1 ->
  exists x, modinv a m = Some x /\ 0 <= x < m /\ (a * x) mod m = 1.
Proof.
  intros Ha Hm Hg. rewrite Z.gcd_comm in Hg. unfold modinv.
  destruct (mi_total a m Ha ltac:(lia)) as [st' E]. rewrite E.
  assert (H0 : mi_head a m (0, 1, m, a)).
  { split.
    - exists 1. split; try lia; try reflexivity; [exists (-1); ring | exists 0; ring].
    - split; [lia|]. intros ->. rewrite Z.gcd_0_r in Hg. lia. }
  destruct (while_ind (mi_head a m) _ _ _ _ _ H0 (fun st H C => mi_head_step a m st Hg H C) E) as [[[s I] Hh] C].
  destruct st' as [[[t nt] r] nr]. cbn in C. apply negb_false_iff, Z.eqb_eq in C. destruct Hh as [_ Hh]. destruct (Hh C) as [Hr Ht].
  destruct I as [_ _ _ _ R _ _ _]. rewrite Hr in R.
  exists (if t <? 0 then t + m else t). split; [reflexivity|].
  destruct (Z.ltb_spec t 0).
  - split; [lia|]. apply divide_mod_1; [lia|].
    replace (a * (t + m) - 1) with ((t * a - 1) + a * m) by ring. apply Z.divide_add_r; [exact R|]. apply Z.divide_factor_r.
  - split; [lia|]. apply divide_mod_1; [lia|]. rewrite Z.mul_comm. exact R.
Qed.

Lemma inverse_unique a m x y : 2 <= m -> 0 <= x < m -> 0 <= y < m -> (a * x) mod m = 1 -> (a * y) mod m = 1 -> x = y.
Proof.
  intros Hm Hx Hy Ex Ey.
  assert (H1 : (x * (a * y)) mod m = x) by (rewrite Z.mul_mod, Ey, Z.mul_1_r, Z.mod_mod by lia; apply Z.mod_small; lia).
  assert (H2 : (y * (a * x)) mod m = y) by (rewrite Z.mul_mod, Ex, Z.mul_1_r, Z.mod_mod by lia; apply Z.mod_small; lia).
  transitivity ((x * (a * y)) mod m); [symmetry; exact H1|]. transitivity ((y * (a * x)) mod m); [f_equal; ring|exact H2].
Qed.

(** ** recursive egcd *)
Lemma egcd_spec k : forall a b, 0 <= a <= b -> 0 < b -> b * a < 2 ^ Z.of_nat k ->
  exists g x y, egcd (S k) a b = Some (g, x, y) /\ g = Z.gcd a b /\ x * a + y * b = g.
Proof.
  induction k as [|k IH]; intros a b Ha Hb Hp; cbn [egcd].
  - change (2 ^ Z.of_nat 0) with 1 in Hp. replace a with 0 by nia. cbn. exists b, 0, 1. repeat split; [|lia].
    rewrite Z.abs_eq; lia.
  - destruct (Z.eqb_spec a 0) as [->|Hne].
    + exists b, 0, 1. repeat split; [|lia]. cbn. rewrite Z.abs_eq; lia.
    + pose proof (Z.mod_pos_bound b a ltac:(lia)).
      destruct (IH (b mod a) a ltac:(lia) ltac:(lia)) as (g & x & y & E & Eg & Eb).
      { apply log2_measure; lia. }
      cbn [egcd] in E. rewrite E. exists g, (y - b / a * x), x. repeat split.
      * rewrite Eg. apply Z.gcd_mod. lia.
      * rewrite <- Eb. rewrite (Z.mod_eq b a) by lia. ring.
Qed.

Lemma egcd_more k : forall k' a b r, (k <= k')%nat -> egcd k a b = Some r -> egcd k' a b = Some r.
Proof.
  induction k as [|k IH]; intros k' a b r Hk H; [discriminate|]. destruct k' as [|k']; [lia|]. cbn [egcd] in *.
  destruct (a =? 0); [exact H|]. destruct (egcd k (b mod a) a) as [[[g y] x]|] eqn:E; [|discriminate].
  rewrite (IH k' _ _ _ ltac:(lia) E). exact H.
Qed.

Lemma egcd_total a m : 0 <= a -> 0 < m ->
  exists g x y, egcd (euclid_fuel a m) a m = Some (g, x, y) /\ g = Z.gcd a m /\ x * a + y * m = g.
Proof.
  intros Ha Hm. unfold euclid_fuel. rewrite !Z.abs_eq by lia.
  set (L := Z.log2 (a + 1) + Z.log2 (m + 1)).
  pose proof (Z.log2_nonneg (a + 1)). pose proof (Z.log2_nonneg (m + 1)).
  pose proof (pow2_succ_bound a Ha) as Ba. pose proof (pow2_succ_bound m ltac:(lia)) as Bm.
  assert (HP : m * a < 2 ^ (L + 2)).
  { replace (L + 2) with ((Z.log2 (m + 1) + 1) + (Z.log2 (a + 1) + 1)) by (unfold L; lia). rewrite Z.pow_add_r by lia.
    apply Z.mul_lt_mono_nonneg; lia. }
  replace (Z.to_nat (L + 4)) with (S (S (Z.to_nat (L + 2)))) by lia.
  destruct (Z.eq_dec a 0) as [->|Hne].
  { cbn. exists m, 0, 1. repeat split; [|lia]. rewrite Z.abs_eq; lia. }
  pose proof (Z.mod_pos_bound m a ltac:(lia)).
  destruct (egcd_spec (Z.to_nat (L + 2)) (m mod a) a) as (g & x & y & E & Eg & Eb); try lia.
  { rewrite Z2Nat.id by lia. pose proof (Z.mod_le m a ltac:(lia) ltac:(lia)).
    assert (a * (m mod a) <= a * m) by (apply Z.mul_le_mono_nonneg_l; lia). lia. }
  remember (S (Z.to_nat (L + 2))) as f. cbn [egcd]. destruct (Z.eqb_spec a 0); [lia|]. rewrite E.
  exists g, (y - m / a * x), x. repeat split.
  - rewrite Eg. apply Z.gcd_mod. lia.
  - rewrite <- Eb. rewrite (Z.mod_eq m a) by lia. ring.
Qed.

Lemma modinv_py_spec a m : 0 <= a -> 2 <= m ->
  (Z.gcd a m = 1 -> exists x, modinv_py a m = Some x /\ 0 <= x < m /\ (a * x) mod m = 1) /\
  (Z.gcd a m <> 1 -> modinv_py a m = None).
Proof.
  intros Ha Hm. unfold modinv_py. destruct (egcd_total a m Ha ltac:(lia)) as (g & x & y & E & Eg & Eb). rewrite E.
  split; intros Hg.
  - replace (g =? 1) with true by lia. exists (x mod m). split; [reflexivity|].
    split; [apply Z.mod_pos_bound; lia|]. rewrite Z.mul_mod_idemp_r by lia. apply divide_mod_1; [lia|].
    exists (- y). lia.
  - replace (g =? 1) with false by lia. reflexivity.
Qed.

(** ** Montgomery encode / decode *)
Lemma mont_enc_value x R N : N <> 0 -> mont_enc x R N = (x * R) mod N.
Proof. intros H. unfold mont_enc. rewrite <- Z.mul_mod by exact H. reflexivity. Qed.
Lemma mont_enc_py_value x R N : N <> 0 -> mont_enc_py x R N = (x * R) mod N.
Proof. intros H. unfold mont_enc_py. rewrite Z.mod_mod, Z.mul_mod_idemp_l by exact H. reflexivity. Qed.

Lemma mont_roundtrip_alg x R R1 N : 0 < N -> 0 <= x < N -> (R * R1) mod N = 1 mod N -> (((x * R) mod N) * R1) mod N = x.
Proof.
  intros HN Hx E. rewrite Z.mul_mod_idemp_l by lia. rewrite <- Z.mul_assoc, <- Z.mul_mod_idemp_r, E by lia.
  rewrite Z.mul_mod_idemp_r by lia. rewrite Z.mul_1_r. apply Z.mod_small; lia.
Qed.

Lemma mont_roundtrip x R N : 2 <= N -> 0 <= R -> Z.gcd R N = 1 -> 0 <= x < N ->
  mont_dec (mont_enc x R N) R N = Some x.
Proof.
  intros HN HR Hg Hx. unfold mont_dec. destruct (modinv_spec R N HR HN Hg) as (y & -> & By & Ey). f_equal.
  rewrite <- Z.mul_mod by lia. rewrite mont_enc_value by lia. apply mont_roundtrip_alg; try lia.
  rewrite Ey. symmetry. apply Z.mod_small; lia.
Qed.
Lemma mont_roundtrip_py x R N : 2 <= N -> 0 <= R -> Z.gcd R N = 1 -> 0 <= x < N ->
  mont_dec_py (mont_enc_py x R N) R N = Some x.
Proof.
  intros HN HR Hg Hx. unfold mont_dec_py. destruct (modinv_py_spec R N HR HN) as [H _]. destruct (H Hg) as (y & -> & By & Ey). f_equal.
  rewrite mont_enc_py_value by lia. apply mont_roundtrip_alg; try lia.
  rewrite Ey. symmetry. apply Z.mod_small; lia.
Qed.
Lemma mont_dec_value y R N : 2 <= N -> 0 <= R -> Z.gcd R N = 1 ->
  exists x, mont_dec y R N = Some x /\ 0 <= x < N /\ (x * R) mod N = y mod N.
Proof.
  intros HN HR Hg. unfold mont_dec. destruct (modinv_spec R N HR HN Hg) as (z & -> & Bz & Ez).
  eexists. split; [reflexivity|]. split; [apply Z.mod_pos_bound; lia|].
  rewrite <- Z.mul_mod by lia. rewrite Z.mul_mod_idemp_l by lia. rewrite <- Z.mul_assoc.
  rewrite <- Z.mul_mod_idemp_r by lia. replace (z * R) with (R * z) by ring. rewrite Ez, Z.mul_1_r. reflexivity.
Qed.

Lemma gcd_mod_l a n : n <> 0 -> Z.gcd (a mod n) n = Z.gcd a n.
Proof. intros H. rewrite Z.gcd_mod by exact H. apply Z.gcd_comm. Qed.

Lemma gcd_pow2_odd k N : 0 <= k -> Z.odd N = true -> Z.gcd (2 ^ k) N = 1.
Proof.
  intros Hk Ho. apply Zgcd_1_rel_prime. apply rel_prime_sym, Zpow_facts.rel_prime_Zpower_r; [lia|].
  apply rel_prime_sym, Zgcd_1_rel_prime.
  pose proof (Z.gcd_divide_l 2 N) as D1. pose proof (Z.gcd_divide_r 2 N) as D2. pose proof (Z.gcd_nonneg 2 N) as G0.
  assert (Z.gcd 2 N <= 2) by (apply Z.divide_pos_le; [lia|exact D1]).
  assert (Z.gcd 2 N <> 0) by (intros E; rewrite E in D1; destruct D1; lia).
  destruct (Z.eq_dec (Z.gcd 2 N) 2) as [E|]; [|lia].
  rewrite E in D2. destruct D2 as [q ->]. rewrite Z.odd_mul, andb_false_r in Ho. discriminate.
Qed.

(** decoding with a shift m of either sign multiplies by 2^-m *)
Lemma new_mont_dec_spec y m N : 2 <= N -> Z.odd N = true ->
  exists x, new_mont_dec y m N = Some x /\ 0 <= x < N /\
    (0 < m -> (x * 2 ^ m) mod N = y mod N) /\ (m <= 0 -> x = (y * 2 ^ (- m)) mod N).
Proof.
  intros HN Ho. unfold new_mont_dec, pow2mod_py. destruct (Z.gtb_spec m 0) as [Hm|Hm].
  - rewrite Z.abs_eq by lia.
    destruct (modinv_spec ((2 ^ m) mod N) N) as (f & -> & Bf & Ef); try lia.
    { rewrite gcd_mod_l by lia. apply gcd_pow2_odd; [lia|exact Ho]. }
    eexists. split; [reflexivity|]. rewrite mont_enc_value by lia. split; [apply Z.mod_pos_bound; lia|]. split; [|lia].
    intros _. rewrite Z.mul_mod_idemp_l by lia. rewrite Z.mul_mod_idemp_l in Ef by lia.
    rewrite <- Z.mul_assoc, <- Z.mul_mod_idemp_r by lia. replace (f * 2 ^ m) with (2 ^ m * f) by ring. rewrite Ef, Z.mul_1_r. reflexivity.
  - eexists. split; [reflexivity|]. rewrite mont_enc_value by lia. split; [apply Z.mod_pos_bound; lia|]. split; [lia|].
    intros _. rewrite Z.abs_neq by lia. rewrite Z.mul_mod_idemp_r by lia. reflexivity.
Qed.

(** ** pow2_mod_N *)
Lemma i64_small x : 0 <= x < 2 ^ 63 -> i64 x = x.
Proof.
  intros H. unfold i64. rewrite Z.mod_small; [lia|]. change (2 ^ 64) with (2 * 2 ^ 63). lia.
Qed.

Lemma p2_loop N : 2 <= N <= 3037000500 -> forall k res b e, 0 <= res < N -> 0 <= b < N -> 0 <= e < 2 ^ Z.of_nat k ->
  exists b', while k p2_cond (p2_body N) (res, b, e) = Some ((res * b ^ e) mod N, b', 0).
Proof.
  intros HN. induction k as [|k IH]; intros res b e Hr Hb He; cbn [while]; unfold p2_cond at 1.
  - change (2 ^ Z.of_nat 0) with 1 in He. replace e with 0 by lia. cbn [Z.ltb Z.compare].
    rewrite Z.pow_0_r, Z.mul_1_r, Z.mod_small by lia. eauto.
  - destruct (Z.ltb_spec 0 e) as [Hpos|Hz].
    + unfold p2_body at 2.
      assert (Sq : forall x y, 0 <= x < N -> 0 <= y < N -> i64 (x * y) = x * y).
      { intros x y Hx Hy. apply i64_small. split; [apply Z.mul_nonneg_nonneg; lia|].
        apply Z.le_lt_trans with (3037000499 * 3037000499); [apply Z.mul_le_mono_nonneg; lia|reflexivity]. }
      rewrite !Sq by assumption.
      rewrite Nat2Z.inj_succ, Z.pow_succ_r in He by lia.
      assert (E2 : 0 <= e / 2 < 2 ^ Z.of_nat k) by (split; [apply Z.div_pos; lia|apply Z.div_lt_upper_bound; lia]).
      pose proof (Z.mod_pos_bound (b * b) N ltac:(lia)) as Bb. pose proof (Z.mod_pos_bound (res * b) N ltac:(lia)) as Br.
      pose proof (Z.div_mod e 2 ltac:(lia)) as De. pose proof (Z.mod_pos_bound e 2 ltac:(lia)) as Be.
      assert (Epow : forall r0, (r0 * ((b * b) mod N) ^ (e / 2)) mod N = (r0 * b ^ (2 * (e / 2))) mod N).
      { intros r0. rewrite Z.pow_mul_r by lia. rewrite Z.pow_2_r.
        rewrite <- Z.mul_mod_idemp_r by lia. rewrite (Z.mul_mod r0) by lia.
        rewrite <- Zpower_mod by lia. rewrite <- (Z.mul_mod r0) by lia. rewrite Z.mul_mod_idemp_r by lia. reflexivity. }
      destruct (Z.eqb_spec (e mod 2) 1) as [Eo|Eo].
      * destruct (IH ((res * b) mod N) ((b * b) mod N) (e / 2) Br Bb E2) as [b' E]. rewrite E. exists b'. do 3 f_equal.
        rewrite Epow, Z.mul_mod_idemp_l by lia. rewrite De at 2. rewrite Eo, Z.pow_add_r by lia. rewrite Z.pow_1_r. f_equal. ring.
      * destruct (IH res ((b * b) mod N) (e / 2) Hr Bb E2) as [b' E]. rewrite E. exists b'. do 3 f_equal.
        rewrite Epow. rewrite De at 2. replace (e mod 2) with 0 by lia. rewrite Z.add_0_r. reflexivity.
    + replace e with 0 by lia. rewrite Z.pow_0_r, Z.mul_1_r, Z.mod_small by lia. eauto.
Qed.

Lemma pow2_mod_N_spec m N : 2 <= N <= 3037000500 -> 0 <= m < 2 ^ 63 -> pow2_mod_N m N = Some ((2 ^ m) mod N).
Proof.
  intros HN Hm. unfold pow2_mod_N.
  destruct (p2_loop N HN 63 1 (2 mod N) m) as [b' E]; try lia.
  rewrite E. f_equal. rewrite Z.mul_1_l. symmetry. apply Zpower_mod. lia.
Qed.

(** ** smallest power of two and Montgomery shifts *)
Lemma bit_length_spec n : 0 <= n -> 0 <= bit_length n /\ n < 2 ^ bit_length n /\ (forall k, 0 <= k -> n < 2 ^ k -> bit_length n <= k).
Proof.
  intros H. unfold bit_length. destruct (Z.eqb_spec n 0) as [->|Hne]; [repeat split; lia|]. rewrite Z.abs_eq by lia.
  pose proof (Z.log2_spec n ltac:(lia)) as [L1 L2]. pose proof (Z.log2_nonneg n). unfold Z.succ in L2.
  repeat split; try lia. intros k Hk Hlt. apply Z.log2_lt_pow2 in Hlt; lia.
Qed.
Lemma smallest_power_spec n :
  0 <= smallest_power_of_two n /\ n <= 2 ^ smallest_power_of_two n /\ (forall k, 0 <= k -> n <= 2 ^ k -> smallest_power_of_two n <= k).
Proof.
  unfold smallest_power_of_two. destruct (Z.gtb_spec n 1) as [H|H].
  - destruct (bit_length_spec (n - 1) ltac:(lia)) as (A & B & C). split; [lia|]. split; [lia|].
    intros k Hk Hle. apply C; lia.
  - rewrite Z.pow_0_r. repeat split; lia.
Qed.

Lemma best_shift_spec n N x : 2 <= N -> 0 <= n < N -> 0 <= x < N ->
  n * x < N * 2 ^ best_montgomery_shift n N.
Proof.
  intros HN Hn Hx. unfold best_montgomery_shift. set (c := (n * (N - 1) + N - 1) / N).
  destruct (smallest_power_spec c) as (S0 & S1 & _). set (s := smallest_power_of_two c) in *.
  assert (Hc : n * (N - 1) <= N * c).
  { unfold c. pose proof (Z.div_mod (n * (N - 1) + N - 1) N ltac:(lia)). pose proof (Z.mod_pos_bound (n * (N - 1) + N - 1) N ltac:(lia)). lia. }
  assert (n * x <= n * (N - 1)) by (apply Z.mul_le_mono_nonneg_l; lia).
  assert (N * c <= N * 2 ^ s) by (apply Z.mul_le_mono_nonneg_l; lia).
  destruct (Z.eq_dec n 0) as [->|Hn0]; [pose proof (Z.pow_pos_nonneg 2 s); lia|].
  destruct (Z.eq_dec (n * (N - 1)) (N * 2 ^ s)) as [E|]; [exfalso|lia].
  assert (n = N * (n - 2 ^ s)) by lia.
  assert (0 < n - 2 ^ s) by (destruct (Z.lt_ge_cases 0 (n - 2 ^ s)); [assumption|]; assert (N * (n - 2 ^ s) <= 0) by (apply Z.mul_nonneg_nonpos; lia); lia).
  assert (N * 1 <= N * (n - 2 ^ s)) by (apply Z.mul_le_mono_nonneg_l; lia). lia.
Qed.

(** ** classical Montgomery reduction *)
Lemma lor_shift u t k : 0 <= k -> 0 <= u < 2 ^ k -> 0 <= t -> Z.lor u (Z.shiftl t k) = u + t * 2 ^ k.
Proof.
  intros Hk Hu Ht. rewrite Z.shiftl_mul_pow2 by lia. symmetry. rewrite Z.add_nocarry_lxor, Z.lxor_lor; try reflexivity.
  all: apply Z.bits_inj'; intros i Hi; rewrite Z.land_spec, Z.testbit_0_l; destruct (Z.ltb_spec i k);
    [rewrite (Z.mul_pow2_bits_low t k i) by lia; apply andb_false_r
    |destruct (Z.eq_dec u 0) as [->|]; [rewrite Z.testbit_0_l; reflexivity|];
     rewrite (Z.bits_above_log2 u); [reflexivity|lia|apply Z.log2_lt_pow2; [lia|];
     eapply Z.lt_le_trans; [apply Hu|apply Z.pow_le_mono_r; lia]]].
Qed.

Lemma clm_inv t N m : Z.odd N = true ->
  let st := fori m (clm_body N) (t, 0) in
  0 <= snd st < 2 ^ Z.of_nat m /\ fst st * 2 ^ Z.of_nat m + snd st * N = t.
Proof.
  intros Ho. cbv zeta. apply (fori_ind (fun k st => 0 <= snd st < 2 ^ Z.of_nat k /\ fst st * 2 ^ Z.of_nat k + snd st * N = t)).
  - cbn [fst snd]. change (2 ^ Z.of_nat 0) with 1. lia.
  - intros k [x u] _ [B E]. cbn [fst snd] in *. unfold clm_body.
    pose proof (Z.mod_pos_bound x 2 ltac:(lia)) as Bt. set (temp := x mod 2) in *.
    rewrite lor_shift by lia. cbn [fst snd]. rewrite Nat2Z.inj_succ, Z.pow_succ_r by lia.
    pose proof (Z.pow_pos_nonneg 2 (Z.of_nat k) ltac:(lia) ltac:(lia)) as HP.
    assert (Ed : 2 * ((x - temp * N) / 2) = x - temp * N).
    { assert (Hm : (x - temp * N) mod 2 = 0).
      { rewrite Zmod_odd. rewrite Z.odd_sub, Z.odd_mul, Ho, andb_true_r. unfold temp. rewrite Zmod_odd.
        destruct (Z.odd x); reflexivity. }
      pose proof (Z.div_mod (x - temp * N) 2 ltac:(lia)). lia. }
    assert (temp = 0 \/ temp = 1) as Ht by lia.
    split; [destruct Ht as [-> | ->]; lia|].
    replace ((x - temp * N) / 2 * (2 * 2 ^ Z.of_nat k)) with (2 * ((x - temp * N) / 2) * 2 ^ Z.of_nat k) by ring.
    rewrite Ed, <- E. ring.
Qed.

Lemma cl_mont_spec t N m : 0 < N -> Z.odd N = true -> 0 <= t < N * 2 ^ Z.of_nat m ->
  let '(s, u) := cl_montgomery_reduction t N m in
  0 <= s < N /\ (s * 2 ^ Z.of_nat m) mod N = t mod N /\
  0 <= u < 2 ^ Z.of_nat m /\ (u * N) mod 2 ^ Z.of_nat m = t mod 2 ^ Z.of_nat m.
Proof.
  intros HN Ho Ht. unfold cl_montgomery_reduction. pose proof (clm_inv t N m Ho) as H. cbv zeta in H.
  destruct (fori m (clm_body N) (t, 0)) as [x u]. cbn [fst snd] in H. destruct H as [B E].
  pose proof (Z.pow_pos_nonneg 2 (Z.of_nat m) ltac:(lia) ltac:(lia)) as HP. set (P := 2 ^ Z.of_nat m) in *.
  assert (Hu : (u * N) mod P = t mod P).
  { rewrite <- E. rewrite Z.add_comm, Z.mod_add by lia. reflexivity. }
  assert (HuN : 0 <= u * N) by (apply Z.mul_nonneg_nonneg; lia).
  assert (HuN2 : u * N <= (P - 1) * N) by (apply Z.mul_le_mono_nonneg_r; lia).
  assert (S1 : x < N) by (apply (Z.mul_lt_mono_pos_r P); lia).
  assert (S2 : - N < x) by (apply (Z.mul_lt_mono_pos_r P); lia).
  destruct (Z.ltb_spec x 0).
  - repeat split; try lia. rewrite Z.mul_add_distr_r, <- E.
    replace (x * P + N * P) with (x * P + P * N) by ring. rewrite !Z.mod_add by lia. reflexivity.
  - repeat split; try lia. rewrite <- E, Z.mod_add by lia. reflexivity.
Qed.

(** ** find_best_montgomery_shift *)
Lemma fbm_spec b N : forall fuel m r, fbm fuel b N m = Some r ->
  (m <= r)%nat /\ fbm_ok b N r = true /\ forall k, (m <= k < r)%nat -> fbm_ok b N k = false.
Proof.
  induction fuel as [|f IH]; intros m r H; [discriminate|]. cbn [fbm] in H. destruct (fbm_ok b N m) eqn:E.
  - injection H as <-. repeat split; auto; lia.
  - destruct (IH _ _ H) as (A & B & C). repeat split; try lia; auto.
    intros k Hk. destruct (Nat.eq_dec k m) as [->|]; [exact E|apply C; lia].
Qed.
Lemma fbm_ok_big b N m : 2 <= N -> N <= 2 ^ Z.of_nat m -> fbm_ok b N m = true.
Proof.
  intros HN Hm. unfold fbm_ok. apply Z.ltb_lt.
  match goal with |- (N - 1) * (?x mod N) < _ => pose proof (Z.mod_pos_bound x N ltac:(lia)) as B; set (y := x mod N) in * end.
  assert ((N - 1) * y <= (N - 1) * (N - 1)) by (apply Z.mul_le_mono_nonneg_l; lia).
  assert (N * N <= N * 2 ^ Z.of_nat m) by (apply Z.mul_le_mono_nonneg_l; lia). lia.
Qed.
Lemma fbm_total b N r0 : fbm_ok b N r0 = true -> forall fuel m, (m <= r0)%nat -> (r0 < m + fuel)%nat -> exists r, fbm fuel b N m = Some r.
Proof.
  intros Hr. induction fuel as [|f IH]; intros m H1 H2; [lia|]. cbn [fbm]. destruct (fbm_ok b N m) eqn:E; [eauto|].
  apply IH; [|lia]. destruct (Nat.eq_dec m r0) as [->|]; [congruence|lia].
Qed.
Lemma find_best_shift_spec b N : 2 <= N ->
  exists m, find_best_montgomery_shift b N = Some m /\
    (forall a, 0 <= a < N -> a * ((b * 2 ^ Z.of_nat m) mod N) < N * 2 ^ Z.of_nat m) /\
    (forall k, (k < m)%nat -> ~ forall a, 0 <= a < N -> a * ((b * 2 ^ Z.of_nat k) mod N) < N * 2 ^ Z.of_nat k).
Proof.
  intros HN. unfold find_best_montgomery_shift.
  assert (Hb : fbm_ok b N (Z.to_nat (Z.log2 N + 1)) = true).
  { apply fbm_ok_big; [exact HN|]. pose proof (Z.log2_spec N ltac:(lia)). pose proof (Z.log2_nonneg N).
    rewrite Z2Nat.id by lia. unfold Z.succ in *. lia. }
  destruct (fbm_total b N _ Hb (S (Z.to_nat (Z.log2 N + 1))) 0) as [m E]; try lia.
  destruct (fbm_spec b N _ _ _ E) as (_ & Hok & Hmin). exists m. split; [exact E|].
  assert (Eok : forall k, fbm_ok b N k = ((N - 1) * ((b * 2 ^ Z.of_nat k) mod N) <? N * 2 ^ Z.of_nat k)).
  { intros k. unfold fbm_ok. rewrite mont_enc_py_value, Z.mod_mod, Z.shiftl_mul_pow2, Z.mul_1_l by lia. reflexivity. }
  split.
  - intros a Ha. rewrite Eok in Hok. apply Z.ltb_lt in Hok.
    pose proof (Z.mod_pos_bound (b * 2 ^ Z.of_nat m) N ltac:(lia)).
    eapply Z.le_lt_trans; [|exact Hok]. apply Z.mul_le_mono_nonneg_r; lia.
  - intros k Hk Hall. specialize (Hmin k ltac:(lia)). rewrite Eok in Hmin. apply Z.ltb_ge in Hmin.
    specialize (Hall (N - 1) ltac:(lia)). lia.
Qed.
