(** Basic lemmas: partial sums of limb vectors, wrap-around identities. *)
From Verif.Lib Require Import Arr.
From Verif.BigInt Require Import BigIntSpec BigIntModel.
Local Open Scope Z_scope.

Lemma BASE_val : BASE = 4294967296. Proof. reflexivity. Qed.
Lemma BASE_pos : 0 < BASE. Proof. rewrite BASE_val; lia. Qed.
Lemma pow32 : 2 ^ 32 = BASE. Proof. reflexivity. Qed.

(** psum f n = sum_{k<n} f k * BASE^k *)
Fixpoint psum (f : nat -> Z) (n : nat) : Z :=
  match n with
  | O => 0
  | S m => psum f m + f m * BASE ^ Z.of_nat m
  end.

Lemma psum_ext f g n : (forall i, (i < n)%nat -> f i = g i) -> psum f n = psum g n.
Proof.
  induction n as [|n IH]; intros H; cbn [psum]; [reflexivity|].
  rewrite IH by (intros; apply H; lia). rewrite H by lia. reflexivity.
Qed.

Lemma Bpow_S n : BASE ^ Z.of_nat (S n) = BASE * BASE ^ Z.of_nat n.
Proof. rewrite Nat2Z.inj_succ, Z.pow_succ_r by lia. reflexivity. Qed.

Lemma Bpow_pos n : 0 < BASE ^ Z.of_nat n.
Proof. apply Z.pow_pos_nonneg; [apply BASE_pos|lia]. Qed.

Lemma Bpow_add n m : BASE ^ Z.of_nat (n + m) = BASE ^ Z.of_nat n * BASE ^ Z.of_nat m.
Proof. rewrite Nat2Z.inj_add, Z.pow_add_r by lia. reflexivity. Qed.

Lemma psum_shift f n : psum f (S n) = f O + BASE * psum (fun i => f (S i)) n.
Proof.
  induction n as [|n IH].
  - cbn [psum]. change (Z.of_nat 0) with 0. rewrite Z.pow_0_r. lia.
  - cbn [psum] in *. rewrite IH. rewrite !Bpow_S. ring.
Qed.

Lemma value_psum ds : value ds = psum (aget ds) (length ds).
Proof.
  induction ds as [|d t IH]; [reflexivity|].
  cbn [length]. rewrite psum_shift. cbn [value]. rewrite pow32, IH.
  unfold aget at 2. cbn [nth]. f_equal.
Qed.

Lemma cap_pow n : cap n = BASE ^ Z.of_nat n.
Proof. unfold cap, BASE. rewrite <- Z.pow_mul_r by lia. reflexivity. Qed.

Lemma cap_pos n : 0 < cap n.
Proof. rewrite cap_pow. apply Bpow_pos. Qed.

Definition limb (f : nat -> Z) (n : nat) : Prop := forall i, (i < n)%nat -> 0 <= f i < BASE.

Lemma psum_bound f n : limb f n -> 0 <= psum f n < BASE ^ Z.of_nat n.
Proof.
  induction n as [|n IH]; intros H.
  - cbn [psum]. change (Z.of_nat 0) with 0. rewrite Z.pow_0_r. lia.
  - cbn [psum]. assert (Hn : limb f n) by (intros i Hi; apply H; lia).
    specialize (IH Hn). specialize (H n ltac:(lia)). rewrite Bpow_S.
    pose proof (Bpow_pos n). pose proof BASE_pos. nia.
Qed.

Lemma wf_limb ds : wf ds <-> limb (aget ds) (length ds).
Proof.
  unfold wf, limb. rewrite Forall_forall. split.
  - intros H i Hi. apply H. unfold aget. apply nth_In; exact Hi.
  - intros H x Hx. destruct (In_nth ds x 0 Hx) as [i [Hi <-]]. apply H; exact Hi.
Qed.

Lemma wf_get ds i : wf ds -> 0 <= aget ds i < BASE.
Proof.
  intros H. destruct (Nat.ltb_spec i (length ds)).
  - apply wf_limb in H. apply H; assumption.
  - rewrite aget_overflow by lia. pose proof BASE_pos; lia.
Qed.

Lemma value_bound ds : wf ds -> 0 <= value ds < cap (length ds).
Proof. intros H. rewrite value_psum, cap_pow. apply psum_bound, wf_limb, H. Qed.

Lemma psum_nonneg ds n : wf ds -> 0 <= psum (aget ds) n < BASE ^ Z.of_nat n.
Proof. intros H. apply psum_bound. intros i _. apply wf_get, H. Qed.

(** Updating one position of the array. *)
Lemma psum_aset l i v n :
  (i < length l)%nat ->
  psum (aget (aset l i v)) n =
  psum (aget l) n + (if (i <? n)%nat then (v - aget l i) * BASE ^ Z.of_nat i else 0).
Proof.
  intros Hi. induction n as [|n IH]; [reflexivity|].
  cbn [psum]. rewrite IH, aget_aset.
  assert (Hb : (i <? length l)%nat = true) by (apply Nat.ltb_lt; lia). rewrite Hb.
  destruct (Nat.eqb_spec i n) as [->|Hne]; cbn [andb].
  - destruct (Nat.ltb_spec n n); [lia|]. destruct (Nat.ltb_spec n (S n)); [|lia]. ring.
  - destruct (Nat.ltb_spec i n), (Nat.ltb_spec i (S n)); try lia; ring.
Qed.

Lemma psum_aset_above l i v n : (n <= i)%nat -> psum (aget (aset l i v)) n = psum (aget l) n.
Proof.
  intros H. apply psum_ext. intros k Hk. apply aget_aset_neq. lia.
Qed.

Lemma psum_S_aset l i v :
  (i < length l)%nat ->
  psum (aget (aset l i v)) (S i) = psum (aget l) i + v * BASE ^ Z.of_nat i.
Proof.
  intros Hi. cbn [psum]. rewrite psum_aset_above by lia. rewrite aget_aset_eq by lia. reflexivity.
Qed.

Lemma psum_zero n : psum (fun _ => 0) n = 0.
Proof. induction n as [|n IH]; cbn [psum]; lia. Qed.

Lemma psum_repeat k n : psum (aget (repeat 0 k)) n = 0.
Proof. rewrite (psum_ext _ (fun _ => 0)); [apply psum_zero|]. intros; apply aget_repeat. Qed.

Lemma wf_repeat k : wf (repeat 0 k).
Proof. apply wf_limb. intros i _. rewrite aget_repeat. pose proof BASE_pos; lia. Qed.

Lemma wf_aset l i v : wf l -> 0 <= v < BASE -> wf (aset l i v).
Proof.
  intros H Hv. apply wf_limb. intros k Hk. rewrite aget_aset.
  destruct (_ && _); [exact Hv|]. apply wf_get, H.
Qed.

Lemma wf_app l1 l2 : wf l1 -> wf l2 -> wf (l1 ++ l2).
Proof. unfold wf; intros; apply Forall_app; split; assumption. Qed.

Lemma wf_firstn n l : wf l -> wf (firstn n l).
Proof.
  unfold wf; rewrite !Forall_forall. intros H x Hx. apply H. rewrite <- (firstn_skipn n l).
  apply in_or_app; left; exact Hx.
Qed.

Lemma w32_range x : 0 <= w32 x < BASE.
Proof. unfold w32. apply Z.mod_pos_bound, BASE_pos. Qed.
Lemma w32_small x : 0 <= x < BASE -> w32 x = x.
Proof. intros; unfold w32; apply Z.mod_small; assumption. Qed.
Lemma w64_small x : 0 <= x < BASE * BASE -> w64 x = x.
Proof. intros; unfold w64; apply Z.mod_small; assumption. Qed.
Lemma land_mask x : Z.land x (2 ^ 32 - 1) = x mod BASE.
Proof.
  replace (2 ^ 32 - 1) with (Z.ones 32) by reflexivity.
  rewrite Z.land_ones by lia. reflexivity.
Qed.
Lemma land_mask' x : Z.land x (BASE - 1) = x mod BASE.
Proof. exact (land_mask x). Qed.
Lemma shiftr32 x : Z.shiftr x 32 = x / BASE.
Proof. rewrite Z.shiftr_div_pow2 by lia. reflexivity. Qed.
Lemma shiftl32 x : Z.shiftl x 32 = x * BASE.
Proof. rewrite Z.shiftl_mul_pow2 by lia. reflexivity. Qed.
Lemma w32_mod x : w32 (x mod BASE) = x mod BASE.
Proof. unfold w32. apply Z.mod_mod. pose proof BASE_pos; lia. Qed.
Lemma w32_w32 x : w32 (w32 x) = w32 x.
Proof. unfold w32. apply Z.mod_mod. pose proof BASE_pos; lia. Qed.
Lemma divmodB x : x = BASE * (x / BASE) + x mod BASE.
Proof. apply Z.div_mod. pose proof BASE_pos; lia. Qed.

Lemma value_eq_mod_small l x : wf l -> value l mod cap (length l) = x mod cap (length l) ->
  value l = x mod cap (length l).
Proof. intros H E. rewrite <- E. symmetry. apply Z.mod_small, value_bound, H. Qed.

(** Splitting a partial sum. *)
Lemma psum_split f n k : psum f (n + k) = psum f n + BASE ^ Z.of_nat n * psum (fun i => f (n + i)%nat) k.
Proof.
  induction k as [|k IH].
  - rewrite Nat.add_0_r. cbn [psum]. lia.
  - rewrite Nat.add_succ_r. cbn [psum]. rewrite IH, Bpow_add. ring.
Qed.

Lemma value_app a b : value (a ++ b) = value a + cap (length a) * value b.
Proof.
  induction a as [|x a IH]; cbn [app value length].
  - unfold cap. change (32 * Z.of_nat 0) with 0. rewrite Z.pow_0_r. lia.
  - rewrite IH, !cap_pow, Bpow_S, pow32. ring.
Qed.

Lemma value_repeat n : value (repeat 0 n) = 0.
Proof. induction n as [|n IH]; cbn [repeat value]; lia. Qed.

Lemma value_inj a b : length a = length b -> wf a -> wf b -> value a = value b -> a = b.
Proof.
  revert b. induction a as [|x a IH]; intros [|y b] Hl Ha Hb He; cbn [length] in Hl; try lia; auto.
  unfold wf in *. inversion Ha as [|? ? Hx Ha']; inversion Hb as [|? ? Hy Hb']; subst.
  cbn [value] in He. rewrite pow32 in *.
  assert (value a = value b /\ x = y) as [E1 ->] by (rewrite BASE_val in *; lia).
  f_equal. apply IH; auto.
Qed.
