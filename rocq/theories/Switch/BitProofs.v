(** Counting with bit lists. *)
From Coq Require Import List ZArith NArith Bool Lia Arith QArith Qcanon.
Import ListNotations.
From Verif.Inverse Require Import InvModel InvSpec.
From Verif.Fourier Require Import FourierSpec RegProofs.
From Verif.Switch Require Import SwitchModel.
Local Open Scope nat_scope.

Lemma testbit_of_nat : forall j i, Nat.testbit i j = Z.testbit (Z.of_nat i) (Z.of_nat j).
Proof.
  induction j as [|j IH]; intros i.
  - cbn [Nat.testbit]. change (Z.of_nat 0) with 0%Z. rewrite Z.bit0_odd. destruct (Nat.Even_or_Odd i) as [[k E]|[k E]]; subst i.
    + rewrite Nat2Z.inj_mul, Z.odd_mul, Nat.odd_mul. reflexivity.
    + rewrite Nat2Z.inj_add, Nat2Z.inj_mul, Z.odd_add, Z.odd_mul, Nat.odd_add, Nat.odd_mul. reflexivity.
  - cbn [Nat.testbit]. rewrite IH, Nat2Z.inj_succ, <- (Z.div2_bits (Z.of_nat i)) by lia. f_equal. rewrite Nat.div2_div, Nat2Z.inj_div. reflexivity.
Qed.
Definition bits (n i : nat) : list bool := bits_of n (Z.of_nat i).
Lemma bits_length n i : length (bits n i) = n. Proof. apply bits_of_length. Qed.
Lemma bits_testbit n i : map (fun j => Nat.testbit i j) (seq 0 n) = bits n i.
Proof. unfold bits, bits_of. apply map_ext. intros j. apply testbit_of_nat. Qed.
Lemma bits_double n i b : bits (S n) (2 * i + Nat.b2n b) = b :: bits n i.
Proof.
  unfold bits. rewrite bits_of_S. replace (Z.of_nat (2 * i + Nat.b2n b)) with (Z.b2z b + 2 * Z.of_nat i)%Z by (destruct b; cbn [Nat.b2n Z.b2z]; lia).
  f_equal; [rewrite Z.odd_add, Z.odd_mul; destruct b; reflexivity|]. f_equal. rewrite (Z.mul_comm 2), Z.div_add by lia. destruct b; reflexivity.
Qed.
Lemma bits_number_nat x qs i : (i < 2 ^ length qs) -> (read x qs = bits (length qs) i <-> Z.to_nat (value x qs) = i).
Proof.
  intros H. unfold value, bits. split.
  - intros ->. rewrite number_bits, Z.mod_small; [apply Nat2Z.id|]. split; [lia|]. rewrite <- (Nat2Z.inj_pow 2). lia.
  - intros <-. rewrite Z2Nat.id by apply number_range. pose proof (bits_number (read x qs)) as B. rewrite read_length in B. symmetry. exact B.
Qed.
Lemma lxor_even p : bitwise_count_diff (2 * p) (S (2 * p)) = 1.
Proof.
  unfold bitwise_count_diff. replace (N.of_nat (2 * p)) with (2 * N.of_nat p)%N by lia. replace (N.of_nat (S (2 * p))) with (2 * N.of_nat p + 1)%N by lia.
  replace (N.lxor (2 * N.of_nat p) (2 * N.of_nat p + 1)) with 1%N; [reflexivity|]. assert (E : forall a, N.lxor (2 * a) (2 * a + 1) = (2 * N.lxor a a + 1)%N) by (intros [|a]; cbn; [reflexivity|destruct (Pos.lxor a a); reflexivity]). rewrite E, N.lxor_nilpotent. reflexivity.
Qed.
Lemma lxor_odd p : bitwise_count_diff (2 * p + 1) (S (2 * p + 1)) = S (bitwise_count_diff p (S p)).
Proof.
  unfold bitwise_count_diff. replace (N.of_nat (2 * p + 1)) with (2 * N.of_nat p + 1)%N by lia. replace (N.of_nat (S (2 * p + 1))) with (2 * N.of_nat (S p))%N by lia.
  assert (E : forall a b, N.lxor (2 * a + 1) (2 * b) = (2 * N.lxor a b + 1)%N).
  { intros [|a] [|b]; cbn; try reflexivity. destruct (Pos.lxor a b); reflexivity. }
  rewrite E. destruct (N.lxor _ _); reflexivity.
Qed.
(** the carry of pos + 1 *)
Lemma carry : forall m pos, S pos < 2 ^ m -> exists t r, bits m pos = repeat true t ++ false :: r /\ bits m (S pos) = repeat false t ++ true :: r /\ bitwise_count_diff pos (S pos) = S t.
Proof.
  induction m as [|m IH]; intros pos H; [cbn in H; lia|]. cbn [Nat.pow] in H. destruct (Nat.Even_or_Odd pos) as [[p E]|[p E]]; subst pos.
  - exists 0, (bits m p). replace (S (2 * p)) with (2 * p + Nat.b2n true) at 1 by (cbn; lia). replace (2 * p) with (2 * p + Nat.b2n false) at 1 by (cbn; lia). rewrite !bits_double. cbn [repeat app]. split; [reflexivity|]. split; [reflexivity|apply lxor_even].
  - destruct (IH p ltac:(lia)) as (t & r & E1 & E2 & E3). exists (S t), r. replace (S (2 * p + 1)) with (2 * S p + Nat.b2n false) at 1 by (cbn; lia).
    change (2 * p + 1) with (2 * p + Nat.b2n true) at 1. rewrite !bits_double, E1, E2, lxor_odd, E3. repeat split.
Qed.
(** the bits of 2^n - 1 - i are those of i, negated *)
Lemma complement : forall n i j, i < 2 ^ n -> j < n -> Nat.testbit (2 ^ n - S i) j = negb (Nat.testbit i j).
Proof.
  induction n as [|n IH]; intros i j Hi Hj; [lia|]. cbn [Nat.pow] in *. assert (2 ^ n <> 0) by (apply Nat.pow_nonzero; lia). destruct (Nat.Even_or_Odd i) as [[k E]|[k E]]; subst i.
  - replace (2 * 2 ^ n - S (2 * k)) with (2 * (2 ^ n - S k) + 1) by lia. destruct j; [rewrite !Nat.bit0_odd, ?Nat.odd_add, ?Nat.odd_mul; reflexivity|].
    rewrite Nat.testbit_odd_succ, Nat.testbit_even_succ by lia. apply IH; lia.
  - replace (2 * 2 ^ n - S (2 * k + 1)) with (2 * (2 ^ n - S k)) by lia. destruct j; [rewrite !Nat.bit0_odd, ?Nat.odd_add, ?Nat.odd_mul; reflexivity|].
    rewrite Nat.testbit_odd_succ, Nat.testbit_even_succ by lia. apply IH; lia.
Qed.
Lemma skipn_bits n i j : j < n -> skipn j (bits n i) = Nat.testbit i j :: skipn (S j) (bits n i).
Proof.
  intros H. rewrite <- bits_testbit. rewrite <- (firstn_skipn j (seq 0 n)) at 1 2. assert (L : length (firstn j (seq 0 n)) = j) by (rewrite firstn_length, seq_length; lia).
  rewrite !skipn_map. rewrite !firstn_skipn. assert (E : seq 0 n = seq 0 j ++ j :: seq (S j) (n - S j)).
  { replace (j :: seq (S j) (n - S j)) with (seq j (n - j)) by (replace (n - j) with (S (n - S j)) by lia; reflexivity). rewrite <- seq_app. f_equal. lia. }
  rewrite E. rewrite !skipn_app, seq_length. replace (j - j) with 0 by lia. replace (S j - j) with 1 by lia. rewrite (skipn_all2 (n := j)), (skipn_all2 (n := S j)) by (rewrite seq_length; lia). reflexivity.
Qed.
Lemma bits_zero : forall n, bits n 0 = repeat false n.
Proof. induction n as [|n IH]; [reflexivity|]. change 0 with (2 * 0 + Nat.b2n false). rewrite bits_double, IH. reflexivity. Qed.
