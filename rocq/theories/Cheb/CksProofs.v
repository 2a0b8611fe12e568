(** Proofs about the coefficients of the CKS algorithm. *)
From Coq Require Import Reals Lra Lia List Arith Bool Psatz.
Import ListNotations.
From Verif.Cheb Require Import ChebModel ChebSpec ChebProofs CksModel.
Local Open Scope R_scope.
Lemma sum_ext N f g : (forall i, (i < N)%nat -> f i = g i) -> sum N f = sum N g.
Proof. induction N as [|N IH]; intros H; cbn [sum]; [reflexivity|]. rewrite IH by (intros i Hi; apply H; lia). rewrite H by lia. reflexivity. Qed.
Lemma sum_add N f g : sum N (fun i => f i + g i) = sum N f + sum N g.
Proof. induction N as [|N IH]; cbn [sum]; [ring|]. rewrite IH. ring. Qed.
Lemma sum_scale N r f : sum N (fun i => r * f i) = r * sum N f.
Proof. induction N as [|N IH]; cbn [sum]; [ring|]. rewrite IH. ring. Qed.
Lemma sum_first N f : sum (S N) f = f 0%nat + sum N (fun i => f (S i)).
Proof. induction N as [|N IH]; [cbn; ring|]. cbn [sum] in *. rewrite IH. ring. Qed.
Lemma sum_nonneg N f : (forall i, (i < N)%nat -> 0 <= f i) -> 0 <= sum N f.
Proof. induction N as [|N IH]; intros H; cbn [sum]; [lra|]. pose proof (H N ltac:(lia)). assert (0 <= sum N f) by (apply IH; intros i Hi; apply H; lia). lra. Qed.
Lemma binom_0 n : binom n 0 = 1. Proof. destruct n; reflexivity. Qed.
Lemma binom_big n : forall m, (n < m)%nat -> binom n m = 0.
Proof. induction n as [|n IH]; intros [|m] H; try lia; cbn [binom]; [reflexivity|]. rewrite !IH by lia. ring. Qed.
Lemma binom_pos n : forall m, (m <= n)%nat -> 0 < binom n m.
Proof.
  induction n as [|n IH]; intros [|m] H; try lia; cbn [binom]; try lra. pose proof (IH m ltac:(lia)). destruct (Nat.eq_dec m n) as [->|D]; [rewrite (binom_big n (S n)) by lia; lra|]. pose proof (IH (S m) ltac:(lia)). lra.
Qed.
Lemma binom_diag n : binom n n = 1.
Proof. induction n as [|n IH]; [reflexivity|]. cbn [binom]. rewrite IH, binom_big by lia. ring. Qed.
Lemma binom_sym n : forall a b, (a + b = n)%nat -> binom n a = binom n b.
Proof.
  induction n as [|n IH]; intros a b H; [destruct a, b; try lia; reflexivity|]. destruct a as [|a]; [assert (b = S n) by lia; subst b; rewrite binom_diag; apply binom_0|]. destruct b as [|b]; [assert (a = n) by lia; subst a; rewrite binom_diag; symmetry; apply binom_0|].
  cbn [binom]. rewrite (IH a (S b)) by lia. rewrite (IH (S a) b) by lia. ring.
Qed.
Lemma pascal_sum N n f : (n < N)%nat -> sum (S N) (fun m => binom (S n) m * f m) = sum N (fun m => binom n m * f m) + sum N (fun m => binom n m * f (S m)).
Proof.
  intros H. rewrite sum_first. cbn [binom]. rewrite (sum_ext N (fun i => (binom n i + binom n (S i)) * f (S i)) (fun i => binom n i * f (S i) + binom n (S i) * f (S i))) by (intros; ring). rewrite sum_add.
  enough (1 * f 0%nat + sum N (fun i => binom n (S i) * f (S i)) = sum N (fun m => binom n m * f m)) by lra. pose proof (sum_first N (fun m => binom n m * f m)) as Q. cbv beta in Q. rewrite binom_0 in Q. rewrite <- Q. cbn [sum]. rewrite binom_big by lia. ring.
Qed.
Lemma binom_total n : sum (S n) (fun m => binom n m) = 2 ^ n.
Proof.
  assert (G : forall n, sum (S n) (fun m => binom n m * 1) = 2 ^ n). { clear. induction n as [|n IH]; [cbn; ring|]. rewrite (pascal_sum (S n) n (fun _ => 1)) by lia. rewrite IH. cbn [pow]. ring. }
  rewrite <- G. apply sum_ext. intros; ring.
Qed.
Lemma wave t n : forall phi, sum (S n) (fun m => binom n m * ((-1) ^ m * cos (2 * INR m * t + phi))) = (2 * sin t) ^ n * cos (INR n * t + phi - INR n * (PI / 2)).
Proof.
  induction n as [|n IH]; intros phi.
  - cbn [sum binom pow INR]. replace (2 * 0 * t + phi) with phi by ring. replace (0 * t + phi - 0 * (PI / 2)) with phi by ring. ring.
  - rewrite (pascal_sum (S n) n) by lia. rewrite IH. rewrite (sum_ext (S n) (fun m => binom n m * ((-1) ^ S m * cos (2 * INR (S m) * t + phi))) (fun m => -1 * (binom n m * ((-1) ^ m * cos (2 * INR m * t + (phi + 2 * t)))))).
    + rewrite sum_scale, IH. set (y := INR n * t + phi - INR n * (PI / 2)). replace (INR n * t + (phi + 2 * t) - INR n * (PI / 2)) with (y + t + t) by (unfold y; ring). replace (INR (S n) * t + phi - INR (S n) * (PI / 2)) with (- (PI / 2 - (y + t))) by (rewrite S_INR; unfold y; ring). rewrite cos_neg, cos_shift. replace y with (y + t - t) at 1 by ring. rewrite cos_minus, (cos_plus (y + t) t). cbn [pow]. ring.
    + intros m _. rewrite S_INR. cbn [pow]. replace (2 * (INR m + 1) * t + phi) with (2 * INR m * t + (phi + 2 * t)) by ring. ring.
Qed.
Lemma halves b F : forall k, (k <= b)%nat -> sum (b + k + 1) F = sum (b - k) F + F b + sum k (fun i => F (b + 1 + i)%nat + F (b - 1 - i)%nat).
Proof.
  induction k as [|k IH]; intros H.
  - rewrite Nat.add_0_r, Nat.sub_0_r, Nat.add_1_r. cbn [sum]. ring.
  - replace (b + S k + 1)%nat with (S (b + k + 1)) by lia. cbn [sum]. rewrite IH by lia. replace (b - k)%nat with (S (b - S k)) by lia. cbn [sum]. replace (b + 1 + k)%nat with (b + k + 1)%nat by lia. replace (b - 1 - k)%nat with (b - S k)%nat by lia. ring.
Qed.
(** upper tail *)
Definition tail (b j : nat) : R := sum (b - j) (fun i => binom (2 * b) (b + j + 1 + i)).
Lemma sf_tail b j : sf (b + j) (2 * b) = tail b j / 4 ^ b.
Proof. unfold sf, tail. replace (2 * b - (b + j))%nat with (b - j)%nat by lia. rewrite pow_mult. replace (2 ^ 2) with 4 by ring. f_equal. apply sum_ext. intros i _. f_equal. lia. Qed.
Lemma tail_step b j : (j < b)%nat -> tail b j = binom (2 * b) (b + j + 1) + tail b (S j).
Proof. intros H. unfold tail. replace (b - j)%nat with (S (b - S j)) by lia. rewrite sum_first. rewrite Nat.add_0_r. f_equal. apply sum_ext. intros i _. f_equal. lia. Qed.
Lemma tail_end b j : (b <= j)%nat -> tail b j = 0.
Proof. intros H. unfold tail. replace (b - j)%nat with 0%nat by lia. reflexivity. Qed.
Lemma tail_nonneg b j : 0 <= tail b j.
Proof. apply sum_nonneg. intros i Hi. apply Rlt_le, binom_pos. lia. Qed.
Lemma tail_pos b j : (j < b)%nat -> 0 < tail b j.
Proof. intros H. rewrite tail_step by exact H. pose proof (tail_nonneg b (S j)). pose proof (binom_pos (2 * b) (b + j + 1) ltac:(lia)). lra. Qed.
Lemma total_tail b : 4 ^ b = binom (2 * b) b + 2 * tail b 0.
Proof.
  replace (4 ^ b) with (2 ^ (2 * b)) by (rewrite pow_mult; f_equal; ring). rewrite <- binom_total. replace (S (2 * b)) with (b + b + 1)%nat by lia. rewrite (halves b _ b (le_n b)). rewrite Nat.sub_diag. cbn [sum]. unfold tail. rewrite Nat.sub_0_r. rewrite sum_add. rewrite (sum_ext b (fun i => binom (2 * b) (b - 1 - i)) (fun i => binom (2 * b) (b + 1 + i))) by (intros i Hi; apply binom_sym; lia).
  rewrite (sum_ext b (fun i => binom (2 * b) (b + 0 + 1 + i)) (fun i => binom (2 * b) (b + 1 + i))) by (intros i Hi; f_equal; lia). ring.
Qed.
Lemma m1_sq n : (-1) ^ n * (-1) ^ n = 1.
Proof. rewrite <- Rpow_mult_distr. replace (-1 * -1) with 1 by ring. apply pow1. Qed.
Lemma cos_npi n : cos (INR n * PI) = (-1) ^ n.
Proof. induction n as [|n IH]; [cbn [INR pow]; rewrite Rmult_0_l; apply cos_0|]. rewrite S_INR, Rmult_plus_distr_r, Rmult_1_l, neg_cos, IH. cbn [pow]. ring. Qed.
Lemma sines b t : binom (2 * b) b + 2 * sum b (fun i => (-1) ^ S i * binom (2 * b) (b + 1 + i) * cos (2 * INR (S i) * t)) = (4 * sin t ^ 2) ^ b.
Proof.
  pose proof (wave t (2 * b) (- (2 * INR b * t))) as W. replace (INR (2 * b) * t + - (2 * INR b * t) - INR (2 * b) * (PI / 2)) with (- (INR b * PI)) in W by (rewrite mult_INR; cbn [INR]; field). rewrite cos_neg, cos_npi, pow_mult in W. replace ((2 * sin t) ^ 2) with (4 * sin t ^ 2) in W by ring.
  replace (S (2 * b)) with (b + b + 1)%nat in W by lia. rewrite (halves b _ b (le_n b)) in W. rewrite Nat.sub_diag in W. cbn [sum] in W.
  rewrite (sum_ext b _ (fun i => ((-1) ^ b * 2) * ((-1) ^ S i * binom (2 * b) (b + 1 + i) * cos (2 * INR (S i) * t)))) in W.
  - rewrite sum_scale in W. replace (2 * INR b * t + - (2 * INR b * t)) with 0 in W by ring. rewrite cos_0 in W. pose proof (m1_sq b) as Q. apply (f_equal (Rmult ((-1) ^ b))) in W. set (s := (-1) ^ b) in *. set (Y := sum b _) in *. transitivity ((s * s) * (4 * sin t ^ 2) ^ b); [|rewrite Q; ring]. transitivity (s * ((4 * sin t ^ 2) ^ b * s)); [|ring]. rewrite <- W. transitivity ((s * s) * (binom (2 * b) b + 2 * Y)); [rewrite Q; ring|ring].
  - intros i Hi. rewrite (binom_sym (2 * b) (b - 1 - i) (b + 1 + i)) by lia. replace (2 * INR (b + 1 + i) * t + - (2 * INR b * t)) with (2 * INR (S i) * t) by (rewrite S_INR, !plus_INR; cbn [INR]; ring).
    replace (2 * INR (b - 1 - i) * t + - (2 * INR b * t)) with (- (2 * INR (S i) * t)) by (replace (b - 1 - i)%nat with (b - S i)%nat by lia; rewrite minus_INR by lia; ring). rewrite cos_neg. replace (b + 1 + i)%nat with (b + S i)%nat by lia. rewrite pow_add.
    assert (E : (-1) ^ (b - 1 - i) = (-1) ^ b * (-1) ^ S i). { replace b with (b - 1 - i + S i)%nat at 2 by lia. rewrite pow_add. rewrite Rmult_assoc, m1_sq. ring. } rewrite E. ring.
Qed.
Lemma telescoped b t : forall k, (k <= b)%nat -> sum k (fun j => (-1) ^ j * tail b j * (cos (2 * INR j * t) + cos (2 * INR (S j) * t))) = tail b 0 - sum k (fun i => (-1) ^ S i * binom (2 * b) (b + 1 + i) * cos (2 * INR (S i) * t)) - (-1) ^ k * tail b k * cos (2 * INR k * t).
Proof.
  induction k as [|k IH]; intros H; [cbn [sum INR pow]; replace (2 * 0 * t) with 0 by ring; rewrite cos_0; ring|]. cbn [sum]. rewrite IH by lia. rewrite (tail_step b k) by lia. replace (b + k + 1)%nat with (b + 1 + k)%nat by lia. cbn [pow]. ring.
Qed.
Lemma identity b t : cos t * sum b (fun j => (-1) ^ j * (4 * sf (b + j) (2 * b)) * cos (INR (2 * j + 1) * t)) = 1 - (sin t ^ 2) ^ b.
Proof.
  assert (P : 0 < 4 ^ b) by (apply pow_lt; lra). rewrite <- sum_scale. rewrite (sum_ext b _ (fun j => (2 / 4 ^ b) * ((-1) ^ j * tail b j * (cos (2 * INR j * t) + cos (2 * INR (S j) * t))))).
  - rewrite sum_scale, (telescoped b t b (le_n b)), (tail_end b b (le_n b)). pose proof (sines b t) as Q. pose proof (total_tail b) as R. rewrite Rpow_mult_distr in Q. set (Y := sum b _) in *. apply (Rmult_eq_reg_l (4 ^ b)); [|lra]. transitivity (2 * tail b 0 - 2 * Y); [field; lra|]. lra.
  - intros j Hj. rewrite sf_tail. replace (INR (2 * j + 1) * t) with ((2 * INR j + 1) * t) by (rewrite plus_INR, mult_INR; cbn [INR]; ring). replace (cos (2 * INR j * t)) with (cos ((2 * INR j + 1) * t - t)) by (f_equal; ring). replace (cos (2 * INR (S j) * t)) with (cos ((2 * INR j + 1) * t + t)) by (rewrite S_INR; f_equal; ring). rewrite cos_minus, cos_plus. field. lra.
Qed.
