(** Reversing the bits of an index. *)
From Coq Require Import List ZArith Lia Bool Reals.
Import ListNotations.
From Verif.CtrlOps Require Import CtrlComplex.
From Verif.StatePrep Require Import PrepModel PrepSpec.
Local Open Scope Z_scope.

Lemma testbit_number x t : 0 <= t -> Z.testbit (Z.of_nat (number x)) t = nth (Z.to_nat t) x false.
Proof.
  revert t. induction x as [|b x IH]; intros t T; cbn [number].
  - rewrite Z.testbit_0_l. destruct (Z.to_nat t); reflexivity.
  - replace (Z.of_nat ((if b then 1 else 0) + 2 * number x)) with (2 * Z.of_nat (number x) + Z.b2z b) by (destruct b; cbn [Z.b2z]; lia).
    destruct (Z.eq_dec t 0) as [->|D]; [apply Z.testbit_0_r|]. replace t with (Z.succ (t - 1)) by lia. rewrite Z.testbit_succ_r by lia. rewrite IH by lia.
    replace (Z.to_nat (Z.succ (t - 1))) with (S (Z.to_nat (t - 1))) by lia. reflexivity.
Qed.
Definition js : list Z := map Z.of_nat (seq 0 64).
Lemma js_in j : 0 <= j < 64 -> In j js.
Proof. intros H. unfold js. apply in_map_iff. exists (Z.to_nat j). split; [lia|]. apply in_seq. lia. Qed.
Definition mask_ok (s m : Z) : bool := forallb (fun j => if Z.testbit m j then (Z.lxor j s =? j + s) && negb ((s <=? j) && Z.testbit m (j - s)) else (Z.lxor j s =? j - s) && (s <=? j) && Z.testbit m (j - s)) js.
Lemma ones_bit t : 0 <= t -> Z.testbit (2 ^ 64 - 1) t = (t <? 64).
Proof. intros T. change (2 ^ 64 - 1) with (Z.ones 64). destruct (Z.ltb_spec t 64); [apply Z.ones_spec_low | apply Z.ones_spec_high]; lia. Qed.
Lemma swap_low s m i j : 0 < s -> mask_ok s m = true -> 0 <= j < 64 -> Z.testbit (swap_bits s m i) j = Z.testbit i (Z.lxor j s).
Proof.
  intros P K J. assert (C := proj1 (forallb_forall _ _) K j (js_in j J)). cbn beta in C. unfold swap_bits. rewrite Z.lor_spec, !Z.land_spec, ones_bit by lia. rewrite Z.shiftr_spec, Z.shiftl_spec by lia.
  rewrite (proj2 (Z.ltb_lt j 64)) by lia. rewrite andb_true_r. destruct (Z.testbit m j).
  - apply andb_true_iff in C. destruct C as [C1 C2]. apply Z.eqb_eq in C1. rewrite C1, andb_true_r. destruct (Z.leb_spec s j) as [L|L].
    + cbn [andb] in C2. apply negb_true_iff in C2. rewrite Z.land_spec, C2, andb_false_r, orb_false_r. reflexivity.
    + rewrite (Z.testbit_neg_r _ (j - s)) by lia. rewrite orb_false_r. reflexivity.
  - apply andb_true_iff in C. destruct C as [C C3]. apply andb_true_iff in C. destruct C as [C1 C2]. apply Z.eqb_eq in C1. rewrite C1, andb_false_r, Z.land_spec, C3, andb_true_r. reflexivity.
Qed.
Lemma swap_high s m i j : 0 <= m < 2 ^ 64 -> 64 <= j -> Z.testbit (swap_bits s m i) j = false.
Proof.
  intros M J. unfold swap_bits. rewrite Z.lor_spec, !Z.land_spec, ones_bit by lia. rewrite (proj2 (Z.ltb_ge j 64)), andb_false_r, orb_false_r by lia.
  assert (E : Z.testbit m j = false); [|rewrite E; apply andb_false_r]. destruct (Z.eq_dec m 0) as [->|D]; [apply Z.testbit_0_l|]. apply Z.bits_above_log2; [lia|]. apply Z.log2_lt_pow2; [lia|].
  apply Z.lt_le_trans with (2 ^ 64); [lia|]. apply Z.pow_le_mono_r; lia.
Qed.
Lemma lxor_range j s : (0 <= j < 64 -> 0 <= s < 64 -> 0 <= Z.lxor j s < 64)%Z.
Proof.
  intros J K. assert (H : 0 <= Z.lxor j s) by (apply Z.lxor_nonneg; lia). split; [exact H|]. destruct (Z.eq_dec (Z.lxor j s) 0) as [E|D]; [lia|]. change 64 with (2 ^ 6). apply Z.log2_lt_pow2; [lia|].
  eapply Z.le_lt_trans; [apply Z.log2_lxor; lia|]. destruct (Z.eq_dec j 0) as [->|], (Z.eq_dec s 0) as [->|]; cbn [Z.log2]; rewrite ?Z.max_lub_lt_iff; try split; try reflexivity; apply Z.log2_lt_pow2; cbn; lia.
Qed.
Lemma reverse_bit i width t : 0 <= width <= 64 -> 0 <= t -> Z.testbit (bit_reverse i width) t = (t <? width) && Z.testbit i (width - 1 - t).
Proof.
  intros W T. unfold bit_reverse. rewrite Z.shiftr_spec by lia. destruct (Z.ltb_spec t width) as [L|L].
  - cbn [andb]. set (j := t + (64 - width)). assert (J : 0 <= j < 64) by (unfold j; lia).
    rewrite swap_low by (reflexivity || (vm_compute; reflexivity) || exact J). rewrite swap_low by (reflexivity || (vm_compute; reflexivity) || (repeat apply lxor_range; lia)).
    rewrite swap_low by (reflexivity || (vm_compute; reflexivity) || (repeat apply lxor_range; lia)). rewrite swap_low by (reflexivity || (vm_compute; reflexivity) || (repeat apply lxor_range; lia)).
    rewrite swap_low by (reflexivity || (vm_compute; reflexivity) || (repeat apply lxor_range; lia)). rewrite swap_low by (reflexivity || (vm_compute; reflexivity) || (repeat apply lxor_range; lia)).
    assert (E : forallb (fun j => Z.lxor (Z.lxor (Z.lxor (Z.lxor (Z.lxor (Z.lxor j 32) 16) 8) 4) 2) 1 =? 63 - j) js = true) by (vm_compute; reflexivity).
    assert (C := proj1 (forallb_forall _ _) E j (js_in j J)). cbn beta in C. apply Z.eqb_eq in C. rewrite C. f_equal. unfold j. lia.
  - apply swap_high; [lia|]. lia.
Qed.
Lemma reverse_ok x : (length x <= 64)%nat -> bit_reverse (Z.of_nat (number x)) (Z.of_nat (length x)) = Z.of_nat (number (rev x)).
Proof.
  intros L. apply Z.bits_inj'. intros t T. rewrite reverse_bit by lia. rewrite (testbit_number (rev x)) by lia. destruct (Z.ltb_spec t (Z.of_nat (length x))) as [B|B].
  - rewrite testbit_number by lia. cbn [andb]. rewrite rev_nth by lia. f_equal. lia.
  - rewrite nth_overflow by (rewrite rev_length; lia). reflexivity.
Qed.
Lemma bitrev_bit n j t : 0 <= t -> Z.testbit (bitrev_index n j) t = (t <? Z.of_nat n) && Z.testbit j (Z.of_nat n - 1 - t).
Proof.
  unfold bitrev_index. revert t. induction n as [|n IH]; intros t T; [cbn; rewrite Z.testbit_0_l; symmetry; apply andb_false_iff; left; apply Z.ltb_ge; lia|].
  rewrite seq_S, fold_left_app. cbn [fold_left plus]. rewrite Z.lor_spec, Z.land_spec, Z.shiftl_spec, Z.shiftr_spec by lia. destruct (Z.eq_dec t 0) as [->|D].
  - rewrite (Z.testbit_neg_r _ (0 - 1)) by lia. change (Z.testbit 1 0) with true. rewrite (proj2 (Z.ltb_lt _ _)) by lia. rewrite andb_true_r. cbn [orb andb]. f_equal. lia.
  - rewrite IH by lia. replace (Z.testbit 1 t) with false by (change 1 with (2 ^ 0); symmetry; apply Z.pow2_bits_false; lia). rewrite andb_false_r, orb_false_r.
    destruct (Z.ltb_spec (t - 1) (Z.of_nat n)), (Z.ltb_spec t (Z.of_nat (S n))); try (exfalso; lia); [|reflexivity]. cbn [andb]. f_equal. lia.
Qed.
Lemma bitrev_ok x : bitrev_index (length x) (Z.of_nat (number x)) = Z.of_nat (number (rev x)).
Proof.
  apply Z.bits_inj'. intros t T. rewrite bitrev_bit by lia. rewrite (testbit_number (rev x)) by lia. destruct (Z.ltb_spec t (Z.of_nat (length x))) as [B|B].
  - rewrite testbit_number by lia. cbn [andb]. rewrite rev_nth by lia. f_equal. lia.
  - rewrite nth_overflow by (rewrite rev_length; lia). reflexivity.
Qed.
Lemma number_lt x : (number x < 2 ^ length x)%nat.
Proof. induction x as [|b x IH]; cbn [number length Nat.pow]; [lia|]. destruct b; lia. Qed.
Lemma number_app x y : number (x ++ y) = (number x + 2 ^ length x * number y)%nat.
Proof. induction x as [|b x IH]; cbn [number app length Nat.pow]; [lia|]. rewrite IH. destruct b; lia. Qed.
Lemma swap_endianness_ok v x : length v = (2 ^ length x)%nat -> nth (number x) (swap_endianness v (length x)) c0 = nth (number (rev x)) v c0.
Proof.
  intros L. unfold swap_endianness. set (f := fun j => nth (Z.to_nat (bitrev_index (length x) (Z.of_nat j))) v c0). assert (B := number_lt x).
  rewrite (nth_indep _ c0 (f 0%nat)) by (rewrite map_length, seq_length; exact B). rewrite map_nth, seq_nth by exact B. unfold f. cbn [plus]. rewrite bitrev_ok, Nat2Z.id. reflexivity.
Qed.
