(** Splitting a factor into an odd integer and a power of two. *)
From Coq Require Import List ZArith Bool Lia Arith QArith Qround Qabs.
Import ListNotations.
From Verif.QFloat Require Import QFModel QFSpec QFProofs.
From Verif.Inplace Require Import InplModel.
Local Open Scope Z_scope.

Lemma odd_part_spec fuel : forall n s m t, odd_part fuel n s = Some (m, t) -> Z.odd m = true /\ s <= t /\ n = m * 2 ^ (t - s).
Proof.
  induction fuel as [|fuel IH]; intros n s m t H; [discriminate|]. cbn [odd_part] in H. destruct (Z.eqb_spec (n mod 2) 0) as [E|E].
  - apply IH in H as (O & L & N). split; [exact O|]. split; [lia|]. replace (t - s) with (Z.succ (t - (s + 1))) by lia. rewrite Z.pow_succ_r by lia. pose proof (Z.div_mod n 2). nia.
  - injection H as <- <-. split; [|split; [lia|rewrite Z.sub_diag, Z.pow_0_r; lia]]. rewrite Zmod_odd in E. destruct (Z.odd n); [reflexivity|congruence].
Qed.
Lemma odd_part_total n : forall m s, Z.odd m = true -> odd_part (S n) (m * 2 ^ Z.of_nat n) s = Some (m, s + Z.of_nat n).
Proof.
  induction n as [|n IH]; intros m s O.
  - cbn [odd_part Z.of_nat]. rewrite Z.pow_0_r, Z.mul_1_r, Z.add_0_r, Zmod_odd, O. reflexivity.
  - rewrite Nat2Z.inj_succ, Z.pow_succ_r by lia. change (odd_part (S (S n)) ?a ?b) with (if a mod 2 =? 0 then odd_part (S n) (a / 2) (b + 1) else Some (a, b)).
    replace (m * (2 * 2 ^ Z.of_nat n)) with (m * 2 ^ Z.of_nat n * 2) by ring. rewrite Z_mod_mult, Z_div_mult_full by lia. cbn [Z.eqb]. rewrite IH by exact O. f_equal. f_equal. lia.
Qed.
Lemma odd_part_zero fuel : forall s, odd_part fuel 0 s = None.
Proof. induction fuel as [|fuel IH]; intros s; [reflexivity|]. cbn. apply IH. Qed.
Lemma find_seq_min P n : forall a i, find P (seq a n) = Some i -> P i = true /\ (a <= i < a + n)%nat /\ forall j, (a <= j < i)%nat -> P j = false.
Proof.
  induction n as [|n IH]; intros a i H; [discriminate|]. cbn [seq find] in H. destruct (P a) eqn:E.
  - injection H as <-. split; [exact E|]. split; [lia|]. intros j J. lia.
  - apply IH in H as (A & B & C). split; [exact A|]. split; [lia|]. intros j J. destruct (Nat.eq_dec j a) as [->|N]; [exact E|]. apply C. lia.
Qed.
Lemma whole q : Qeq_bool (inject_Z (qtrunc q)) q = true <-> exists k, (q == inject_Z k)%Q.
Proof.
  rewrite Qeq_bool_iff. split; [intros H; exists (qtrunc q); symmetry; exact H|]. intros [k H]. rewrite (qtrunc_eq _ _ H), qtrunc_Z. symmetry. exact H.
Qed.
Lemma whole_abs q : (exists k, (Qabs q == inject_Z k)%Q) <-> exists k, (q == inject_Z k)%Q.
Proof.
  destruct (Qlt_le_dec q 0) as [H|H].
  - pose proof (Qabs_neg q (Qlt_le_weak _ _ H)) as A. split; intros [k E]; exists (- k); rewrite inject_Z_opp; [rewrite <- E, A; ring|rewrite A, E; reflexivity].
  - pose proof (Qabs_pos q H) as A. split; intros [k E]; exists k; [rewrite <- A|rewrite A]; exact E.
Qed.
Lemma abs_pow i q : (inject_Z (2 ^ Z.of_nat i) * Qabs q == Qabs (inject_Z (2 ^ Z.of_nat i) * q))%Q.
Proof. rewrite Qabs_Qmult, (Qabs_pos (inject_Z _)); [reflexivity|]. change 0%Q with (inject_Z 0). rewrite <- Zle_Qle. apply Z.pow_nonneg. lia. Qed.
Lemma test_whole i q : (let c := (inject_Z (2 ^ Z.of_nat i) * Qabs q)%Q in Qeq_bool (inject_Z (qtrunc c)) c) = true <-> exists k, (inject_Z (2 ^ Z.of_nat i) * q == inject_Z k)%Q.
Proof.
  cbv zeta. rewrite whole. rewrite <- (whole_abs (inject_Z (2 ^ Z.of_nat i) * q)). pose proof (abs_pow i q) as A. split; intros [k E]; exists k; [rewrite <- A|rewrite A]; exact E.
Qed.
Lemma split_ok fuel mult m s : split_factor fuel mult = Some (m, s) -> Z.odd m = true /\ -31 <= s /\ (mult == inject_Z m * pw s)%Q.
Proof.
  intros H. unfold split_factor in H. destruct (Qeq_bool (inject_Z (qtrunc mult)) mult) eqn:W.
  - apply odd_part_spec in H as (O & L & E). split; [exact O|]. split; [lia|]. apply Qeq_bool_iff in W. rewrite <- W, E, inject_Z_mult, Z.sub_0_r, pw_Z by lia. reflexivity.
  - destruct (find _ (seq 0 32)) as [i|] eqn:F; [|discriminate]. injection H as <- <-. apply find_seq_min in F as (A & B & C). apply test_whole in A as [k A].
    assert (I : i <> 0%nat). { intros ->. cbn in A. assert (Qeq_bool (inject_Z (qtrunc mult)) mult = true); [|congruence]. apply whole. exists k. rewrite <- A. ring. }
    rewrite (qtrunc_eq _ _ A), qtrunc_Z. split; [|split; [lia|]].
    + destruct (Z.odd k) eqn:O; [reflexivity|]. assert (X : false = true); [|discriminate X]. rewrite <- (C (i - 1)%nat) by lia. apply test_whole. exists (k / 2).
      assert (K : k = 2 * (k / 2)) by (pose proof (Z.div_mod k 2); rewrite Zmod_odd, O in *; lia). rewrite K in A. replace (2 ^ Z.of_nat i) with (2 * 2 ^ Z.of_nat (i - 1)) in A by (rewrite <- Z.pow_succ_r by lia; f_equal; lia). rewrite !inject_Z_mult in A. rewrite <- Qmult_assoc in A. apply Qmult_inj_l in A; [exact A|discriminate].
    + rewrite <- A. rewrite <- pw_Z by lia. transitivity (mult * (pw (- Z.of_nat i) * pw (Z.of_nat i)))%Q; [|ring]. rewrite <- pw_add. replace (- Z.of_nat i + Z.of_nat i) with 0 by lia. change (pw 0) with 1%Q. ring.
Qed.
Lemma odd_unique m s m' s' : Z.odd m = true -> Z.odd m' = true -> (inject_Z m * pw s == inject_Z m' * pw s')%Q -> m = m' /\ s = s'.
Proof.
  assert (H : forall m s m' s', Z.odd m = true -> Z.odd m' = true -> s <= s' -> (inject_Z m * pw s == inject_Z m' * pw s')%Q -> m = m' /\ s = s').
  { clear. intros m s m' s' O O' L E. rewrite (scale m' s' s L) in E. apply mul_pw_inj in E. destruct (Z.eq_dec s s') as [->|N]; [rewrite Z.sub_diag, Z.pow_0_r in E; lia|].
    replace (s' - s) with (Z.succ (s' - s - 1)) in E by lia. rewrite Z.pow_succ_r in E by lia. rewrite E, !Z.odd_mul, andb_false_r in O. discriminate. }
  intros O O' E. destruct (Z_le_gt_dec s s') as [L|L]; [apply H; assumption|]. symmetry in E. apply H in E; [|assumption|assumption|lia]. destruct E. auto.
Qed.
Lemma split_total mult m s : Z.odd m = true -> -31 <= s -> (mult == inject_Z m * pw s)%Q -> exists fuel, split_factor fuel mult = Some (m, s).
Proof.
  intros O L E. assert (X : exists fuel, split_factor fuel mult <> None).
  - unfold split_factor. destruct (Qeq_bool (inject_Z (qtrunc mult)) mult) eqn:W.
    + assert (0 <= s). { destruct (Z_le_gt_dec 0 s) as [|N]; [assumption|]. apply whole in W as [k W]. rewrite W in E. assert (E' : (inject_Z k * pw 0 == inject_Z m * pw s)%Q) by (rewrite <- E; change (pw 0) with 1%Q; ring). rewrite (scale k 0 s) in E' by lia. apply mul_pw_inj in E'.
        replace (0 - s) with (Z.succ (- s - 1)) in E' by lia. rewrite Z.pow_succ_r in E' by lia. rewrite <- E', !Z.odd_mul, andb_false_r in O. discriminate. }
      exists (S (Z.to_nat s)). apply Qeq_bool_iff in W. assert (T : qtrunc mult = m * 2 ^ s). { apply inj_eq. rewrite W, E, inject_Z_mult, pw_Z by assumption. reflexivity. }
      rewrite T. replace s with (Z.of_nat (Z.to_nat s)) at 2 by lia. rewrite odd_part_total by exact O. discriminate.
    + assert (N : s < 0). { destruct (Z_lt_le_dec s 0) as [|N]; [assumption|]. assert (Qeq_bool (inject_Z (qtrunc mult)) mult = true); [|congruence]. apply whole. exists (m * 2 ^ s). rewrite E, inject_Z_mult, pw_Z by exact N. reflexivity. }
      exists 0%nat. destruct (find _ (seq 0 32)) as [i|] eqn:F; [discriminate|]. apply find_none with (x := Z.to_nat (- s)) in F; [|apply in_seq; lia].
      assert (X : false = true); [|discriminate X]. rewrite <- F. apply test_whole. exists m. rewrite E, <- pw_Z by lia. replace (Z.of_nat (Z.to_nat (- s))) with (- s) by lia. transitivity (inject_Z m * (pw (- s) * pw s))%Q; [ring|]. rewrite <- pw_add, Z.add_opp_diag_l. change (pw 0) with 1%Q. ring.
  - destruct X as [fuel X]. exists fuel. destruct (split_factor fuel mult) as [[m' s']|] eqn:H; [|congruence]. destruct (split_ok _ _ _ _ H) as (O' & _ & E'). rewrite E' in E. destruct (odd_unique _ _ _ _ O' O E) as [-> ->]. reflexivity.
Qed.
