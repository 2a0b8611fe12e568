(** Proofs about the unary state. *)
From Coq Require Import Reals Lra Lia List Arith Bool Psatz.
Import ListNotations.
From Verif.Inverse Require Import InvSpec InvProofs.
From Verif.CtrlOps Require Import CtrlComplex.
From Verif.StatePrep Require Import PrepModel PrepSpec PrepNum XxyyProofs.
From Verif.Cheb Require Import ChebModel ChebSpec.
Local Open Scope R_scope.
(** ** angles *)
Lemma tan_sides a s : 0 < a -> 0 <= s -> cos (atan (s / a)) = a / sqrt (a ^ 2 + s ^ 2) /\ sin (atan (s / a)) = s / sqrt (a ^ 2 + s ^ 2).
Proof.
  intros A S. rewrite cos_atan, sin_atan. assert (Q : sqrt (1 + (s / a)²) = sqrt (a ^ 2 + s ^ 2) / a).
  { replace (1 + (s / a)²) with ((a ^ 2 + s ^ 2) / a ^ 2) by (unfold Rsqr; field; lra). rewrite sqrt_div_alt by nra. rewrite sqrt_pow2 by lra. reflexivity. }
  rewrite Q. assert (0 < sqrt (a ^ 2 + s ^ 2)) by (apply sqrt_lt_R0; nra). split; field; lra.
Qed.
Lemma total_pos l : (forall c, In c l -> 0 < c) -> 0 <= total l.
Proof. induction l as [|c l IH]; intros H; cbn; [lra|]. pose proof (H c (or_introl eq_refl)). assert (0 <= total l) by (apply IH; intros d D; apply H; right; exact D). lra. Qed.
Definition head_ok (c : R) (rest : list R) (p : R) : Prop := cos p = sqrt (c / (c + total rest)) /\ sin p = sqrt (total rest / (c + total rest)).
Lemma ratio c s : 0 < c -> 0 <= s -> sqrt c / sqrt (sqrt c ^ 2 + sqrt s ^ 2) = sqrt (c / (c + s)) /\ sqrt s / sqrt (sqrt c ^ 2 + sqrt s ^ 2) = sqrt (s / (c + s)).
Proof. intros C S. rewrite !pow2_sqrt by lra. rewrite !sqrt_div_alt by lra. split; reflexivity. Qed.
Lemma angles_len l : forall a, length (angles_from a l) = length l.
Proof. induction l as [|b l IH]; intros a; [reflexivity|]. cbn [angles_from]. specialize (IH b). destruct (angles_from b l) as [|p q]; cbn [length] in *; lia. Qed.
Lemma angles_ok l : forall c, 0 < c -> (forall d, In d l -> 0 < d) -> forall j, (j < length l)%nat -> head_ok (nth j (c :: l) 0) (skipn (S j) (c :: l)) (nth j (angles_from (sqrt c) (map sqrt l)) 0).
Proof.
  induction l as [|b l IH]; intros c C H j J; [cbn in J; lia|]. assert (B : 0 < b) by (apply H; left; reflexivity). assert (H' : forall d, In d l -> 0 < d) by (intros d D; apply H; right; exact D).
  specialize (IH b B H'). cbn [map angles_from]. pose proof (angles_len (map sqrt l) (sqrt b)) as L. rewrite map_length in L. pose proof (total_pos l H') as TP. pose proof (sqrt_lt_R0 c C) as SC. pose proof (sqrt_lt_R0 b B) as SB.
  destruct (angles_from (sqrt b) (map sqrt l)) as [|p q] eqn:E.
  - destruct l as [|d l]; [|cbn in L; discriminate]. destruct j as [|j]; [|cbn in J; lia]. cbn [nth skipn total]. unfold head_ok. destruct (tan_sides (sqrt c) (sqrt b) SC ltac:(lra)) as [-> ->]. destruct (ratio c b C ltac:(lra)) as [-> ->]. cbn [total]. rewrite Rplus_0_r. split; reflexivity.
  - destruct j as [|j]; cbn [nth].
    + cbn [skipn]. assert (P0 : head_ok b l p) by (apply (IH 0%nat); cbn in L; lia). destruct P0 as [P0 _]. assert (V : sqrt b / sqrt c / cos p = sqrt (b + total l) / sqrt c).
      { rewrite P0, sqrt_div_alt by lra. assert (0 < sqrt (b + total l)) by (apply sqrt_lt_R0; lra). field. repeat split; lra. }
      rewrite V. unfold head_ok. cbn [total]. destruct (tan_sides (sqrt c) (sqrt (b + total l)) SC (sqrt_pos _)) as [-> ->]. apply ratio; lra.
    + cbn [length] in J. apply IH. lia.
Qed.
(** ** the state *)
Lemma unary_len n k : (k <= n)%nat -> length (unary n k) = n.
Proof. intros H. unfold unary. rewrite app_length, !repeat_length. lia. Qed.
Lemma unary_bit n k i : getbit (unary n k) i = (i <? k)%nat.
Proof.
  unfold getbit, unary. destruct (i <? k)%nat eqn:E; [apply Nat.ltb_lt in E|apply Nat.ltb_ge in E].
  - rewrite app_nth1 by (rewrite repeat_length; exact E). clear - E. revert i E. induction k as [|k IH]; intros [|i] E; cbn; try lia; try reflexivity; apply IH; lia.
  - rewrite app_nth2 by (rewrite repeat_length; exact E). rewrite repeat_length. generalize (i - k)%nat. induction (n - k)%nat as [|m IH]; intros [|j]; cbn; try reflexivity. apply IH.
Qed.
Lemma bits_ext x y : length x = length y -> (forall i, (i < length x)%nat -> getbit x i = getbit y i) -> x = y.
Proof. intros L H. apply (nth_ext x y false false L H). Qed.
Lemma unary_clear n j : (S j <= n)%nat -> setbit (unary n (S j)) j false = unary n j.
Proof.
  intros H. apply bits_ext; [rewrite setbit_length, !unary_len by lia; reflexivity|]. intros i Hi. rewrite setbit_length, unary_len in Hi by lia. destruct (Nat.eq_dec i j) as [->|D].
  - rewrite getbit_set_same by (rewrite unary_len; lia). rewrite unary_bit. symmetry. apply Nat.ltb_ge. lia.
  - rewrite getbit_set_other by exact D. rewrite !unary_bit. destruct (Nat.ltb_spec i (S j)), (Nat.ltb_spec i j); try reflexivity; lia.
Qed.
Section prep.
Variable cs : list R.
Hypothesis POS : forall c, In c cs -> 0 < c.
Notation n := (length cs).
Hypothesis TWO : (2 <= n)%nat.
Definition tail_sum (j : nat) : R := total (skipn j cs).
Definition amp (j k : nat) : R := if (k <=? j)%nat then sqrt (nth (k - 1) cs 0 / tail_sum 0) else sqrt (tail_sum j / tail_sum 0).
Definition Inv (j : nat) (psi : state) : Prop := (forall k, (1 <= k <= j + 1)%nat -> psi (unary n k) = real (amp j k)) /\
  forall x, length x = n -> (forall k, (1 <= k <= j + 1)%nat -> x <> unary n k) -> psi x = c0.
Lemma tail_step j : (j < n)%nat -> tail_sum j = nth j cs 0 + tail_sum (S j).
Proof. intros H. unfold tail_sum. revert j H. clear POS TWO. induction cs as [|c l IH]; intros [|j] H; cbn [length] in H; try lia; [reflexivity|]. cbn [skipn nth]. apply IH. lia. Qed.
Lemma tail_nonneg j : 0 <= tail_sum j.
Proof. apply total_pos. intros c I. apply POS. rewrite <- (firstn_skipn j cs). apply in_app_iff. right. exact I. Qed.
Lemma nth_pos j : (j < n)%nat -> 0 < nth j cs 0. Proof. intros H. apply POS, nth_In, H. Qed.
Lemma tail_pos j : (j < n)%nat -> 0 < tail_sum j. Proof. intros H. rewrite tail_step by exact H. pose proof (nth_pos j H). pose proof (tail_nonneg (S j)). lra. Qed.
Lemma phi_ok j : (j + 1 < n)%nat -> cos (nth j (unary_angles cs) 0 / 2) = sqrt (nth j cs 0 / tail_sum j) /\ sin (nth j (unary_angles cs) 0 / 2) = sqrt (tail_sum (S j) / tail_sum j).
Proof.
  intros H. rewrite tail_step by lia. unfold tail_sum. unfold unary_angles. destruct cs as [|c l]; [cbn in H; lia|]. cbn [map]. cbn [length] in H. pose proof (angles_ok l c (POS c (or_introl eq_refl)) (fun d D => POS d (or_intror D)) j ltac:(lia)) as Q.
  set (f := fun p => 2 * p). rewrite (nth_indep _ 0 (f 0)) by (rewrite map_length, angles_len, map_length; lia). rewrite (map_nth f). unfold f. replace (2 * nth j (angles_from (sqrt c) (map sqrt l)) 0 / 2) with (nth j (angles_from (sqrt c) (map sqrt l)) 0) by field. exact Q.
Qed.
Lemma sqrt_chain a b d : 0 <= a -> 0 < b -> 0 < d -> sqrt (a / b) * sqrt (b / d) = sqrt (a / d).
Proof. intros A B D. rewrite <- sqrt_mult_alt by (apply Rmult_le_pos; [exact A|apply Rlt_le, Rinv_0_lt_compat, B]). f_equal. field. lra. Qed.
Lemma rotate j psi x : (j + 1 < n)%nat -> Inv j psi -> length x = n -> act (ry (nth j (unary_angles cs) 0)) (j + 1) psi x = cmul (real (if getbit x (j + 1) then sqrt (tail_sum (S j) / tail_sum j) else sqrt (nth j cs 0 / tail_sum j))) (psi (setbit x (j + 1) false)).
Proof.
  intros H [_ I2] L. unfold act, on_qubit. destruct (phi_ok j H) as [PC PS]. rewrite (I2 (setbit x (j + 1) true)).
  - rewrite !m_ry, PC, PS. destruct (getbit x (j + 1)); apply cplx_eq; cbn; ring.
  - rewrite setbit_length. exact L.
  - intros k K Q. apply (f_equal (fun y => getbit y (j + 1))) in Q. rewrite getbit_set_same, unary_bit in Q by lia. symmetry in Q. apply Nat.ltb_lt in Q. lia.
Qed.
Lemma step_rotated j psi f : (j + 1 < n)%nat -> Inv j psi -> (forall x, length x = n -> f x = if getbit x j then act (ry (nth j (unary_angles cs) 0)) (j + 1) psi x else psi x) -> Inv (S j) f.
Proof.
  intros H I Hf. destruct I as [I1 I2]. pose proof (conj I1 I2 : Inv j psi) as I. pose proof (tail_pos 0 ltac:(lia)) as P0. pose proof (tail_pos j ltac:(lia)) as Pj. split.
  - intros k K. rewrite Hf by (apply unary_len; lia). rewrite unary_bit. destruct (Nat.ltb_spec j k) as [G|G].
    + rewrite rotate by (try assumption; apply unary_len; lia). rewrite unary_bit. destruct (Nat.ltb_spec (j + 1) k) as [G'|G'].
      * assert (k = S (j + 1)) by lia. subst k. rewrite unary_clear by lia. rewrite I1 by lia. unfold amp. replace (j + 1 <=? j)%nat with false by (symmetry; apply Nat.leb_gt; lia). replace (S (j + 1) <=? S j)%nat with false by (symmetry; apply Nat.leb_gt; lia).
        rewrite <- (sqrt_chain (tail_sum (S j)) (tail_sum j) (tail_sum 0) (tail_nonneg _) Pj P0). apply cplx_eq; cbn; ring.
      * assert (k = S j) by lia. subst k. replace (setbit (unary n (S j)) (j + 1) false) with (unary n (S j)) by (rewrite <- (setbit_get (unary n (S j)) (j + 1)) at 1; rewrite unary_bit; replace (j + 1 <? S j)%nat with false by (symmetry; apply Nat.ltb_ge; lia); reflexivity). rewrite I1 by lia. unfold amp. replace (S j <=? j)%nat with false by (symmetry; apply Nat.leb_gt; lia). rewrite Nat.leb_refl. replace (S j - 1)%nat with j by lia.
        rewrite <- (sqrt_chain (nth j cs 0) (tail_sum j) (tail_sum 0) (Rlt_le _ _ (nth_pos j ltac:(lia))) Pj P0). apply cplx_eq; cbn; ring.
    + rewrite I1 by lia. unfold amp. replace (k <=? j)%nat with true by (symmetry; apply Nat.leb_le; lia). replace (k <=? S j)%nat with true by (symmetry; apply Nat.leb_le; lia). reflexivity.
  - intros x L N. rewrite (Hf x L). destruct (getbit x j) eqn:Gj; [|apply I2; [exact L|intros k K; apply N; lia]]. rewrite rotate by assumption. rewrite I2; [apply cplx_eq; cbn; ring|rewrite setbit_length; exact L|]. intros k K Q.
    assert (KJ : k = (j + 1)%nat). { apply (f_equal (fun y => getbit y j)) in Q. rewrite getbit_set_other, Gj, unary_bit in Q by lia. symmetry in Q. apply Nat.ltb_lt in Q. lia. } subst k.
    destruct (getbit x (j + 1)) eqn:G1.
    + apply (N (S (j + 1)) ltac:(lia)). apply bits_ext; [rewrite unary_len by lia; exact L|]. intros i Hi. rewrite unary_bit. destruct (Nat.eq_dec i (j + 1)) as [->|D]; [rewrite G1; symmetry; apply Nat.ltb_lt; lia|].
      rewrite <- (getbit_set_other x (j + 1) i false D), Q, unary_bit. destruct (Nat.ltb_spec i (j + 1)), (Nat.ltb_spec i (S (j + 1))); try reflexivity; lia.
    + apply (N (j + 1)%nat ltac:(lia)). rewrite <- Q, <- G1. symmetry. apply setbit_get.
Qed.
Lemma start_ok : Inv 0 (apply (Not 0) (zero_state n)).
Proof.
  assert (Z : forall x, length x = n -> apply (Not 0) (zero_state n) x = if bits_eqb x (unary n 1) then c1 else c0).
  { intros x L. cbn [apply]. unfold zero_state, basis_state. destruct n as [|m] eqn:En; [lia|]. destruct x as [|b x]; [cbn in L; lia|]. unfold unary. cbn [getbit nth setbit repeat app]. replace (S m - 1)%nat with m by lia. cbn [bits_eqb]. destruct b; reflexivity. }
  split.
  - intros k K. assert (k = 1%nat) by lia. subst k. rewrite Z by (apply unary_len; lia). replace (bits_eqb (unary n 1) (unary n 1)) with true by (symmetry; apply bits_eqb_eq; reflexivity). unfold amp. cbn [Nat.leb]. unfold Rdiv. rewrite Rinv_r by (pose proof (tail_pos 0 ltac:(lia)); lra). rewrite sqrt_1. reflexivity.
  - intros x L N. rewrite (Z x L). destruct (bits_eqb x (unary n 1)) eqn:E; [|reflexivity]. apply bits_eqb_eq in E. exfalso. apply (N 1%nat ltac:(lia) E).
Qed.
Lemma chain k : forall j psi, Inv j psi -> (j + k + 1 = n)%nat -> Inv (n - 1) (run (map (fun i => CRy [i] (nth i (unary_angles cs) 0) (i + 1)) (seq j k)) psi).
Proof.
  induction k as [|k IH]; intros j psi I H; [cbn; replace (n - 1)%nat with j by lia; exact I|]. cbn [seq map]. unfold run. cbn [fold_left]. apply IH; [|lia]. apply (step_rotated j psi); [lia|exact I|]. intros x L. cbn [apply forallb]. rewrite andb_true_r. reflexivity.
Qed.
Lemma prepared : Inv (n - 1) (run (unary_prep n cs) (zero_state n)).
Proof.
  unfold unary_prep, run. cbn [fold_left]. set (psi0 := apply (Not 0) (zero_state n)). assert (I1 : Inv 1 (apply (U (ry (nth 0 (unary_angles cs) 0)) 1) psi0)).
  { pose proof start_ok as S0. fold psi0 in S0. apply (step_rotated 0 psi0); [lia|exact S0|]. intros x L. cbn [apply]. destruct (getbit x 0) eqn:G; [reflexivity|]. etransitivity; [apply (rotate 0 psi0 x); [lia|exact S0|exact L]|]. destruct S0 as [_ S0]. rewrite (S0 x L), (S0 (setbit x (0 + 1) false)); [apply cplx_eq; cbn; ring|rewrite setbit_length; exact L|..].
    2: intros k K Q. 2: apply (f_equal (fun y => getbit y 0)) in Q. 2: rewrite G, unary_bit in Q; symmetry in Q; apply Nat.ltb_ge in Q; lia.
    intros k K Q. apply (f_equal (fun y => getbit y 0)) in Q. rewrite getbit_set_other, G, unary_bit in Q by lia. symmetry in Q. apply Nat.ltb_ge in Q. lia. }
  apply (chain (n - 2) 1 _ I1). lia.
Qed.
End prep.
