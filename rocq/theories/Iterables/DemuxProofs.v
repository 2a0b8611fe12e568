From Coq Require Import ZArith List Bool Arith Lia Permutation.
From Verif.Iterables Require Import IterModel IterSpec IterProofs ShiftProofs.
Import ListNotations.

Lemma number_lt : forall c, number c < 2 ^ length c.
Proof. induction c as [|b c IH]; cbn [number length]; [cbn; lia|]. rewrite Nat.pow_succ_r'. destruct b; lia. Qed.
Lemma log2_up_full : forall k m, 2 ^ k < m -> m <= 2 ^ S k -> Nat.log2_up m = S k.
Proof. intros. apply Nat.log2_up_unique; [lia|]. cbn [Nat.pred]. lia. Qed.
Lemma in_firstn : forall m (l : list nat) x, In x (firstn m l) -> In x l.
Proof. intros. rewrite <- (firstn_skipn m l). apply in_or_app. now left. Qed.
Lemma in_skipn : forall m (l : list nat) x, In x (skipn m l) -> In x l.
Proof. intros. rewrite <- (firstn_skipn m l). apply in_or_app. now right. Qed.
Lemma split_nodup : forall m (ids : list nat), NoDup ids -> NoDup (firstn m ids) /\ NoDup (skipn m ids) /\ forall x, In x (firstn m ids) -> ~ In x (skipn m ids).
Proof.
  intros m ids ND. rewrite <- (firstn_skipn m ids) in ND. split; [|split]. now apply NoDup_app_remove_r in ND. now apply NoDup_app_remove_l in ND.
  intros x I1 I2. apply in_split in I1 as (a & b & E). rewrite E, <- app_assoc in ND. apply NoDup_app_remove_l in ND. cbn in ND. inversion ND; subst. apply H1, in_or_app. now right.
Qed.
Lemma nth_first : forall m (ids : list nat) i, i < m -> nth i (firstn m ids) 0 = nth i ids 0.
Proof. induction m; intros; [lia|]. destruct ids; [reflexivity|]. destruct i; [reflexivity|]. cbn. apply IHm. lia. Qed.
Lemma nth_skip : forall m (ids : list nat) i, nth i (skipn m ids) 0 = nth (m + i) ids 0.
Proof. induction m; intros; [reflexivity|]. destruct ids; [cbn; now destruct i|]. cbn. apply IHm. Qed.

Lemma demux_ok : forall permit ctrl out, NoDup out -> out <> [] -> length out <= 2 ^ length ctrl -> (permit = false -> length out = 2 ^ length ctrl) ->
  exists sw, demux permit ctrl out = Some sw /\ (forall x, ~ In x out -> src sw x = x) /\ (forall x, In x out -> In (src sw x) out) /\
    (number ctrl < length out -> src sw (at_ out (number ctrl)) = at_ out 0).
Proof.
  intros permit ctrl. induction ctrl as [|b ctrl IH]; intros out ND NE LE EQ.
  - cbn in LE. exists []. cbn [demux length]. replace (negb (length out =? 2 ^ 0) && negb permit) with false.
    2:{ destruct permit; [now rewrite andb_false_r|]. rewrite EQ by auto. reflexivity. }
    split; [reflexivity|]. split; [reflexivity|]. split; [auto|]. reflexivity.
  - assert (LN : 0 < length out) by (destruct out; [easy|cbn; lia]). assert (ED := EQ). cbn [length] in LE. cbn [demux]. cbn [length].
    replace (negb (length out =? 2 ^ S (length ctrl)) && negb permit) with false.
    2:{ destruct permit; [now rewrite andb_false_r|]. rewrite EQ by auto. cbn [length]. now rewrite Nat.eqb_refl. }
    destruct (2 ^ length ctrl <? length out) eqn:EL.
    + apply Nat.ltb_lt in EL. rewrite (log2_up_full (length ctrl)) by auto.
      assert (EN : 2 ^ S (length ctrl) / 2 = 2 ^ length ctrl) by (rewrite Nat.pow_succ_r', Nat.mul_comm; apply Nat.div_mul; lia). rewrite EN.
      set (h := 2 ^ length ctrl) in *. assert (H0 : 0 < h) by (pose proof (Nat.pow_nonzero 2 (length ctrl)); unfold h; lia).
      rewrite Nat.pow_succ_r' in LE. fold h in LE.
      destruct (split_nodup h out ND) as (NDf & NDs & DJ).
      assert (Lf : length (firstn h out) = h) by (rewrite firstn_length; lia). assert (Ls : length (skipn h out) = length out - h) by apply skipn_length.
      set (s := if b then [(at_ out 0, at_ out h)] else []).
      assert (At0 : In (at_ out 0) out) by (apply nth_In; lia). assert (Ath : In (at_ out h) out) by (apply nth_In; lia).
      assert (S1 : forall x, ~ In x out -> src s x = x). { intros x Nx. unfold s, src. destruct b; [|reflexivity]. apply (swap_o (fun x => x)); intros ->; auto. }
      assert (S2 : forall x, In x out -> In (src s x) out). { intros x Ix. unfold s, src. destruct b; [|auto]. cbn. unfold swap. destruct (x =? at_ out 0); auto. destruct (x =? at_ out h); auto. }
      assert (S3 : src s (at_ out (if b then h else 0)) = at_ out 0). { unfold s, src. destruct b; [|reflexivity]. exact (swap_r (fun x => x) _ _). }
      cbn [number]. fold h. assert (NL := number_lt ctrl). fold h in NL.
      destruct (1 <? S (length ctrl)) eqn:En.
      * destruct (IH (firstn h out)) as (l & El & L1 & L2 & L3); auto. { intros C. rewrite C in Lf. cbn in Lf. lia. } { lia. }
        destruct (IH (skipn h out)) as (r & Er & R1 & R2 & R3); auto. { intros C. rewrite C in Ls. cbn in Ls. lia. } { lia. }
        { intros Hp. rewrite Ls. specialize (EQ Hp). cbn [length] in EQ. rewrite Nat.pow_succ_r' in EQ. fold h in EQ. lia. }
        rewrite El, Er. exists (s ++ l ++ r). split; [reflexivity|].
        assert (SE : forall x, src (s ++ l ++ r) x = src s (src l (src r x))).
        { intros x. unfold src at 1. rewrite !run_app, run_src, run_src. reflexivity. }
        split; [|split].
        -- intros x Nx. rewrite SE, R1, L1, S1; auto; intros I; apply Nx; [now apply in_firstn in I|now apply in_skipn in I].
        -- intros x Ix. rewrite SE. apply S2. destruct (in_dec Nat.eq_dec (src r x) (firstn h out)) as [I|I].
           { apply (in_firstn h). auto. } rewrite L1 by auto. destruct (in_dec Nat.eq_dec x (skipn h out)) as [J|J]. apply (in_skipn h); auto. now rewrite R1.
        -- intros Li. rewrite SE. destruct b.
           ++ unfold at_ in R3 |- *. rewrite !nth_skip in R3. rewrite Nat.add_0_r in R3. rewrite R3 by lia. rewrite L1. exact S3.
              intros I. apply (DJ _ I). rewrite <- (Nat.add_0_r h) at 1. rewrite <- nth_skip. apply nth_In. lia.
           ++ cbn [plus] in *. unfold at_ in L3 |- *. rewrite !nth_first in L3 by lia. rewrite R1. rewrite L3 by lia. exact S3.
              intros I. apply (DJ (nth (number ctrl) (firstn h out) 0)). apply nth_In. lia. now rewrite nth_first by lia.
      * apply Nat.ltb_ge in En. assert (C0 : ctrl = []) by (destruct ctrl; [auto|cbn in En; lia]). subst ctrl. exists s. split; [reflexivity|]. split; [auto|]. split; [auto|].
        intros _. cbn [number]. rewrite Nat.add_0_r. exact S3.
    + apply Nat.ltb_ge in EL. destruct (IH out) as (sw & E & P1 & P2 & P3); auto.
      { intros Hp. specialize (EQ Hp). cbn [length] in EQ. rewrite Nat.pow_succ_r' in EQ. pose proof (Nat.pow_nonzero 2 (length ctrl)). lia. }
      exists sw. split; [auto|]. split; [auto|]. split; [auto|]. intros Li. cbn [number] in *. destruct b; [lia|]. cbn [plus] in *. auto.
Qed.

Section demux.
Context {A : Type}.
Implicit Types st : nat -> A.
Lemma demux_from_ok : forall permit ctrl out input st, NoDup out -> out <> [] -> length out <= 2 ^ length ctrl -> (permit = false -> length out = 2 ^ length ctrl) ->
  ~ In input (tl out) ->
  exists sw, demux_from permit input ctrl out = Some sw /\
    (number ctrl < length out -> run_swaps sw st (nth (number ctrl) out 0) = st input) /\
    (forall x, ~ In x out -> x <> input -> run_swaps sw st x = st x) /\
    (forall z, number ctrl < length out -> (forall x, In x out -> x <> input -> st x = z) -> forall x, x = input \/ In x out -> x <> nth (number ctrl) out 0 -> run_swaps sw st x = z) /\
    (exists g, (forall x y, g x = g y -> x = y) /\ forall x, run_swaps sw st x = st (g x)).
Proof.
  intros permit ctrl out input st ND NE LE EQ NI. destruct (demux_ok permit ctrl out ND NE LE EQ) as (sw & E & P1 & P2 & P3). unfold demux_from. rewrite E.
  eexists. split; [reflexivity|]. set (s0 := if input =? at_ out 0 then [] else [(input, at_ out 0)]).
  assert (LN : 0 < length out) by (destruct out; [easy|cbn; lia]). assert (At0 : In (at_ out 0) out) by (apply nth_In; lia).
  assert (S1 : src s0 (at_ out 0) = input). { unfold s0, src. destruct (input =? at_ out 0) eqn:Q; [apply Nat.eqb_eq in Q; now cbn|]. exact (swap_r (fun x => x) _ _). }
  assert (S2 : forall x, ~ In x out -> x <> input -> src s0 x = x). { intros x Nx Ni. unfold s0, src. destruct (input =? at_ out 0); [reflexivity|]. apply (swap_o (fun x => x)); auto. intros ->. auto. }
  assert (SE : forall x, run_swaps (s0 ++ sw) st x = st (src s0 (src sw x))). { intros x. rewrite run_app, run_src, run_src. reflexivity. }
  split; [|split; [|split]].
  - intros L. rewrite SE. unfold at_ in P3. rewrite P3 by auto. now f_equal.
  - intros x Nx Ni. rewrite SE. rewrite P1 by auto. now rewrite S2.
  - intros z L H x X N. rewrite SE. 
    assert (Nin : src s0 (src sw x) <> input).
    { intros C. assert (C1 : src s0 (src sw x) = src s0 (at_ out 0)) by congruence. apply src_inj in C1. rewrite <- P3 in C1 by auto. now apply src_inj in C1. }
    apply H; auto.
    destruct (Nat.eq_dec input (at_ out 0)) as [->|NI0].
    + unfold s0. rewrite Nat.eqb_refl. cbn. apply P2. destruct X as [->|X]; auto.
    + assert (IO : ~ In input out). { intros I. destruct out; [easy|]. destruct I as [I|I]; [unfold at_ in NI0; cbn in NI0; auto|auto]. }
      assert (B : forall y, (y = input \/ In y out) -> src s0 y = input \/ In (src s0 y) out).
      { intros y Y. unfold s0, src. apply Nat.eqb_neq in NI0. rewrite NI0. cbn. unfold swap. destruct (y =? input) eqn:Q1; auto. destruct (y =? at_ out 0); auto. }
      destruct (B (src sw x)) as [C|C]; [|congruence|auto]. destruct X as [->|X]; [left; now apply P1|right; now apply P2].
  - exists (fun x => src s0 (src sw x)). split; [|auto]. intros x y H. now apply src_inj, src_inj in H.
Qed.
Lemma q_indexing_ok : forall ctrl out st, NoDup out -> length out = 2 ^ length ctrl ->
  exists st', q_indexing out ctrl st = Some (st (nth (number ctrl) out 0), st') /\ forall x, st' x = st x.
Proof.
  intros ctrl out st ND L. assert (P := Nat.pow_nonzero 2 (length ctrl) (ltac:(lia))). destruct (demux_ok false ctrl out ND) as (sw & E & P1 & P2 & P3); [destruct out; [cbn in L; lia|easy]|lia|auto|].
  unfold q_indexing. rewrite E. cbn zeta. eexists. split; [|intros x; apply run_rev].
  f_equal. f_equal. rewrite L in P3. rewrite <- P3 by apply number_lt. rewrite <- (run_src sw (run_swaps (rev sw) st)). apply run_rev.
Qed.
Lemma q_swap_ok : forall ctrl out qv st, NoDup out -> length out = 2 ^ length ctrl -> ~ In qv out ->
  exists st', q_swap_into out ctrl qv st = Some st' /\ st' (nth (number ctrl) out 0) = st qv /\ st' qv = st (nth (number ctrl) out 0) /\
    forall x, x <> qv -> x <> nth (number ctrl) out 0 -> st' x = st x.
Proof.
  intros ctrl out qv st ND L NI. assert (P := Nat.pow_nonzero 2 (length ctrl) (ltac:(lia))). destruct (demux_ok false ctrl out ND) as (sw & E & P1 & P2 & P3); [destruct out; [cbn in L; lia|easy]|lia|auto|].
  unfold q_swap_into. rewrite E. eexists. split; [reflexivity|]. rewrite L in P3. specialize (P3 (number_lt ctrl)). set (idx := number ctrl) in *.
  assert (R : forall x, run_swaps (rev sw) st (src sw x) = st x) by (intros; rewrite <- run_src; apply run_rev).
  assert (Sq : src sw qv = qv) by auto. unfold at_ in *. 
  split; [|split].
  - rewrite run_src, P3, swap_l. rewrite <- Sq at 1. apply R.
  - rewrite run_src, Sq, swap_r. rewrite <- P3. apply R.
  - intros x X1 X2. rewrite run_src. rewrite swap_o. apply R. intros C. rewrite <- P3 in C. now apply src_inj in C. intros C. rewrite <- Sq in C. now apply src_inj in C.
Qed.
End demux.
