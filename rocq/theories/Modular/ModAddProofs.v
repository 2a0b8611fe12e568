(** Modular addition. *)
From Coq Require Import List ZArith Bool Arith Lia.
Import ListNotations.
From Verif.Inverse Require Import InvSpec InvProofs.
From Verif.CtrlOps Require Import CtrlSpec CtrlProofs.
From Verif.Fourier Require Import FourierSpec RegProofs.
From Verif.Modular Require Import ModModel ViewProofs.
Local Open Scope Z_scope.

Lemma testbit_sign w n : - two n <= w < two n -> Z.testbit w (Z.of_nat n) = (w <? 0).
Proof.
  intros H. destruct (Z.ltb_spec w 0) as [L|L].
  - rewrite <- (Z.lnot_involutive w), Z.lnot_spec by lia. replace (Z.testbit (Z.lnot w) (Z.of_nat n)) with false; [reflexivity|].
    symmetry. apply Z.testbit_false; [lia|]. rewrite Z.div_small; [reflexivity|]. unfold Z.lnot. lia.
  - apply Z.testbit_false; [lia|]. rewrite Z.div_small by lia. reflexivity.
Qed.
Lemma nth_snoc {A} (l : list A) a d : nth (length l) (l ++ [a]) d = a.
Proof. rewrite app_nth2, Nat.sub_diag by lia. reflexivity. Qed.
Definition operand_off (a : operand) (q : nat) : Prop := match a with Cl _ => True | Qu qs => ~ In q qs end.

Section adder.
Context (x : list bool) (b : list nat) (sign rnn : nat) (N : Z) (a : operand) (c : list nat).
Let bs := b ++ [sign].
Context (Rg : register (b ++ [sign; rnn]) x)
        (Offc : forall q, In q (b ++ [sign; rnn]) -> ~ In q c) (Offa : forall q, In q (b ++ [sign; rnn]) -> operand_off a q).
Definition st (w : Z) (r : bool) : list bool := store (setbit x rnn r) bs w.
Let active := forallb (getbit x) c.
Let A := amount x a.

Lemma Rbs : register bs x.
Proof. apply (register_app bs [rnn]). unfold bs. rewrite <- app_assoc. exact Rg. Qed.
Lemma rnn_off : ~ In rnn bs.
Proof.
  assert (R : register (bs ++ [rnn]) x) by (unfold bs; rewrite <- app_assoc; exact Rg). intros I. apply (proj2 (proj2 (register_app _ _ _ R)) rnn I). left. reflexivity.
Qed.
Lemma rnn_lt : (rnn < length x)%nat.
Proof. apply (proj2 Rg). apply in_or_app. right. right. left. reflexivity. Qed.
Lemma bs_in q : In q bs -> In q (b ++ [sign; rnn]).
Proof. unfold bs. rewrite !in_app_iff. cbn. tauto. Qed.
Lemma Rset r : register bs (setbit x rnn r).
Proof. apply (register_length bs x); [rewrite setbit_length; reflexivity|apply Rbs]. Qed.
Lemma st_other w r q : ~ In q (b ++ [sign; rnn]) -> getbit (st w r) q = getbit x q.
Proof.
  intros H. unfold st. rewrite store_other by (intros I; apply H, bs_in, I). apply getbit_set_other. intros ->. apply H, in_or_app. cbn. tauto.
Qed.
Lemma st_rnn w r : getbit (st w r) rnn = r.
Proof. unfold st. rewrite store_other by apply rnn_off. apply getbit_set_same, rnn_lt. Qed.
Lemma st_value w r : value (st w r) bs = w mod two (length bs).
Proof. apply value_store, Rset. Qed.
Lemma st_mod w w' r : w mod two (length bs) = w' mod two (length bs) -> st w r = st w' r.
Proof. intros E. unfold st. rewrite <- store_mod, E, store_mod. reflexivity. Qed.
Lemma st_store w r z : store (st w r) bs z = st z r.
Proof. apply store_store, (proj1 Rbs). Qed.
Lemma st_sign w r : getbit (st w r) sign = Z.testbit w (Z.of_nat (length b)).
Proof.
  unfold st. rewrite <- (nth_snoc b sign 0%nat). apply (bit_store _ bs); [apply Rset|]. unfold bs. rewrite app_length. cbn. lia.
Qed.
Lemma st_active w r : forallb (getbit (st w r)) c = active.
Proof. apply forallb_off. intros q I. apply st_other. intros J. exact (Offc q J I). Qed.
Lemma st_amount w r : amount (st w r) a = A.
Proof.
  apply amount_off. intros q I. apply st_other. intros J. specialize (Offa q J). destruct a; [exact I|]. exact (Offa I).
Qed.
Lemma add_a w r : perform (st w r) (Add c a bs) = st (w + if active then A else 0) r.
Proof.
  cbn [perform]. rewrite st_active. destruct active; [|f_equal; lia]. rewrite st_value, st_amount, st_store. apply st_mod. apply Zplus_mod_idemp_l.
Qed.
Lemma sub_a w r : perform (st w r) (Sub c a bs) = st (w - if active then A else 0) r.
Proof.
  cbn [perform]. rewrite st_active. destruct active; [|f_equal; lia]. rewrite st_value, st_amount, st_store. apply st_mod. apply Zminus_mod_idemp_l.
Qed.
Lemma sub_N w r : perform (st w r) (Sub [] (Cl N) bs) = st (w - N) r.
Proof. cbn [perform forallb amount]. rewrite st_value, st_store. apply st_mod. apply Zminus_mod_idemp_l. Qed.
Lemma add_N w r : perform (st w r) (Add [rnn] (Cl N) bs) = st (w + if r then N else 0) r.
Proof.
  cbn [perform forallb amount]. rewrite st_rnn, andb_true_r. destruct r; [|f_equal; lia]. rewrite st_value, st_store. apply st_mod. apply Zplus_mod_idemp_l.
Qed.
Lemma set_st w r r' : setbit (st w r) rnn r' = st w r'.
Proof. unfold st, store. rewrite <- write_set by apply rnn_off. rewrite setbit_twice. reflexivity. Qed.
Lemma cx_st w r : perform (st w r) (Cx sign rnn) = st w (xorb (Z.testbit w (Z.of_nat (length b))) r).
Proof. cbn [perform]. rewrite st_sign, st_rnn. apply set_st. Qed.
Lemma flip_st w r : perform (st w r) (Flip rnn) = st w (negb r).
Proof. cbn [perform]. rewrite st_rnn. apply set_st. Qed.

Context (HN : 0 < N <= two (length b)) (Cs : getbit x sign = false) (Cr : getbit x rnn = false)
        (HA : active = true -> 0 <= A < N) (HB : value x b < N).
Lemma bs_value : value x bs = value x b.
Proof. unfold bs. rewrite value_app, value_one, Cs. lia. Qed.
Lemma st_start : x = st (value x b) false.
Proof.
  unfold st. rewrite <- bs_value. replace (setbit x rnn false) with x by (rewrite <- Cr; symmetry; apply setbit_get). symmetry. apply store_value, Rbs.
Qed.
Lemma st_end w : 0 <= w < two (length b) -> st w false = store x b w.
Proof.
  intros W. unfold st. replace (setbit x rnn false) with x by (rewrite <- Cr; symmetry; apply setbit_get). symmetry.
  rewrite (store_part x [] b [sign]) by (cbn [app]; exact Rbs). cbn [app length Nat.add]. fold bs. f_equal. rewrite value_nil, value_one, Cs, Z.mod_small by lia.
  change (two 0) with 1. lia.
Qed.
Definition result := (value x b + if active then A else 0) mod N.
Lemma adder_run : execute ([Add c a bs; Sub [] (Cl N) bs; Cx sign rnn; Add [rnn] (Cl N) bs; Sub c a bs; Cx sign rnn; Flip rnn; Add c a bs]) x = store x b result.
Proof.
  pose proof (value_range x b) as VB. set (B := value x b) in *. set (Ae := if active then A else 0).
  assert (HAe : 0 <= Ae < N) by (unfold Ae; destruct active; [auto|lia]).
  assert (RR : 0 <= result < N) by (unfold result; apply Z.mod_pos_bound; lia).
  transitivity (execute [Add c a bs; Sub [] (Cl N) bs; Cx sign rnn; Add [rnn] (Cl N) bs; Sub c a bs; Cx sign rnn; Flip rnn; Add c a bs] (st B false)); [f_equal; apply st_start|].
  rewrite !execute_cons, add_a, sub_N, cx_st, add_N, sub_a, cx_st, flip_st, add_a. fold Ae. cbn [execute fold_left].
  rewrite xorb_false_r. rewrite testbit_sign by lia.
  assert (E : B + Ae - N + (if B + Ae - N <? 0 then N else 0) = result).
  { unfold result. fold B Ae. destruct (Z.ltb_spec (B + Ae - N) 0).
    - rewrite Z.mod_small; lia.
    - apply Z.mod_unique with 1; lia. }
  rewrite E. rewrite testbit_sign by lia.
  assert (F : xorb (result - Ae <? 0) (B + Ae - N <? 0) = true).
  { rewrite <- E. destruct (Z.ltb_spec (B + Ae - N) 0).
    - replace (B + Ae - N + N - Ae) with B by lia. rewrite (proj2 (Z.ltb_ge B 0)) by lia. reflexivity.
    - replace (B + Ae - N + 0 - Ae) with (B - N) by lia. rewrite (proj2 (Z.ltb_lt (B - N) 0)) by lia. reflexivity. }
  rewrite F. cbn [negb]. replace (result - Ae + Ae) with result by lia. apply st_end. lia.
Qed.
End adder.
