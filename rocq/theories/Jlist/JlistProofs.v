(** Proofs: Jlist refines a bounded list. *)
From Verif.Jlist Require Import JlistModel JlistSpec.
From Coq Require Import ZArith List Lia Bool.
Import ListNotations.
Local Open Scope Z_scope.

Lemma set_nth_length : forall a i v, length (set_nth a i v) = length a.
Proof. induction a; intros [|i] v; cbn; auto. Qed.
Lemma at_set_length a i v : length (at_set a i v) = length a.
Proof. unfold at_set. destruct (_ && _); [apply set_nth_length|reflexivity]. Qed.
Lemma set_nth_app : forall l x t v, set_nth (l ++ x :: t) (length l) v = l ++ v :: t.
Proof. induction l; intros; cbn; [reflexivity|]. now rewrite IHl. Qed.

(** Representation: the first [length l] cells hold l. *)
Definition rep (cap : nat) (l : list Z) (s : jl) : Prop :=
  exists junk, s = J (l ++ junk) (Z.of_nat (length l)) /\ length (l ++ junk) = cap.

Lemma valid_rep cap s : valid cap s -> rep cap (firstn (Z.to_nat (ctr s)) (arr s)) s.
Proof.
  destruct s as [a c|]; [|intros []]. cbn. intros [L B]. exists (skipn (Z.to_nat c) a).
  rewrite firstn_skipn, firstn_length. split; [f_equal; lia|exact L].
Qed.
Lemma rep_valid cap l s : rep cap l s -> valid cap s.
Proof. intros (junk & -> & L). cbn. rewrite app_length in *. lia. Qed.

Lemma get_in a i : 0 <= i < Z.of_nat (length a) -> get a i = nth (Z.to_nat i) a 0.
Proof. intros H. unfold get, norm. destruct (Z.ltb_spec i 0); [lia|]. f_equal. lia. Qed.

Lemma rep_getitem cap l s i : rep cap l s -> 0 <= i < Z.of_nat (length l) -> getitem s i = nth (Z.to_nat i) l 0.
Proof.
  intros (junk & -> & L) H. unfold getitem. cbn [arr ctr]. destruct (Z.ltb_spec i 0); [lia|].
  rewrite Z.add_0_r, get_in by (rewrite app_length; lia). apply app_nth1. lia.
Qed.
Lemma rep_contents cap l s : rep cap l s -> contents s = l.
Proof.
  intros H. assert (C : ctr s = Z.of_nat (length l)) by (destruct H as (j & -> & _); reflexivity).
  unfold contents. rewrite C, Nat2Z.id. apply nth_ext with (d := 0) (d' := 0); [now rewrite map_length, seq_length|].
  intros i Hi. rewrite map_length, seq_length in Hi.
  rewrite (nth_indep _ 0 (getitem s (Z.of_nat 0))) by now rewrite map_length, seq_length.
  rewrite (map_nth (fun i => getitem s (Z.of_nat i))), seq_nth by exact Hi. rewrite Nat.add_0_l.
  rewrite (rep_getitem cap l) by (try exact H; lia). now rewrite Nat2Z.id.
Qed.

Lemma at_set_rep l junk v : 0 <= Z.of_nat (length l) < Z.of_nat (length (l ++ junk)) ->
  at_set (l ++ junk) (Z.of_nat (length l)) v = (l ++ [v]) ++ tl junk.
Proof.
  intros H. unfold at_set, norm. destruct (Z.ltb_spec (Z.of_nat (length l)) 0); [lia|].
  destruct (Z.leb_spec 0 (Z.of_nat (length l))); [|lia].
  destruct (Z.ltb_spec (Z.of_nat (length l)) (Z.of_nat (length (l ++ junk)))); [|lia]. cbn [andb]. rewrite Nat2Z.id.
  rewrite app_length in H. destruct junk as [|x junk]; [cbn in H; lia|]. rewrite set_nth_app. cbn [tl].
  rewrite <- app_assoc. reflexivity.
Qed.
Lemma at_set_out a i v : Z.of_nat (length a) <= i -> at_set a i v = a.
Proof.
  intros H. unfold at_set, norm. destruct (Z.ltb_spec i 0); [lia|].
  destruct (Z.ltb_spec i (Z.of_nat (length a))); [lia|]. now rewrite andb_false_r.
Qed.

(** one cell update, as in append and extend *)
Lemma push_rep cap l junk v : length (l ++ junk) = cap ->
  rep cap (firstn cap (l ++ [v])) (J (at_set (l ++ junk) (Z.of_nat (length l)) v) (Z.min (Z.of_nat (length l) + 1) (Z.of_nat (length (l ++ junk))))).
Proof.
  intros L. rewrite app_length in L. destruct (Nat.lt_ge_cases (length l) cap) as [C|C].
  - rewrite at_set_rep by (rewrite app_length; lia). exists (tl junk).
    rewrite firstn_all2 by (rewrite app_length; cbn; lia).
    split; [f_equal; rewrite !app_length; cbn; lia|]. rewrite !app_length. destruct junk; cbn in *; lia.
  - rewrite at_set_out by (rewrite app_length; lia). destruct junk; [|cbn in L; lia]. rewrite app_nil_r in *.
    exists []. rewrite firstn_app. replace (cap - length l)%nat with 0%nat by (cbn in L; lia). cbn [firstn]. rewrite app_nil_r.
    rewrite firstn_all2 by (cbn in L; lia). rewrite app_nil_r. split; [f_equal; cbn in L; lia|cbn in L; lia].
Qed.
Lemma append_rep cap l s v : rep cap l s -> exists s', append s v = Some s' /\ rep cap (firstn cap (l ++ [v])) s'.
Proof. intros (junk & -> & L). eexists. split; [reflexivity|]. now apply push_rep. Qed.

Lemma roll1_spec a : (0 < length a)%nat -> roll1 a = last a 0 :: removelast a.
Proof. destruct a; [cbn; lia|reflexivity]. Qed.
Lemma removelast_length {A} (a : list A) : length (removelast a) = (length a - 1)%nat.
Proof. induction a as [|x a IH]; [reflexivity|]. destruct a; [reflexivity|]. cbn [removelast length] in *. rewrite IH. lia. Qed.
Lemma prepend_rep cap l s v : rep cap l s -> exists s', prepend s v = Some s' /\ rep cap (firstn cap (v :: l)) s'.
Proof.
  intros (junk & -> & L). eexists. split; [reflexivity|].
  destruct (Nat.eq_dec cap 0) as [C|C].
  - destruct l; [|rewrite app_length in L; cbn in L; lia]. destruct junk; [|cbn in L; lia]. subst cap. exists []. split; reflexivity.
  - rewrite roll1_spec by lia. cbn [length at_set].
    assert (E : at_set (last (l ++ junk) 0 :: removelast (l ++ junk)) 0 v = v :: removelast (l ++ junk)).
    { unfold at_set, norm. change (0 <? 0) with false. cbv iota. change (0 <=? 0) with true.
      destruct (Z.ltb_spec 0 (Z.of_nat (length (last (l ++ junk) 0 :: removelast (l ++ junk))))); [reflexivity|cbn [length] in *; lia]. }
    rewrite E. destruct (Nat.eq_dec (length junk) 0) as [J0|J0].
    + destruct junk; [|discriminate]. rewrite app_nil_r in *. exists [].
      rewrite app_nil_r. destruct cap as [|cap]; [lia|]. cbn [firstn].
      assert (R : removelast l = firstn cap l).
      { clear -L. revert cap L. induction l as [|x l IH]; intros cap L; [discriminate|]. cbn in L. injection L as L.
        destruct l as [|y l]; [cbn in L; subst; reflexivity|]. destruct cap; [discriminate|]. cbn [removelast firstn]. f_equal. now apply IH. }
      rewrite R. split; [f_equal; cbn [length]; rewrite firstn_length; lia|cbn [length]; rewrite firstn_length; lia].
    + rewrite removelast_app by (destruct junk; [cbn in J0; lia|discriminate]).
      exists (removelast junk). rewrite app_length in L. rewrite firstn_all2 by (cbn; lia).
      split; [f_equal; cbn [length]; rewrite app_length; lia|]. cbn [length app]. rewrite app_length, removelast_length. lia.
Qed.

Lemma pop_rep cap l s : rep cap l s -> l <> [] -> exists s', pop s = Some (s', last l 0) /\ rep cap (removelast l) s'.
Proof.
  intros (junk & -> & L) NE. destruct (exists_last NE) as (l' & x & ->).
  rewrite removelast_last, last_last. rewrite !app_length in L. cbn [length] in L.
  eexists. cbn [pop]. split.
  - do 2 f_equal. rewrite get_in by (rewrite !app_length; cbn [length]; lia).
    rewrite <- app_assoc. rewrite app_nth2 by (rewrite app_length; cbn [length]; lia).
    replace (Z.to_nat (Z.of_nat (length (l' ++ [x])) - 1) - length l')%nat with 0%nat by (rewrite app_length; cbn [length]; lia).
    reflexivity.
  - exists (x :: junk). rewrite <- app_assoc. split; [f_equal; rewrite app_length; cbn [length]; lia|].
    rewrite app_length. cbn [length app]. lia.
Qed.

Lemma firstn_app_firstn cap (l m : list Z) : firstn cap (firstn cap l ++ m) = firstn cap (l ++ m).
Proof.
  rewrite !firstn_app, firstn_firstn, Nat.min_id. f_equal. rewrite firstn_length. destruct (Nat.le_gt_cases cap (length l)).
  - replace (cap - length l)%nat with 0%nat by lia. replace (cap - Nat.min cap (length l))%nat with 0%nat by lia. reflexivity.
  - f_equal. lia.
Qed.
Lemma extend_rep cap l s o : rep cap l s -> (exists cap', valid cap' o) ->
  exists s', extend s o = Some s' /\ rep cap (firstn cap (l ++ contents o)) s'.
Proof.
  intros (junk & -> & L) [cap' V]. destruct o as [ao co|]; [|destruct V].
  unfold extend. set (f := extend_body (J ao co)).
  assert (K : forall is l junk, length (l ++ junk) = cap ->
     let '(a', c') := fold_left f is (l ++ junk, Z.of_nat (length l)) in
     rep cap (firstn cap (l ++ map (fun i => getitem (J ao co) (Z.of_nat i)) is)) (J a' c')).
  { clear. induction is as [|i is IH]; intros l junk L.
    - cbn [fold_left map]. rewrite app_nil_r. exists junk. rewrite firstn_all2; [split; [reflexivity|exact L]|]. rewrite app_length in L. lia.
    - cbn [fold_left map]. unfold f at 2, extend_body. pose proof (push_rep cap l junk (getitem (J ao co) (Z.of_nat i)) L) as (junk' & E & L').
      injection E as E1 E2. rewrite E1, E2. specialize (IH _ junk' L').
      destruct (fold_left f is _) as [a' c']. rewrite firstn_app_firstn, <- app_assoc in IH. exact IH. }
  specialize (K (seq 0 (Z.to_nat (ctr (J ao co)))) l junk L). unfold contents.
  destruct (fold_left f _ _) as [a' c']. eexists. split; [reflexivity|exact K].
Qed.

Lemma run_spec cap : forall ops s l, rep cap l s -> Forall valid_op ops ->
  forall l' out, spec_run cap l ops = Some (l', out) -> exists s', run s ops = Some (s', out) /\ rep cap l' s'.
Proof.
  induction ops as [|o ops IH]; intros s l HR HV l' out HS.
  - cbn in *. injection HS as <- <-. exists s. split; [reflexivity|exact HR].
  - inversion HV as [|? ? V HV']; subst. destruct o as [v|v|o|]; cbn [spec_run run] in *.
    + destruct (append_rep cap l s v HR) as (s1 & -> & R1). now apply (IH s1 _ R1 HV').
    + destruct (prepend_rep cap l s v HR) as (s1 & -> & R1). now apply (IH s1 _ R1 HV').
    + destruct (extend_rep cap l s o HR V) as (s1 & -> & R1). now apply (IH s1 _ R1 HV').
    + destruct l as [|x l]; [discriminate|].
      destruct (pop_rep cap (x :: l) s HR ltac:(discriminate)) as (s1 & -> & R1).
      destruct (spec_run cap (removelast (x :: l)) ops) as [[l1 out1]|] eqn:E; [|discriminate].
      cbn [option_map] in HS. injection HS as <- <-.
      destruct (IH s1 _ R1 HV' _ _ E) as (s2 & -> & R2). exists s2. split; [reflexivity|exact R2].
Qed.

Lemma fold_set_spec (g : nat -> Z) cap : forall k, (k <= cap)%nat ->
  fold_left (fun a i => at_set a (Z.of_nat i) (g i)) (seq 0 k) (repeat 0 cap) = map g (seq 0 k) ++ repeat 0 (cap - k).
Proof.
  induction k as [|k IH]; intros H; [cbn; now rewrite Nat.sub_0_r|].
  rewrite seq_S, fold_left_app, IH by lia. cbn [fold_left Nat.add].
  pose proof (at_set_rep (map g (seq 0 k)) (repeat 0 (cap - k)) (g k)) as E.
  rewrite map_length, seq_length in E. rewrite E by (rewrite app_length, map_length, seq_length, repeat_length; lia).
  rewrite map_app. cbn [map]. replace (cap - k)%nat with (S (cap - S k)) by lia. reflexivity.
Qed.
Lemma map_nth_firstn : forall (l : list Z) k m, (k <= m)%nat -> (k <= length l)%nat -> map (fun i => nth i (firstn m l) 0) (seq 0 k) = firstn k l.
Proof.
  intros l k m Hm Hk. apply nth_ext with (d := 0) (d' := 0); [rewrite map_length, seq_length, firstn_length; lia|].
  intros i Hi. rewrite map_length, seq_length in Hi.
  rewrite (nth_indep _ 0 ((fun i => nth i (firstn m l) 0) 0%nat)) by now rewrite map_length, seq_length.
  rewrite (map_nth (fun i => nth i (firstn m l) 0)), seq_nth by exact Hi. rewrite Nat.add_0_l.
  rewrite <- (firstn_skipn m l) at 2. rewrite firstn_app, app_nth1.
  - rewrite <- (firstn_skipn k (firstn m l)) at 1. rewrite app_nth1; [reflexivity|]. rewrite !firstn_length. lia.
  - rewrite !firstn_length. lia.
Qed.
Lemma create_rep l cap : length l <> cap -> rep cap (firstn cap l) (create l cap).
Proof.
  intros NE. unfold create. apply Nat.eqb_neq in NE. rewrite NE. apply Nat.eqb_neq in NE.
  rewrite (fold_set_spec (fun i => nth i (firstn cap l) 0)) by lia.
  rewrite map_nth_firstn by lia.
  assert (E : firstn (Nat.min (length l) cap) l = firstn cap l).
  { destruct (Nat.le_gt_cases (length l) cap); [rewrite Nat.min_l, !firstn_all2 by lia; reflexivity|now rewrite Nat.min_r by lia]. }
  rewrite E. exists (repeat 0 (cap - Nat.min (length l) cap)). split.
  - f_equal. rewrite firstn_length. lia.
  - rewrite app_length, firstn_length, repeat_length. lia.
Qed.
Lemma create_empty_rep cap : rep cap [] (create_empty cap).
Proof. exists (repeat 0 cap). split; [reflexivity|]. cbn. apply repeat_length. Qed.

Lemma slice_rep cap l s start stop : rep cap l s ->
  (forall k, start = Some k -> - Z.of_nat (length l) <= k <= Z.of_nat (length l)) ->
  (forall k, stop = Some k -> - Z.of_nat (length l) <= k) ->
  let i := match start with None => 0%nat | Some k => py_index l k end in
  let j := match stop with None => length l | Some k => py_index l (Z.min k (Z.of_nat (length l))) end in
  (i <= j)%nat -> exists r, getslice s start stop = Some r /\ rep cap (py_slice l i j) r.
Proof.
  intros (junk & -> & L) Hs Ht. cbv zeta. intros Hij. eexists. split; [reflexivity|]. cbn [arr ctr].
  set (i := match start with None => 0%nat | Some k => py_index l k end) in *.
  set (j := match stop with None => length l | Some k => py_index l (Z.min k (Z.of_nat (length l))) end) in *.
  assert (Ei : match start with None => 0 | Some k => k + (if k <? 0 then Z.of_nat (length l) else 0) end = Z.of_nat i).
  { unfold i. destruct start as [k|]; [|reflexivity]. unfold py_index. specialize (Hs k eq_refl). destruct (Z.ltb_spec k 0); lia. }
  assert (Ej : match stop with None => Z.of_nat (length l) | Some k =>
     Z.min k (Z.of_nat (length l)) + (if Z.min k (Z.of_nat (length l)) <? 0 then Z.of_nat (length l) else 0) end = Z.of_nat j).
  { unfold j. destruct stop as [k|]; [|reflexivity]. unfold py_index. specialize (Ht k eq_refl). destruct (Z.ltb_spec (Z.min k (Z.of_nat (length l))) 0); lia. }
  assert (Bj : (j <= length l)%nat).
  { unfold j. destruct stop as [k|]; [|lia]. unfold py_index. specialize (Ht k eq_refl). destruct (Z.ltb_spec (Z.min k (Z.of_nat (length l))) 0); lia. }
  rewrite Ei. cbv zeta. rewrite Ej. replace (Z.of_nat j - Z.of_nat i) with (Z.of_nat (j - i)) by lia. rewrite Nat2Z.id.
  rewrite app_length in L.
  rewrite (fold_set_spec (fun t => get (l ++ junk) (Z.of_nat t + Z.of_nat i))) by (rewrite app_length; lia).
  assert (E : map (fun t => get (l ++ junk) (Z.of_nat t + Z.of_nat i)) (seq 0 (j - i)) = py_slice l i j).
  { unfold py_slice. apply nth_ext with (d := 0) (d' := 0).
    - rewrite map_length, seq_length, firstn_length, skipn_length. lia.
    - intros t Hl. rewrite map_length, seq_length in Hl.
      rewrite (nth_indep _ 0 (get (l ++ junk) (Z.of_nat 0 + Z.of_nat i))) by now rewrite map_length, seq_length.
      rewrite (map_nth (fun t => get (l ++ junk) (Z.of_nat t + Z.of_nat i))), seq_nth by exact Hl. rewrite Nat.add_0_l.
      rewrite get_in by (rewrite app_length; lia). rewrite app_nth1 by lia.
      replace (Z.to_nat (Z.of_nat t + Z.of_nat i)) with (i + t)%nat by lia.
      rewrite <- (firstn_skipn i l) at 1. rewrite app_nth2 by (rewrite firstn_length; lia). rewrite firstn_length.
      replace (i + t - Nat.min i (length l))%nat with t by lia.
      rewrite <- (firstn_skipn (j - i) (skipn i l)) at 1. rewrite app_nth1; [reflexivity|]. rewrite firstn_length, skipn_length. lia. }
  rewrite E. eexists. split.
  - f_equal. unfold py_slice. rewrite firstn_length, skipn_length. lia.
  - rewrite !app_length, repeat_length. unfold py_slice. rewrite firstn_length, skipn_length. lia.
Qed.
