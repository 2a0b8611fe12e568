From Verif.Incr Require Import IncrModel.
From Verif.Adders Require Import CuccaroProofs.
Local Open Scope nat_scope.

Definition none (i : nat) : bool := false.
Lemma carry_none f c k : carry none f c (S k) = f k && carry none f c k.
Proof. cbn [carry]. unfold maj, none. destruct (f k), (carry _ f c k); reflexivity. Qed.
Lemma sum_none f c k : sumbit none f c k = xorb (f k) (carry none f c k).
Proof. unfold sumbit, none. destruct (f k); reflexivity. Qed.
Lemma val_none n : val n none = 0%Z.
Proof. induction n as [|n IH]; cbn; [reflexivity|]. rewrite IH. reflexivity. Qed.

Lemma pt2_clean a b t p (s : bstate) : s t = false -> exec (pt2 a b t) (p, s) (p, upd s t (s a && s b)).
Proof.
  intros H. unfold pt2. eexists. split.
  - cbn [run step all_set forallb fst]. rewrite H, !andb_false_r, !Z.add_0_r, xorb_false_r, andb_true_r. cbn [andb]. rewrite ?andb_false_r, ?Z.add_0_r. reflexivity.
  - reflexivity.
Qed.
Lemma pt2_inv_clean a b t p (s : bstate) : a <> t -> b <> t -> s t = s a && s b -> exec (inv (pt2 a b t)) (p, s) (p, upd s t false).
Proof.
  intros Ha Hb H. unfold pt2. eexists. split.
  - cbn [inv map rev inv1 app run step all_set forallb fst]. rewrite H, andb_true_r, xorb_nilpotent. rewrite upd_same, !upd_other by assumption.
    rewrite ?andb_false_r, ?andb_false_l. cbn [andb]. rewrite ?andb_false_r, ?Z.add_0_r. reflexivity.
  - reflexivity.
Qed.

(** ** increment_qb_list *)
Section list.
Variables (n off : nat) (s : bstate).
Let q (i : nat) : qubit := (0, off + i).
Definition lf (i : nat) : bool := s (0, off + i).
Definition P (k : nat) : bool := carry none lf true k.
(** the first [k] ancillas are computed, the list holds the bits [g] *)
Definition lst (k : nat) (g : nat -> bool) : bstate := fun x => let '(r, i) := x in
  if r =? 1 then (i <? k) && P (i + 2)
  else if (r =? 0) && (off <=? i) && (i <? off + n) then g (i - off) else s (r, i).
Definition lg (m i : nat) : bool := if m <=? i then sumbit none lf true i else lf i.
Hypothesis Hc : forall i, s (1, i) = false.

Lemma lst_q k g i : i < n -> lst k g (0, off + i) = g i.
Proof. intros H. unfold lst. cbn [Nat.eqb andb]. bcase. f_equal. lia. Qed.
Lemma lst_a k g i : lst k g (1, i) = (i <? k) && P (i + 2).
Proof. reflexivity. Qed.
Lemma lst_ext k k' g g' : k = k' -> (forall i, i < n -> g i = g' i) -> forall x, lst k g x = lst k' g' x.
Proof. intros <- H [r i]. unfold lst. bcase; cbn [andb]; try reflexivity. apply H. lia. Qed.
Lemma lst_upd_q k g i v : i < n -> forall x, upd (lst k g) (0, off + i) v x = lst k (fun j => if j =? i then v else g j) x.
Proof. intros Hi [r j]. unfold upd, qeq, lst. cbn [fst snd]. bcase; cbn [andb]; try reflexivity; try (exfalso; lia). Qed.
Lemma lst_upd_a k g v k' : (forall j, (if j =? k then v else (j <? k') && P (j + 2)) = (j <? S k) && P (j + 2)) ->
  forall x, upd (lst k' g) (1, k) v x = lst (S k) g x.
Proof.
  intros H [r j]. unfold upd, qeq, lst. cbn [fst snd]. destruct (Nat.eqb_spec r 1); [|reflexivity]. cbn [andb]. rewrite <- H. reflexivity.
Qed.
Lemma lst_off_a k g x : forall y, upd (lst (S k) g) (1, k) false y = x -> lst k g y = x.
Proof.
  intros [r j]. unfold upd, qeq, lst. cbn [fst snd]. destruct (Nat.eqb_spec r 1); cbn [andb]; [|auto]. bcase; auto.
Qed.
Lemma lst0 : forall x, s x = lst 0 lf x.
Proof.
  intros [r i]. unfold lst. destruct (Nat.eqb_spec r 1); [subst; apply Hc|]. destruct (Nat.eqb_spec r 0); [subst|reflexivity].
  bcase; cbn [andb]; try reflexivity. unfold lf. f_equal. f_equal. lia.
Qed.

Lemma list_exec p : 1 <= n -> exec (increment_qb_list n q) (p, s) (p, lst 0 (sumbit none lf true)).
Proof.
  intros Hn. apply (exec_pre _ _ _ (lst 0 lf)); [exact lst0|]. unfold increment_qb_list. destruct (Nat.eqb_spec n 1) as [N1|N1].
  { eapply exec_cons; [reflexivity|]. apply exec_nil. intros x. unfold q. rewrite lst_upd_q, lst_q by lia. apply lst_ext; [reflexivity|].
    intros i Hi. replace i with 0 by lia. cbn. rewrite sum_none. cbn. destruct (lf 0); reflexivity. }
  destruct (Nat.eqb_spec n 2) as [N2|N2].
  { unfold q. eapply exec_cons; [reflexivity|]. eapply exec_cons; [reflexivity|]. apply exec_nil. intros x.
    rewrite !lst_q by lia. rewrite (upd_other _ _ _ (0, off + 0)) by (intros [=]; lia). rewrite lst_q by lia.
    transitivity (upd (lst 0 (fun j => if j =? 1 then xorb (lf 0) (lf 1) else lf j)) (0, off + 0) (negb (lf 0)) x).
    { apply upd_ext; [|reflexivity]. intros y. apply lst_upd_q. lia. }
    rewrite lst_upd_q by lia. apply lst_ext; [reflexivity|]. intros i Hi. rewrite sum_none. unfold none.
    destruct i as [|[|i]]; [| |lia]; cbn; unfold maj; [destruct (lf 0); reflexivity|destruct (lf 0), (lf 1); reflexivity]. }
  assert (CM : forall k, lf k && P k = P (S k)) by (intros; symmetry; apply carry_none).
  (* compute *)
  eapply exec_app; [eapply (exec_post _ _ _ _ (lst 1 lf)); [|apply pt2_clean; reflexivity]|].
  { unfold q. rewrite !lst_q by lia. apply lst_upd_a. intros j. bcase; cbn [andb]; try reflexivity.
    change (lf 0 && lf 1 = P 2). rewrite <- CM, <- (CM 0). change (P 0) with true. rewrite andb_true_r. apply andb_comm. }
  eapply exec_app; [apply (exec_loop_to 2 (n - 3) (n - 1) _ (fun k => (p, lst (k - 1) lf))); [lia|]|].
  { intros k Hk. eapply exec_post; [|apply pt2_clean; unfold incr_anc; rewrite lst_a; bcase; reflexivity].
    unfold q. rewrite lst_q by lia. unfold incr_anc. rewrite lst_a. replace (S k - 1) with (S (k - 1)) by lia. apply lst_upd_a.
    intros j. bcase; cbn [andb]; try reflexivity. replace (k - 2 + 2) with k by lia. rewrite CM. f_equal. lia. }
  replace (n - 1 - 1) with (n - 2) by lia.
  eapply exec_app; [eapply (exec_post _ _ _ _ (lst (n - 2) (lg (n - 1))))|].
  2:{ eapply exec_cons; [reflexivity|]. apply exec_nil. reflexivity. }
  { intros x. unfold q, incr_anc. rewrite lst_upd_q, lst_q, lst_a by lia. apply lst_ext; [reflexivity|]. intros i Hi. unfold lg.
    replace (n - 3 + 2) with (n - 1) by lia. bcase; cbn [andb]; try reflexivity. rewrite sum_none. apply xorb_comm. }
  eapply exec_app; [replace (n - 2) with (n - 1 - 1) by lia; apply (exec_loop_rev_to 2 (n - 3) (n - 1) _ (fun k => (p, lst (k - 1) (lg k)))); [lia|]|].
  { intros k Hk. unfold q, incr_anc. eapply exec_app; [eapply (exec_post _ _ _ _ (lst (k - 1) (lg (S k))))|].
    2:{ apply pt2_inv_clean; [discriminate|intros [=]; lia|]. rewrite lst_q, !lst_a by lia. unfold lg. bcase. cbn [andb].
        replace (k - 2 + 2) with k by lia. rewrite CM. f_equal. lia. }
    { intros x. replace (S k - 1) with (S (k - 1)) by lia. symmetry. apply lst_off_a. reflexivity. }
    eapply exec_cons; [reflexivity|]. apply exec_nil. intros x. rewrite lst_upd_q, lst_q, lst_a by lia. apply lst_ext; [reflexivity|].
    intros i Hi. unfold lg. replace (k - 2 + 2) with k by lia. bcase; cbn [andb]; try reflexivity. rewrite sum_none. apply xorb_comm. }
  cbn [Nat.sub]. unfold q, incr_anc.
  eapply exec_app; [eapply (exec_post _ _ _ _ (lst 0 (lg 2)))|].
  2:{ apply pt2_inv_clean; [discriminate|discriminate|]. rewrite !lst_q, !lst_a by lia. unfold lg. cbn [Nat.leb Nat.ltb andb].
      change (P 2 = lf 0 && lf 1). rewrite <- CM, <- (CM 0). change (P 0) with true. rewrite andb_true_r. apply andb_comm. }
  { intros x. symmetry. apply lst_off_a. reflexivity. }
  change ([CX (0, off + 0) (0, off + 1); X (0, off + 0)] ++ del_reg 1 (n - 2)) with (CX (0, off + 0) (0, off + 1) :: X (0, off + 0) :: del_reg 1 (n - 2)).
  eapply exec_cons; [reflexivity|]. eapply exec_cons; [reflexivity|].
  apply (exec_pre _ _ _ (lst 0 (sumbit none lf true))).
  { intros x. rewrite !lst_q by lia. rewrite (upd_other _ _ _ (0, off + 0)) by (intros [=]; lia). rewrite lst_q by lia.
    transitivity (upd (lst 0 (fun j => if j =? 1 then xorb (lg 2 0) (lg 2 1) else lg 2 j)) (0, off + 0) (negb (lg 2 0)) x).
    { apply upd_ext; [|reflexivity]. intros y. apply lst_upd_q. lia. }
    rewrite lst_upd_q by lia. apply lst_ext; [reflexivity|]. intros i Hi. rewrite sum_none. unfold lg.
    destruct i as [|[|i]]; cbn -[sumbit carry].
    - cbn. destruct (lf 0); reflexivity.
    - rewrite carry_none. cbn. destruct (lf 0), (lf 1); reflexivity.
    - apply sum_none. }
  apply exec_del_reg. intros i Hi. reflexivity.
Qed.
End list.

(** ** increment_constant *)
Lemma maj_gen v a b t (s : bstate) p : a <> b -> a <> t -> b <> t -> exec (cMAJ v a b t) (p, s)
  (p, upd (upd (upd s a (xorb (s a) v)) b (xorb (s b) v)) t (xorb (xorb (s a) v && xorb (s b) v) (s t))).
Proof.
  intros H1 H2 H3. unfold cMAJ. destruct v; eexists; (split; [cbn [app run step all_set forallb fst]; reflexivity|]); cbn [snd]; intros x;
    unfold all_set; cbn [forallb]; unfold upd; repeat match goal with |- context[qeq ?u ?w] => destruct (qeq_spec u w); subst; try congruence end.
  all: rewrite ?andb_true_r, ?xorb_false_r, ?xorb_true_r; reflexivity.
Qed.
Lemma uma_gen v a b t (s : bstate) p : a <> b -> a <> t -> b <> t -> exec (cUMA v a b t) (p, s)
  (p, upd (upd (upd s t (xorb (s a && s b) (s t))) a (xorb (s a) v)) b (xorb (xorb (s a) v) (s b))).
Proof.
  intros H1 H2 H3. unfold cUMA. destruct v; eexists; (split; [cbn [app run step all_set forallb fst]; reflexivity|]); cbn [snd]; intros x;
    unfold all_set; cbn [forallb]; unfold upd; repeat match goal with |- context[qeq ?u ?w] => destruct (qeq_spec u w); subst; try congruence end.
  all: rewrite ?andb_true_r, ?xorb_false_r, ?xorb_true_r; reflexivity.
Qed.
Section const.
Variables (n off : nat) (c : Z) (s : bstate).
Let q (i : nat) : qubit := (0, off + i).
Definition ab (i : nat) : bool := Z.testbit c (Z.of_nat i).
Definition cf (i : nat) : bool := s (0, off + i).
Definition C (k : nat) : bool := carry ab cf false k.
(** MAJ has been applied to the first [k] positions *)
Definition canc (k i : nat) : bool := if i <? n then (if S i <? k then xorb (C (S i)) (ab (S i)) else if S i =? k then C k else ab i) else false.
Definition cst (k : nat) (g : nat -> bool) : bstate := fun x => let '(r, i) := x in
  if r =? 1 then canc k i
  else if (r =? 2) && (i =? 0) then (if 0 <? k then ab 0 else false)
  else if (r =? 0) && (off <=? i) && (i <? off + n) then g (i - off) else s (r, i).
Definition cg (k m i : nat) : bool := if i <? k then xorb (cf i) (ab i) else if m <=? i then sumbit ab cf false i else cf i.
Hypothesis Hc1 : forall i, s (1, i) = false.
Hypothesis Hc2 : s (2, 0) = false.

Lemma cst_q k g i : i < n -> cst k g (0, off + i) = g i.
Proof. intros H. unfold cst. cbn [Nat.eqb andb]. bcase. f_equal. lia. Qed.
Lemma cst_ext k g g' : (forall i, i < n -> g i = g' i) -> forall x, cst k g x = cst k g' x.
Proof. intros H [r i]. unfold cst. bcase; cbn [andb]; try reflexivity; apply H; lia. Qed.
(** reading a slot *)
Lemma cst_slot k g : k < n -> cst k g (slot_1 k) = C k.
Proof.
  intros H. unfold slot_1. destruct (Nat.eqb_spec k 0) as [->|]; [reflexivity|]. cbn. unfold canc. bcase; try reflexivity.
Qed.
Lemma cst_anc k g : k < n -> cst k g (1, k) = ab k.
Proof. intros H. cbn. unfold canc. bcase. reflexivity. Qed.

(** a step upwards changes three qubits *)
Lemma cst_S k g v x : k < n - 1 -> upd (upd (upd (cst k g) (slot_1 k) (xorb (C k) (ab k))) (0, off + k) v) (1, k) (C (S k)) x =
  cst (S k) (fun j => if j =? k then v else g j) x.
Proof.
  intros Hk. destruct x as [r i]. unfold upd, qeq, slot_1, cst, canc. destruct (Nat.eqb_spec k 0) as [->|]; cbn [fst snd]; bcase; cbn [andb]; bcase; cbn [andb]; try reflexivity; try (exfalso; lia).
  all: try (replace (S (k - 1)) with k by lia); change (C 0) with false; rewrite ?xorb_false_l; reflexivity.
Qed.
Lemma cst_down k g v x : k < n - 1 -> upd (upd (upd (cst (S k) g) (1, k) (ab k)) (slot_1 k) (C k)) (0, off + k) v x =
  cst k (fun j => if j =? k then v else g j) x.
Proof.
  intros Hk. destruct x as [r i]. unfold upd, qeq, slot_1, cst, canc. destruct (Nat.eqb_spec k 0) as [->|]; cbn [fst snd]; bcase; cbn [andb]; bcase; cbn [andb]; try reflexivity; try (exfalso; lia).
  all: try (replace (S (k - 1)) with k by lia); change (C 0) with false; rewrite ?xorb_false_l; reflexivity.
Qed.

Lemma slot_ne k i : slot_1 k <> (0, i).
Proof. unfold slot_1. destruct (k =? 0); discriminate. Qed.
Lemma slot_ne1 k : slot_1 k <> (1, k).
Proof. unfold slot_1. destruct (Nat.eqb_spec k 0); intros [=]; lia. Qed.

Lemma maj_exec k g p : k < n - 1 -> g k = cf k -> exec (cMAJ (ab k) (slot_1 k) (q k) (1, k)) (p, cst k g) (p, cst (S k) (fun j => if j =? k then xorb (cf k) (ab k) else g j)).
Proof.
  intros Hk Hg. eapply exec_post; [intros x; apply cst_S; exact Hk|]. eapply exec_post; [|apply maj_gen].
  - unfold q. rewrite cst_slot, cst_q, cst_anc, Hg by lia. intros x. apply upd_ext; [reflexivity|].
    change (C (S k)) with (maj (ab k) (cf k) (C k)). unfold maj. destruct (ab k), (cf k), (C k); reflexivity.
  - apply slot_ne.
  - apply slot_ne1.
  - discriminate.
Qed.
Lemma uma_exec k g p : k < n - 1 -> g k = xorb (cf k) (ab k) -> exec (cUMA (ab k) (slot_1 k) (q k) (1, k)) (p, cst (S k) g) (p, cst k (fun j => if j =? k then sumbit ab cf false k else g j)).
Proof.
  intros Hk Hg. eapply exec_post; [intros x; apply cst_down; exact Hk|]. eapply exec_post; [|apply uma_gen].
  - unfold q. assert (R1 : cst (S k) g (slot_1 k) = xorb (C k) (ab k)).
    { unfold slot_1. destruct (Nat.eqb_spec k 0) as [->|]; [change (C 0) with false; rewrite xorb_false_l; reflexivity|]. cbn. unfold canc. bcase. replace (S (k - 1)) with k by lia. reflexivity. }
    assert (R3 : cst (S k) g (1, k) = C (S k)) by (cbn; unfold canc; bcase; reflexivity).
    rewrite R1, R3, cst_q, Hg by lia. change (C (S k)) with (maj (ab k) (cf k) (C k)). unfold sumbit. fold (C k). unfold maj.
    intros x. apply upd_ext; [|destruct (ab k), (cf k), (C k); reflexivity]. intros y. apply upd_ext; [|destruct (ab k), (cf k), (C k); reflexivity].
    intros z. apply upd_ext; [reflexivity|destruct (ab k), (cf k), (C k); reflexivity].
  - apply slot_ne.
  - apply slot_ne1.
  - discriminate.
Qed.

Lemma enc_in x : enc_state 1 n c s x = cst 0 cf x.
Proof.
  destruct x as [r i]. unfold enc_state, cst, canc, cf, ab. cbn [fst snd]. destruct (Nat.eqb_spec r 1) as [->|]; cbn [andb].
  - rewrite !Hc1. bcase; rewrite ?xorb_false_l, ?xorb_false_r; reflexivity.
  - destruct (Nat.eqb_spec r 2) as [->|]; cbn [andb]; [destruct (Nat.eqb_spec i 0) as [->|]; [exact Hc2|reflexivity]|].
    destruct (Nat.eqb_spec r 0) as [->|]; cbn [andb]; [|reflexivity]. bcase; try reflexivity. f_equal. f_equal. lia.
Qed.
Definition cfin : bstate := fun x => let '(r, i) := x in
  if (r =? 0) && (off <=? i) && (i <? off + n) then sumbit ab cf false (i - off) else s (r, i).
Lemma enc_out x : enc_state 1 n c (cst 0 (sumbit ab cf false)) x = cfin x.
Proof.
  destruct x as [r i]. unfold enc_state, cst, canc, cfin, ab. cbn [fst snd]. destruct (Nat.eqb_spec r 1) as [->|]; cbn [andb].
  - rewrite !Hc1. cbn [Nat.eqb andb]. bcase; rewrite ?xorb_nilpotent; reflexivity.
  - destruct (Nat.eqb_spec r 2) as [->|]; cbn [andb Nat.eqb]; [destruct (Nat.eqb_spec i 0) as [->|]; [symmetry; exact Hc2|reflexivity]|].
    destruct (Nat.eqb_spec r 0) as [->|]; cbn [andb]; [|reflexivity]. bcase; reflexivity.
Qed.
Lemma const_exec p : 2 <= n -> exec (increment_constant n q c) (p, s) (p, cfin).
Proof.
  intros Hn. unfold increment_constant. eapply exec_app; [eapply exec_post; [exact enc_in|apply int_encode_exec]|].
  eapply exec_app.
  { eapply exec_pre; [|apply (exec_loop_to 0 (n - 1) (n - 1) _ (fun k => (p, cst k (cg k n))))]; [|lia|].
    - apply cst_ext. intros i Hi. unfold cg. bcase. reflexivity.
    - intros k Hk. eapply exec_post; [|apply maj_exec; [lia|unfold cg; bcase; reflexivity]]. apply cst_ext. intros i Hi. unfold cg. bcase; reflexivity. }
  eapply exec_app.
  { eapply exec_cons; [reflexivity|]. apply exec_nil. intros x. reflexivity. }
  set (gg := fun k i => if i <? k then xorb (cf i) (ab i) else if i <? n - 1 then sumbit ab cf false i else xorb (cf i) (C (n - 1))).
  eapply exec_pre; [instantiate (1 := cst (n - 1) (gg (n - 1)))|].
  { intros x. assert (E : cst (n - 1) (cg (n - 1) n) (1, n - 2) = C (n - 1)) by (cbn; unfold canc; bcase; reflexivity).
    unfold q. rewrite E, cst_q by lia. destruct x as [r i]. unfold upd, qeq, cst, gg, cg. cbn [fst snd]. bcase; cbn [andb]; try reflexivity; try (exfalso; lia).
    all: replace (off + (n - 1) - off) with (n - 1) by lia; apply xorb_comm. }
  eapply exec_app.
  { apply (exec_loop_rev_to 0 (n - 1) (n - 1) _ (fun k => (p, cst k (gg k)))); [lia|]. intros k Hk.
    eapply exec_post; [|apply uma_exec; [lia|unfold gg; bcase; reflexivity]]. apply cst_ext. intros i Hi. unfold gg. bcase; reflexivity. }
  eapply exec_app.
  { eapply exec_cons; [reflexivity|]. apply exec_nil. intros x. reflexivity. }
  eapply exec_pre; [instantiate (1 := cst 0 (sumbit ab cf false))|].
  { intros x. assert (E : cst 0 (gg 0) (1, n - 1) = ab (n - 1)) by (cbn; unfold canc; bcase; reflexivity).
    unfold q. rewrite E, cst_q by lia. destruct x as [r i]. unfold upd, qeq, cst, gg. cbn [fst snd]. bcase; cbn [andb]; try reflexivity; try (exfalso; lia).
    all: replace (off + (n - 1) - off) with (n - 1) by lia; unfold sumbit; fold (C (n - 1)); destruct (ab (n - 1)), (cf (n - 1)), (C (n - 1)); reflexivity. }
  eapply exec_app; [eapply exec_post; [exact enc_out|apply int_encode_exec]|].
  eapply exec_app; apply exec_del_reg.
  - intros i Hi. unfold cfin. cbn. apply Hc1.
  - intros i Hi. replace i with 0 by lia. unfold cfin. cbn. exact Hc2.
Qed.
End const.

(** ** values *)
Lemma val_split m k f : val (m + k) f = (val m f + 2 ^ Z.of_nat m * val k (fun i => f (m + i)%nat))%Z.
Proof.
  induction k as [|k IH]; [rewrite Nat.add_0_r; cbn; lia|]. rewrite Nat.add_succ_r. cbn [val]. rewrite IH, Nat2Z.inj_add, Z.pow_add_r by lia. ring.
Qed.
Lemma val_negb m f : val m (fun i => negb (f i)) = (2 ^ Z.of_nat m - 1 - val m f)%Z.
Proof.
  induction m as [|m IH]; [reflexivity|]. cbn [val]. rewrite IH, Nat2Z.inj_succ, Z.pow_succ_r by lia. destruct (f m); cbn [negb b2z]; lia.
Qed.
Lemma mod_high l x P M : (0 <= l < P -> 0 < M -> (l + P * x) mod (P * M) = l + P * (x mod M))%Z.
Proof.
  intros Hl HM. symmetry. apply (Z.mod_unique_pos _ _ (x / M)); [pose proof (Z.mod_pos_bound x M HM); nia|].
  pose proof (Z.div_mod x M ltac:(lia)) as E. rewrite E at 1. ring.
Qed.

(** the result of either circuit *)
Definition added (n off : nat) (h : nat -> bool) (s : bstate) : bstate := fun x => let '(r, i) := x in
  if (r =? 0) && (off <=? i) && (i <? off + n) then h (i - off) else s (r, i).
Lemma added_value n off h s a : (0 <= a)%Z -> val n h = ((val n (fun i => s (0, off + i)%nat) + a) mod 2 ^ Z.of_nat n)%Z ->
  regval (added n off h s) 0 (off + n) = ((regval s 0 (off + n) + 2 ^ Z.of_nat off * a) mod 2 ^ Z.of_nat (off + n))%Z.
Proof.
  intros Ha H. unfold regval. rewrite !val_split, Nat2Z.inj_add, Z.pow_add_r by lia. rewrite <- Z.add_assoc, <- Z.mul_add_distr_l, mod_high.
  - rewrite <- H. f_equal.
    + apply val_ext. intros i Hi. unfold added. bcase; reflexivity.
    + f_equal. apply val_ext. intros i Hi. unfold added. cbn [Nat.eqb andb]. bcase. f_equal. lia.
  - apply val_bounds.
  - lia.
Qed.

Lemma factor2_ok fuel : forall po a po' a', (0 < a < 2 ^ Z.of_nat fuel)%Z -> factor2 fuel po a = (po', a') ->
  Z.odd a' = true /\ (a = a' * 2 ^ (Z.of_nat po' - Z.of_nat po))%Z /\ po <= po' /\ (0 < a')%Z.
Proof.
  induction fuel as [|fuel IH]; intros po a po' a' Ha E; [cbn in Ha; lia|]. cbn [factor2] in E. destruct (Z.even a) eqn:V.
  - apply Z.even_spec in V. destruct V as (b & ->). rewrite (Z.mul_comm 2), Z.div_mul in E by lia.
    rewrite Nat2Z.inj_succ, Z.pow_succ_r in Ha by lia. assert (Hb : (0 < b < 2 ^ Z.of_nat fuel)%Z) by lia. destruct (IH _ _ _ _ Hb E) as (O & Eb & L & P'). repeat split; [exact O| |lia|exact P'].
    rewrite Eb. replace (Z.of_nat po' - Z.of_nat po)%Z with (Z.succ (Z.of_nat po' - Z.of_nat (S po))) by lia. rewrite Z.pow_succ_r by lia. ring.
  - injection E as <- <-. rewrite <- Z.negb_even, V, Z.sub_diag, Z.mul_1_r. repeat split; lia.
Qed.

(** X on the whole register *)
Definition flipped (n : nat) (s : bstate) : bstate := fun x => let '(r, i) := x in if (r =? 0) && (i <? n) then negb (s (r, i)) else s (r, i).
Lemma flip_exec n p s : exec (loop 0 n (fun i => [X (0, i)])) (p, s) (p, flipped n s).
Proof.
  eapply exec_pre; [|apply (exec_loop_to 0 n n _ (fun k => (p, flipped k s))); [lia|]].
  - intros [r i]. unfold flipped. bcase; reflexivity.
  - intros k Hk. eapply exec_cons; [reflexivity|]. apply exec_nil. intros [r i]. unfold upd, qeq, flipped. cbn [fst snd]. bcase; reflexivity.
Qed.

(** both circuits, on the qubits from [off] on *)
Definition add_circuit (n off : nat) (a : Z) : list gate :=
  if (a =? 1)%Z then increment_qb_list n (fun i => (0, off + i)) else increment_constant n (fun i => (0, off + i)) a.
Lemma add_exec n off a p (s : bstate) : 1 <= n -> Z.odd a = true -> (0 < a < 2 ^ Z.of_nat n)%Z -> (forall i, s (1, i) = false) -> s (2, 0) = false ->
  exists h, exec (add_circuit n off a) (p, s) (p, added n off h s) /\ val n h = ((val n (fun i => s (0, off + i)%nat) + a) mod 2 ^ Z.of_nat n)%Z.
Proof.
  intros Hn Ho Ha H1 H2. unfold add_circuit. destruct (Z.eqb_spec a 1) as [->|Na].
  - exists (sumbit none (lf off s) true). split.
    + eapply exec_post; [|apply list_exec; assumption]. intros [r i]. unfold lst, added. destruct (Nat.eqb_spec r 1) as [->|]; [|reflexivity]. cbn [Nat.eqb andb].
      rewrite H1. reflexivity.
    + rewrite adder_mod, val_none. cbn [b2z]. reflexivity.
  - exists (sumbit (ab a) (cf off s) false). split.
    + apply const_exec; [assumption|assumption|]. destruct (Nat.eq_dec n 1) as [->|]; [|lia]. cbn in Ha. lia.
    + rewrite adder_mod. cbn [b2z]. unfold ab. rewrite val_of_bits, (Z.mod_small a) by lia. f_equal. rewrite Z.add_0_r. apply Z.add_comm.
Qed.

Lemma increment_ok signed n amount p (s : bstate) : (forall i, s (1, i) = false) -> s (2, 0) = false ->
  match increment signed n amount with
  | Raises => amount <> 0%Z /\ representable signed n (Z.abs amount) = false
  | Circuit l => exists s', run l (p, s) = Some (p, s') /\ regval s' 0 n = ((regval s 0 n + amount) mod 2 ^ Z.of_nat n)%Z /\
      forall r i, ~ (r = 0 /\ i < n) -> s' (r, i) = s (r, i)
  end.
Proof.
  intros H1 H2. unfold increment. destruct (Z.eqb_spec amount 0) as [->|N0].
  { exists s. split; [reflexivity|]. split; [|auto]. rewrite Z.add_0_r. symmetry. apply Z.mod_small, val_bounds. }
  destruct (representable signed n (Z.abs amount)) eqn:R; cbn [negb]; [|auto].
  assert (B : (0 < Z.abs amount < 2 ^ Z.of_nat n)%Z).
  { unfold representable in R. destruct signed; apply andb_prop in R; [|lia]. destruct n as [|n]; [cbn in R; lia|].
    rewrite Nat2Z.inj_succ, Z.pow_succ_r by lia. replace (Z.of_nat (S n) - 1)%Z with (Z.of_nat n) in R by lia. lia. }
  destruct (factor2 n 0 (Z.abs amount)) as (po, a) eqn:F. destruct (factor2_ok n 0 _ _ _ B F) as (Ho & Ea & _ & Pa).
  rewrite Z.sub_0_r in Ea. assert (Lp : po < n).
  { destruct (Nat.lt_ge_cases po n); [assumption|]. pose proof (Z.pow_le_mono_r 2 (Z.of_nat n) (Z.of_nat po) ltac:(lia) ltac:(lia)). nia. }
  set (m := n - po). assert (En : n = po + m) by lia. assert (La : (0 < a < 2 ^ Z.of_nat m)%Z).
  { split; [exact Pa|]. rewrite En, Nat2Z.inj_add, Z.pow_add_r in B by lia. nia. }
  assert (Add : forall t : bstate, (forall i, t (1, i) = false) -> t (2, 0) = false -> exists h, exec (add_circuit m po a) (p, t) (p, added m po h t) /\
    regval (added m po h t) 0 n = ((regval t 0 n + Z.abs amount) mod 2 ^ Z.of_nat n)%Z).
  { intros t T1 T2. destruct (add_exec m po a p t ltac:(lia) Ho La T1 T2) as (h & E & V). exists h. split; [exact E|].
    rewrite En at 1 2 3. rewrite (added_value m po h t a ltac:(lia) V), Ea, (Z.mul_comm a). reflexivity. }
  fold (add_circuit m po a). destruct (Z.ltb_spec amount 0) as [Neg|Pos].
  - set (t := flipped n s). destruct (Add t) as (h & E & V); [exact H1|exact H2|].
    assert (X : exec (loop 0 n (fun i => [X (0, i)]) ++ add_circuit m po a ++ loop 0 n (fun i => [X (0, i)])) (p, s) (p, flipped n (added m po h t))).
    { eapply exec_app; [apply flip_exec|]. eapply exec_app; [exact E|]. apply flip_exec. }
    destruct X as (s' & Rn & Es). exists s'. split; [exact Rn|]. cbn [snd] in Es. split.
    + transitivity (2 ^ Z.of_nat n - 1 - regval (added m po h t) 0 n)%Z.
      { unfold regval. rewrite <- val_negb. apply val_ext. intros i Hi. rewrite Es. unfold flipped. cbn [Nat.eqb andb]. destruct (Nat.ltb_spec i n); [reflexivity|lia]. }
      assert (Et : regval t 0 n = (2 ^ Z.of_nat n - 1 - regval s 0 n)%Z).
      { unfold regval. rewrite <- val_negb. apply val_ext. intros i Hi. unfold t, flipped. cbn [Nat.eqb andb]. destruct (Nat.ltb_spec i n); [reflexivity|lia]. }
      rewrite V, Et. pose proof (val_bounds n (fun i => s (0, i))) as Bs. fold (regval s 0 n) in Bs. rewrite Z.abs_neq in * by lia. set (N := (2 ^ Z.of_nat n)%Z) in *.
      destruct (Z_lt_le_dec (regval s 0 n + amount) 0).
      * rewrite <- (Z.mod_unique_pos (N - 1 - regval s 0 n + - amount) N 1 (- 1 - regval s 0 n - amount)) by lia.
        rewrite <- (Z.mod_unique_pos (regval s 0 n + amount) N (-1) (N + regval s 0 n + amount)) by lia. lia.
      * rewrite !Z.mod_small by lia. lia.
    + intros r i Hr. rewrite Es. unfold t, flipped, added. destruct (Nat.eqb_spec r 0) as [Er|]; cbn [andb]; [|reflexivity]. destruct (Nat.ltb_spec i n); [exfalso; apply Hr; lia|].
      destruct (Nat.ltb_spec i (po + m)); [exfalso; lia|]. rewrite andb_false_r. reflexivity.
  - destruct (Add s H1 H2) as (h & E & V). cbn [app]. rewrite app_nil_r. destruct E as (s' & Rn & Es). exists s'. split; [exact Rn|]. cbn [snd] in Es.
    rewrite Z.abs_eq in V by lia. split.
    + rewrite <- V. apply val_ext. intros i Hi. apply Es.
    + intros r i Hr. rewrite Es. unfold added. destruct (Nat.eqb_spec r 0) as [Er|]; cbn [andb]; [|reflexivity]. destruct (Nat.ltb_spec i n); [exfalso; apply Hr; lia|].
      destruct (Nat.ltb_spec i (po + m)); [exfalso; lia|]. rewrite andb_false_r. reflexivity.
Qed.

(** ** lin_incr *)
Section lin.
Variables (n : nat) (cin : bool) (m : nat) (s : bstate).
Hypothesis Hm : m = n \/ m = S n.
Let a := lin_list n.
Definition lb (i : nat) : bool := s (lin_list n i).
Definition c0 : bool := cin && s (3, 0).
Definition L (k : nat) : bool := carry none lb c0 k.
Definition linst (k : nat) (g : nat -> bool) : bstate := fun x => let '(r, i) := x in
  if r =? 1 then (i <? k) && L (i + 1)
  else if (r =? 0) && (i <? n) && (i <? m) then g i else if (r =? 4) && (i =? 0) && (n <? m) then g n else s (r, i).
Definition ling (k i : nat) : bool := if k <=? i then sumbit none lb c0 i else lb i.
Hypothesis Hc : forall i, s (1, i) = false.

Lemma linst_q k g i : i < m -> linst k g (a i) = g i.
Proof.
  intros H. unfold a, lin_list. destruct (Nat.ltb_spec i n); unfold linst; cbn [Nat.eqb andb]; bcase; try reflexivity. f_equal. lia.
Qed.
Lemma linst_ext k g g' : (forall i, i < m -> g i = g' i) -> forall x, linst k g x = linst k g' x.
Proof. intros H [r i]. unfold linst. bcase; cbn [andb]; try reflexivity; apply H; lia. Qed.
Lemma linst_upd_q k g i v : i < m -> forall x, upd (linst k g) (a i) v x = linst k (fun j => if j =? i then v else g j) x.
Proof.
  intros Hi [r j]. unfold a, lin_list. destruct (Nat.ltb_spec i n); unfold upd, qeq, linst; cbn [fst snd]; bcase; cbn [andb]; try reflexivity; try (exfalso; lia).
Qed.
Lemma linst_S k g v : v = L (S k) -> forall x, upd (linst k g) (1, k) v x = linst (S k) g x.
Proof.
  intros -> [r j]. unfold upd, qeq, linst. cbn [fst snd]. destruct (Nat.eqb_spec r 1); [|reflexivity]. cbn [andb]. bcase; cbn [andb]; try reflexivity.
  f_equal. lia.
Qed.
Lemma linst_down k g : forall x, upd (linst (S k) g) (1, k) false x = linst k g x.
Proof. intros [r j]. unfold upd, qeq, linst. cbn [fst snd]. destruct (Nat.eqb_spec r 1); [|reflexivity]. cbn [andb]. bcase; reflexivity. Qed.
Lemma linst_3 k g : linst k g (3, 0) = s (3, 0).
Proof. reflexivity. Qed.
Lemma linst0 : forall x, s x = linst 0 lb x.
Proof.
  intros [r i]. unfold linst. destruct (Nat.eqb_spec r 1) as [->|]; [apply Hc|]. unfold lb, lin_list. bcase; cbn [andb]; try reflexivity.
Qed.
Lemma L_S k : L (S k) = lb k && L k.
Proof. apply carry_none. Qed.

Lemma lin_exec p : 2 <= m -> exec (
    (if cin then [GAND (3, 0) (a 0) (incr_anc 0)] else []) ++
    loop 0 (m - 2) (fun i => [GAND (incr_anc i) (a (i + 1)) (incr_anc (i + 1))]) ++
    [CX (incr_anc (m - 2)) (a (m - 1))] ++
    loop_rev 0 (m - 2) (fun i => [GUNAND (incr_anc i) (a (i + 1)) (incr_anc (i + 1)); CX (incr_anc i) (a (i + 1))]) ++
    (if cin then [GUNAND (3, 0) (a 0) (incr_anc 0); CX (3, 0) (a 0)] else []) ++
    del_reg 1 (m - 1)) (p, s) (p, linst 0 (sumbit none lb c0)).
Proof.
  intros Hm2. apply (exec_pre _ _ _ (linst 0 lb)); [exact linst0|]. unfold incr_anc.
  apply (exec_app _ _ _ (p, linst 1 lb)).
  { destruct cin eqn:Ci.
    - eapply exec_cons; [apply step_gand_clean; reflexivity|]. apply exec_nil. apply linst_S. rewrite linst_q by lia. rewrite L_S. unfold L, c0. rewrite Ci. apply andb_comm.
    - apply exec_nil. intros [r i]. unfold linst. destruct (Nat.eqb_spec r 1); [|reflexivity]. bcase; try reflexivity. cbn [andb]. rewrite Nat.add_1_r, L_S.
      replace i with 0 by lia. unfold L, c0. rewrite Ci. cbn. rewrite andb_false_r. reflexivity. }
  eapply exec_app.
  { apply (exec_loop_to 0 (m - 2) (m - 2) _ (fun k => (p, linst (S k) lb))); [lia|]. intros k Hk. rewrite !Nat.add_1_r.
    eapply exec_cons; [apply step_gand_clean; unfold linst; cbn [Nat.eqb]; bcase; reflexivity|]. apply exec_nil. apply linst_S.
    rewrite linst_q by lia. unfold linst. cbn [Nat.eqb]. bcase. cbn [andb]. rewrite Nat.add_1_r, (L_S (S k)). apply andb_comm. }
  eapply exec_app.
  { eapply exec_cons; [reflexivity|]. apply exec_nil. intros x. rewrite linst_upd_q, linst_q by lia.
    transitivity (linst (S (m - 2)) (ling (m - 1)) x); [|reflexivity]. apply linst_ext. intros i Hi. unfold ling, linst. cbn [Nat.eqb]. bcase; cbn [andb]; try reflexivity.
    rewrite sum_none. replace (m - 2 + 1) with (m - 1) by lia. apply xorb_comm. }
  eapply exec_app.
  { replace (m - 1) with (S (m - 2)) at 1 by lia. apply (exec_loop_rev_to 0 (m - 2) (m - 2) _ (fun k => (p, linst (S k) (ling (S k))))); [lia|]. intros k Hk.
    rewrite !Nat.add_1_r. eapply exec_cons; [apply step_unand|].
    { rewrite linst_q by lia. unfold linst, ling. cbn [Nat.eqb]. bcase. cbn [andb]. rewrite !Nat.add_1_r, (L_S (S k)). apply andb_comm. }
    eapply exec_cons; [reflexivity|]. apply exec_nil. intros x.
    assert (D : forall y, upd (linst (S (S k)) (ling (S (S k)))) (1, S k) false y = linst (S k) (ling (S (S k))) y) by apply linst_down.
    transitivity (upd (linst (S k) (ling (S (S k)))) (a (S k)) (xorb (L (S k)) (lb (S k))) x).
    { apply upd_ext; [exact D|]. rewrite !D, linst_q by lia. unfold linst, ling. cbn [Nat.eqb]. bcase. cbn [andb]. rewrite Nat.add_1_r. reflexivity. }
    rewrite linst_upd_q by lia. apply linst_ext. intros i Hi. unfold ling. bcase; try reflexivity. rewrite sum_none. apply xorb_comm. }
  apply (exec_app _ _ _ (p, linst 0 (sumbit none lb c0))).
  2:{ apply exec_del_reg. intros i Hi. reflexivity. }
  destruct cin eqn:Ci.
  - eapply exec_cons; [apply step_unand|].
    { rewrite linst_q by lia. unfold linst, ling. cbn [Nat.eqb]. cbn [Nat.ltb Nat.leb andb Nat.add]. rewrite L_S. unfold L, c0. rewrite Ci. apply andb_comm. }
    eapply exec_cons; [reflexivity|]. apply exec_nil. intros x.
    assert (D : forall y, upd (linst 1 (ling 1)) (1, 0) false y = linst 0 (ling 1) y) by apply linst_down.
    transitivity (upd (linst 0 (ling 1)) (a 0) (xorb (s (3, 0)) (lb 0)) x).
    { apply upd_ext; [exact D|]. rewrite !D, linst_q by lia. reflexivity. }
    rewrite linst_upd_q by lia. apply linst_ext. intros i Hi. unfold ling. bcase; try reflexivity. rewrite sum_none. unfold c0. rewrite Ci. apply xorb_comm.
  - apply exec_nil. intros [r i]. unfold linst. destruct (Nat.eqb_spec r 1) as [->|].
    + bcase; try reflexivity. cbn [andb]. replace i with 0 by lia. cbn [Nat.add]. rewrite L_S. unfold L, c0. rewrite Ci. cbn. apply andb_false_r.
    + assert (E : forall j, ling 1 j = sumbit none lb c0 j); [|rewrite !E; reflexivity]. intros j. unfold ling. bcase; [reflexivity|]. replace j with 0 by lia.
      rewrite sum_none. unfold c0. rewrite Ci. cbn. symmetry. apply xorb_false_r.
Qed.
End lin.
Lemma lin_ok n (cin cout : bool) p (s : bstate) : (forall i, s (1, i) = false) ->
  match lin_incr n cin cout with
  | Raises => n + (if cout then 1 else 0) = 0 \/ (n + (if cout then 1 else 0) = 1 /\ cin = false)
  | Circuit l => exists s', run l (p, s) = Some (p, s') /\
      val (n + (if cout then 1 else 0)) (fun i => s' (lin_list n i)) =
        ((val (n + (if cout then 1 else 0))%nat (fun i => s (lin_list n i)) + b2z (cin && s (3, 0)%nat)) mod 2 ^ Z.of_nat (n + (if cout then 1 else 0))%nat)%Z /\
      forall r i, ~ (r = 0 /\ i < n) -> ~ (cout = true /\ r = 4 /\ i = 0) -> s' (r, i) = s (r, i)
  end.
Proof.
  intros Hc. unfold lin_incr. set (m := if cout then S n else n). assert (Em : n + (if cout then 1 else 0) = m) by (unfold m; destruct cout; lia).
  rewrite Em. assert (Hm : m = n \/ m = S n) by (unfold m; destruct cout; auto).
  assert (Fin : forall s', (forall x, s' x = linst n cin m s 0 (sumbit none (lb n s) (c0 cin s)) x) ->
    val m (fun i => s' (lin_list n i)) = ((val m (fun i => s (lin_list n i)) + b2z (cin && s (3, 0)%nat)) mod 2 ^ Z.of_nat m)%Z /\
    forall r i, ~ (r = 0 /\ i < n) -> ~ (cout = true /\ r = 4 /\ i = 0) -> s' (r, i) = s (r, i)).
  { intros s' E. split.
    - transitivity (val m (sumbit none (lb n s) (c0 cin s))).
      + apply val_ext. intros i Hi. rewrite E. apply linst_q; assumption.
      + rewrite adder_mod, val_none. reflexivity.
    - intros r i H1 H2. rewrite E. unfold linst. destruct (Nat.eqb_spec r 1) as [->|]; [symmetry; apply Hc|].
      destruct (Nat.eqb_spec r 0) as [->|]; cbn [andb].
      + destruct (Nat.ltb_spec i n); [exfalso; apply H1; auto|]. reflexivity.
      + destruct (Nat.eqb_spec r 4) as [->|]; cbn [andb]; [|reflexivity]. destruct (Nat.eqb_spec i 0) as [->|]; cbn [andb]; [|reflexivity].
        unfold m. destruct cout; [exfalso; apply H2; auto|]. destruct (Nat.ltb_spec n n); [lia|reflexivity]. }
  destruct (Nat.eqb_spec m 1) as [M1|M1].
  - destruct cin eqn:Ci; [|right; auto]. rewrite <- Ci in Fin. assert (Hl : n = 1 \/ n = 0) by lia.
    eexists. split; [cbn [run step]; reflexivity|]. rewrite <- Ci. apply Fin. intros x. transitivity (upd (linst n cin m s 0 (lb n s)) (lin_list n 0) (xorb (s (3, 0)) (s (lin_list n 0))) x).
    { apply upd_ext; [|reflexivity]. apply linst0; assumption. }
    rewrite linst_upd_q by lia || assumption. apply linst_ext; [exact Hm|]. intros i Hi. replace i with 0 by lia. cbn. rewrite sum_none. unfold c0, lb. rewrite Ci. apply xorb_comm.
  - destruct (Nat.eqb_spec m 0) as [M0|M0]; [auto|]. destruct (lin_exec n cin m s Hm Hc p ltac:(lia)) as (s' & R & E). exists s'. split; [exact R|].
    apply Fin. exact E.
Qed.
