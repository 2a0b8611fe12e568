From Verif.Mcx Require Import McxModel McxSpec McxProofs.
Local Open Scope nat_scope.

Definition in_ (n r i : nat) (q : qubit) : bool := (fst q =? r) && (i <=? snd q) && (snd q <? i + n).
Definition lay (gs : list (list (qubit * bool))) (r i : nat) (s : bstate) : bstate :=
  fun q => if in_ (length gs) r i q then matches s (nth (snd q - i) gs []) else s q.
Definition phs (gs : list (list (qubit * bool))) (s : bstate) : Z := fold_right (fun g acc => (gphase g s + acc)%Z) 0%Z gs.
Definition ok_groups (r : nat) (gs : list (list (qubit * bool))) : Prop :=
  forall g, In g gs -> gsize g /\ NoDup (map fst g) /\ forall c, In c g -> fst (fst c) < r.

Lemma matches_agree s s' g : (forall c, In c g -> s (fst c) = s' (fst c)) -> matches s g = matches s' g.
Proof. unfold matches. induction g as [|c g IH]; intros H; cbn [forallb]; [reflexivity|]. rewrite H, IH; cbn; auto. intros; apply H; cbn; auto. Qed.
Lemma gphase_agree s s' g : (forall c, In c g -> s (fst c) = s' (fst c)) -> gphase g s = gphase g s'.
Proof.
  intros H. destruct g as [|a [|b [|c [|? ?]]]]; try reflexivity. cbn [gphase].
  rewrite (matches_agree s s' [a; b; c] H), (matches_agree s s' [a; b]); [reflexivity|]. intros; apply H; cbn in *; tauto.
Qed.
Lemma phs_agree s s' gs : (forall g c, In g gs -> In c g -> s (fst c) = s' (fst c)) -> phs gs s = phs gs s'.
Proof.
  unfold phs. induction gs as [|g gs IH]; intros H; cbn [fold_right]; [reflexivity|]. rewrite IH, (gphase_agree s s' g); auto.
  - intros; eapply H; cbn; eauto.
  - intros; eapply H; cbn; eauto.
Qed.
Lemma valid_group r gs g i : ok_groups r gs -> In g gs -> gsize g /\ valid g (r, i).
Proof.
  intros H Hg. destruct (H g Hg) as (Hs & ND & Hr). split; [exact Hs|]. split; [exact ND|]. intros Hi. apply in_map_iff in Hi as (c & E & Hc).
  specialize (Hr c Hc). rewrite E in Hr. cbn in Hr. lia.
Qed.
Lemma upd_low (s : bstate) r i v (q : qubit) : fst q < r -> upd s (r, i) v q = s q.
Proof. intros H. apply upd_other. intros ->. cbn in H. lia. Qed.

Lemma layer_ok m r gs : forall i p s, ok_groups r gs -> (forall j, s (r, j) = false) \/ (forall j, i <= j -> s (r, j) = false) ->
  exec (layer m gs r i) (p, s) ((p + phs gs s)%Z, lay gs r i s).
Proof.
  induction gs as [|g gs IH]; intros i p s Hg Hc.
  - cbn [layer phs fold_right]. rewrite Z.add_0_r. apply exec_nil. intros q. unfold lay, in_. cbn [length]. rewrite Nat.add_0_r.
    destruct (Nat.leb_spec i (snd q)), (Nat.ltb_spec (snd q) i); try lia; rewrite ?andb_false_r; cbn; rewrite ?andb_false_r; reflexivity.
  - assert (Hc' : forall j, i <= j -> s (r, j) = false) by (destruct Hc; auto). cbn [layer].
    destruct (valid_group r (g :: gs) g i Hg (or_introl eq_refl)) as [Hs Hv].
    eapply exec_app; [apply group_ok; auto|].
    assert (Hg' : ok_groups r gs) by (intros g' Hi; apply Hg; right; exact Hi).
    assert (Ha : forall g' c, In g' gs -> In c g' -> upd s (r, i) (matches s g) (fst c) = s (fst c)).
    { intros g' c H1 H2. apply upd_low. exact (proj2 (proj2 (Hg' g' H1)) c H2). }
    cbn [phs fold_right]. fold (phs gs s). rewrite Z.add_assoc, <- (phs_agree _ s gs Ha).
    eapply exec_post; [|apply IH; [exact Hg'|right; intros j Hj; rewrite upd_other by (intros E; injection E; lia); apply Hc'; lia]].
    intros [a j]. unfold lay, in_. cbn [fst snd length].
    destruct (Nat.eqb_spec a r) as [->|Ne]; cbn [andb]; [|unfold upd, qeq; cbn [fst snd]; destruct (Nat.eqb_spec a r); [lia|]; reflexivity].
    destruct (Nat.eq_dec j i) as [->|].
    + destruct (Nat.leb_spec (S i) i); [lia|]. destruct (Nat.leb_spec i i); [|lia]. destruct (Nat.ltb_spec i (i + S (length gs))); [|lia].
      cbn [andb]. rewrite Nat.sub_diag. cbn [nth]. apply upd_same.
    + destruct (Nat.leb_spec (S i) j), (Nat.leb_spec i j); try lia; cbn [andb].
      * destruct (Nat.ltb_spec j (S i + length gs)), (Nat.ltb_spec j (i + S (length gs))); try lia.
        -- replace (j - i) with (S (j - S i)) by lia. cbn [nth]. apply matches_agree. intros c Hcc.
           apply (Ha (nth (j - S i) gs [])); [apply nth_In; lia|exact Hcc].
        -- apply upd_other. congruence.
      * apply upd_other. congruence.
Qed.
Lemma layer_inv_ok m r gs : forall i p s, ok_groups r gs -> (forall j, j < length gs -> s (r, i + j) = matches s (nth j gs [])) ->
  exec (layer_inv m gs r i) (p, s) ((p - phs gs s)%Z, fun q => if in_ (length gs) r i q then false else s q).
Proof.
  induction gs as [|g gs IH]; intros i p s Hg Hc.
  - cbn [layer_inv phs fold_right]. rewrite Z.sub_0_r. apply exec_nil. intros q. unfold in_. cbn [length]. rewrite Nat.add_0_r.
    destruct (Nat.leb_spec i (snd q)), (Nat.ltb_spec (snd q) i); try lia; rewrite ?andb_false_r; cbn; rewrite ?andb_false_r; reflexivity.
  - cbn [layer_inv].
    destruct (valid_group r (g :: gs) g i Hg (or_introl eq_refl)) as [Hs Hv].
    eapply exec_app; [apply ungroup_ok; auto; specialize (Hc 0); cbn [nth length] in Hc; rewrite Nat.add_0_r in Hc; apply Hc; lia|].
    assert (Hg' : ok_groups r gs) by (intros g' Hi; apply Hg; right; exact Hi).
    assert (Ha : forall g' c, In g' gs -> In c g' -> upd s (r, i) false (fst c) = s (fst c)).
    { intros g' c H1 H2. apply upd_low. exact (proj2 (proj2 (Hg' g' H1)) c H2). }
    cbn [phs fold_right]. fold (phs gs s). rewrite Z.sub_add_distr, <- (phs_agree _ s gs Ha).
    eapply exec_post; [|apply IH; [exact Hg'|]].
    + intros [a j]. unfold in_. cbn [fst snd length].
      destruct (Nat.eqb_spec a r) as [->|Ne]; cbn [andb]; [|unfold upd, qeq; cbn [fst snd]; destruct (Nat.eqb_spec a r); [lia|]; reflexivity].
      destruct (Nat.eq_dec j i) as [->|].
      * destruct (Nat.leb_spec (S i) i); [lia|]. destruct (Nat.leb_spec i i); [|lia]. destruct (Nat.ltb_spec i (i + S (length gs))); [|lia].
        cbn [andb]. apply upd_same.
      * destruct (Nat.leb_spec (S i) j), (Nat.leb_spec i j); try lia; cbn [andb].
        -- destruct (Nat.ltb_spec j (S i + length gs)), (Nat.ltb_spec j (i + S (length gs))); try lia; try reflexivity.
           apply upd_other. congruence.
        -- apply upd_other. congruence.
    + intros j Hj. rewrite upd_other by (intros E; injection E; lia). specialize (Hc (S j)). cbn [nth length] in Hc.
      replace (S i + j) with (i + S j) by lia. rewrite Hc by lia. symmetry. apply matches_agree. intros c Hcc.
      apply (Ha (nth j gs [])); [apply nth_In; lia|exact Hcc].
Qed.

(** * the groups *)
Lemma groups_concat st : forall cs, concat (fst (groups st cs)) ++ snd (groups st cs) = cs.
Proof.
  induction st as [|k st IH]; intros cs; [reflexivity|]. cbn [groups]. destruct (k <=? length cs); [|reflexivity].
  specialize (IH (skipn k cs)). destruct (groups st (skipn k cs)) as [g r]. cbn [fst snd concat] in *. rewrite <- app_assoc, IH. apply firstn_skipn.
Qed.
Lemma groups_size st : Forall (fun k => k = 2 \/ k = 3) st -> forall cs g, In g (fst (groups st cs)) -> gsize g.
Proof.
  induction 1 as [|k st Hk Hst IH]; intros cs g; [intros []|]. cbn [groups]. destruct (Nat.leb_spec k (length cs)); [|intros []].
  specialize (IH (skipn k cs)). destruct (groups st (skipn k cs)) as [gs r]. cbn [fst In] in *. intros [<-|Hg]; [|auto].
  unfold gsize. rewrite firstn_length_le by lia. exact Hk.
Qed.
Lemma groups_two m : forall cs g, In g (fst (groups (repeat 2 m) cs)) -> length g = 2.
Proof.
  induction m as [|m IH]; intros cs g; [intros []|]. cbn [repeat groups]. destruct (Nat.leb_spec 2 (length cs)); [|intros []].
  specialize (IH (skipn 2 cs)). destruct (groups (repeat 2 m) (skipn 2 cs)) as [gs r]. cbn [fst In] in *. intros [<-|Hg]; [|auto].
  apply firstn_length_le. exact H.
Qed.
Lemma structure_sizes n k : Forall (fun x => x = 2 \/ x = 3) (structure_decider n k).
Proof.
  assert (forall v m, v = 2 \/ v = 3 -> Forall (fun x => x = 2 \/ x = 3) (repeat v m)) as R.
  { intros v m H. apply Forall_forall. intros x Hx. apply repeat_spec in Hx. subst. exact H. }
  destruct k as [k|]; cbn [structure_decider]; [|apply R; auto].
  destruct (n - 2 - k =? 0); [apply R; auto|]. destruct (k <? n - 2 - k); [apply R; auto|]. apply Forall_app. split; apply R; auto.
Qed.
Lemma structure_first n k : 3 <= n -> k <> Some 0 -> exists x st, structure_decider n k = x :: st /\ x <= n.
Proof.
  intros Hn Hk. assert (H2 : exists x st, repeat 2 (n / 2) = x :: st /\ x <= n).
  { pose proof (Nat.div_le_lower_bound n 2 1 ltac:(lia) ltac:(lia)). destruct (n / 2) as [|m]; [lia|]. cbn [repeat]. eexists _, _. split; [reflexivity|lia]. }
  destruct k as [k|]; cbn [structure_decider]; [|exact H2]. destruct (Nat.eqb_spec (n - 2 - k) 0); [exact H2|].
  destruct k as [|k]; [congruence|]. destruct (Nat.ltb_spec (S k) (n - 2 - S k)).
  - cbn [repeat]. eexists _, _. split; [reflexivity|lia].
  - destruct (n - 2 - S k) as [|m]; [lia|]. cbn [repeat app]. eexists _, _. split; [reflexivity|lia].
Qed.
Lemma groups_nonempty n k cs : 3 <= n -> n = length cs -> k <> Some 0 -> fst (groups (structure_decider n k) cs) <> [].
Proof.
  intros Hn E Hk. destruct (structure_first n k Hn Hk) as (x & st & -> & Hx). cbn [groups]. destruct (Nat.leb_spec x (length cs)); [|lia].
  destruct (groups st (skipn x cs)). discriminate.
Qed.
Lemma groups_length gs : (forall g, In g gs -> gsize g) -> 2 * length gs <= length (concat gs).
Proof.
  induction gs as [|g gs IH]; intros H; [cbn; lia|]. cbn [concat length]. rewrite app_length.
  specialize (IH (fun g' Hg => H g' (or_intror Hg))). destruct (H g (or_introl eq_refl)); lia.
Qed.
Lemma matches_app s a b : matches s (a ++ b) = matches s a && matches s b.
Proof. apply forallb_app. Qed.
Lemma matches_concat s gs : matches s (concat gs) = forallb (matches s) gs.
Proof. induction gs as [|g gs IH]; [reflexivity|]. cbn [concat forallb]. rewrite matches_app, IH. reflexivity. Qed.
Lemma NoDup_app_l (A : Type) (a b : list A) : NoDup (a ++ b) -> NoDup a.
Proof. induction a as [|x a IH]; intros H; [constructor|]. inversion H; subst. constructor; [rewrite in_app_iff in *; tauto|auto]. Qed.
Lemma NoDup_app_r (A : Type) (a b : list A) : NoDup (a ++ b) -> NoDup b.
Proof. induction a as [|x a IH]; intros H; [exact H|]. inversion H; auto. Qed.
Lemma NoDup_concat (gs : list (list (qubit * bool))) g : NoDup (map fst (concat gs)) -> In g gs -> NoDup (map fst g).
Proof.
  induction gs as [|x gs IH]; intros H Hi; [destruct Hi|]. cbn [concat] in H. rewrite map_app in H. destruct Hi as [->|Hi].
  - exact (NoDup_app_l _ _ _ H).
  - exact (IH (NoDup_app_r _ _ _ H) Hi).
Qed.
Lemma outputs_fst n r : map fst (outputs n r) = map (fun i => (r, i)) (seq 0 n).
Proof. unfold outputs. rewrite map_map. reflexivity. Qed.
Lemma lay_outputs gs r s : matches (lay gs r 0 s) (outputs (length gs) r) = forallb (matches s) gs.
Proof.
  unfold outputs, matches at 1.
  assert (H : forall l, (forall i, In i l -> i < length gs) -> forallb (fun c => eqb (lay gs r 0 s (fst c)) (snd c)) (map (fun i => (r, i, true)) l) = forallb (fun i => matches s (nth i gs [])) l).
  { induction l as [|i l IH]; intros Hl; [reflexivity|]. cbn [map forallb fst snd]. rewrite IH by (intros; apply Hl; right; assumption).
    f_equal. unfold lay, in_. cbn [fst snd]. rewrite Nat.eqb_refl, Nat.sub_0_r. cbn [andb Nat.add Nat.leb].
    destruct (Nat.ltb_spec i (length gs)); [|specialize (Hl i (or_introl eq_refl)); lia]. destruct (matches s _); reflexivity. }
  rewrite H by (intros i Hi; apply in_seq in Hi; lia). clear H.
  assert (H : forall gs pre, forallb (fun i => matches s (nth i (pre ++ gs) [])) (seq (length pre) (length gs)) = forallb (matches s) gs).
  { clear gs. induction gs as [|g gs IH]; intros pre; [reflexivity|]. cbn [length seq forallb]. rewrite app_nth2, Nat.sub_diag by lia. cbn [nth]. f_equal.
    specialize (IH (pre ++ [g])). rewrite app_length in IH. cbn [length] in IH. rewrite Nat.add_1_r, <- app_assoc in IH. exact IH. }
  exact (H gs []).
Qed.
Lemma lay_low gs r i s q : fst q < r -> lay gs r i s q = s q.
Proof. intros H. unfold lay, in_. destruct (Nat.eqb_spec (fst q) r); [lia|]. reflexivity. Qed.
Lemma lay_high gs r i s q : r < fst q -> lay gs r i s q = s q.
Proof. intros H. unfold lay, in_. destruct (Nat.eqb_spec (fst q) r); [lia|]. reflexivity. Qed.

(** the step from one recursion level to the next *)
Section step.
Variables (cs : list (qubit * bool)) (t : qubit) (r : nat) (k : option nat).
Hypothesis V : valid cs t.
Hypothesis B : before r cs t.
Let gs := fst (groups (structure_decider (length cs) k) cs).
Let rest := snd (groups (structure_decider (length cs) k) cs).
Let cs' := outputs (length gs) r ++ rest.
Lemma cs_eq : cs = concat gs ++ rest.
Proof. symmetry. apply groups_concat. Qed.
Lemma in_gs g c : In g gs -> In c g -> In c cs.
Proof. intros H1 H2. rewrite cs_eq. apply in_or_app. left. apply in_concat. eauto. Qed.
Lemma in_rest c : In c rest -> In c cs.
Proof. intros H. rewrite cs_eq. apply in_or_app. right. exact H. Qed.
Lemma low c : In c cs -> fst (fst c) < r.
Proof. intros H. apply B. right. apply in_map. exact H. Qed.
Lemma gs_ok : ok_groups r gs.
Proof.
  intros g Hg. split; [|split].
  - exact (groups_size _ (structure_sizes _ _) cs g Hg).
  - destruct V as [ND _]. rewrite cs_eq, map_app in ND. exact (NoDup_concat gs g (NoDup_app_l _ _ _ ND) Hg).
  - intros c Hc. apply low, (in_gs g c Hg Hc).
Qed.
Lemma next_valid : valid cs' t.
Proof.
  destruct V as [ND Ht]. split.
  - unfold cs'. rewrite map_app, outputs_fst. rewrite cs_eq, map_app in ND. apply NoDup_app_r in ND.
    assert (H : forall l, NoDup l -> NoDup (map (fun i => (r, i)) l ++ map fst rest)).
    { induction l as [|i l IH]; intros Hl; [exact ND|]. inversion Hl; subst. cbn [map app]. constructor; [|auto].
      rewrite in_app_iff. intros [Hi|Hi]; apply in_map_iff in Hi as (x & E & Hx); [congruence|]. pose proof (low x (in_rest x Hx)) as Hl'. rewrite E in Hl'. cbn in Hl'. lia. }
    apply H, seq_NoDup.
  - unfold cs'. rewrite map_app, outputs_fst, in_app_iff. intros [H|H]; apply in_map_iff in H as (x & E & Hx).
    + pose proof (B t (or_introl eq_refl)) as Hl. rewrite <- E in Hl. cbn in Hl. lia.
    + apply Ht, in_map_iff. exists x. split; [exact E|exact (in_rest x Hx)].
Qed.
Lemma next_before : before (S r) cs' t.
Proof.
  intros q [<-|H]; [pose proof (B t (or_introl eq_refl)); lia|]. unfold cs' in H. rewrite map_app, outputs_fst, in_app_iff in H. destruct H as [H|H].
  - apply in_map_iff in H as (i & <- & _). cbn. lia.
  - apply in_map_iff in H as (c & <- & Hc). pose proof (low c (in_rest c Hc)). lia.
Qed.
Lemma next_clean s : clean_from r s -> clean_from (S r) (lay gs r 0 s).
Proof. intros H a i Ha. rewrite lay_high by (cbn; lia). apply H. lia. Qed.
Lemma next_matches s : matches (lay gs r 0 s) cs' = matches s cs.
Proof.
  unfold cs'. rewrite matches_app, lay_outputs. transitivity (matches s (concat gs ++ rest)); [|rewrite <- cs_eq; reflexivity]. rewrite matches_app, matches_concat. f_equal. apply matches_agree.
  intros c Hc. apply lay_low, low, in_rest, Hc.
Qed.
Lemma next_length : 3 <= length cs -> k <> Some 0 -> length cs' < length cs.
Proof.
  intros Hn Hk. pose proof (groups_nonempty (length cs) k cs Hn eq_refl Hk) as Hne. fold gs in Hne. unfold cs'. rewrite app_length. unfold outputs. rewrite map_length, seq_length.
  pose proof (groups_length gs (fun g Hg => proj1 (gs_ok g Hg))). pose proof (f_equal (@length _) cs_eq) as E. rewrite app_length in E.
  destruct gs; [congruence|]. cbn [length] in *. lia.
Qed.
(** the layer, something that changes [t] only, and the inverse of the layer *)
Lemma down m s p : clean_from r s -> exec (layer m gs r 0) (p, s) ((p + phs gs s)%Z, lay gs r 0 s).
Proof. intros H. apply layer_ok; [apply gs_ok|]. left. intros j. apply H. lia. Qed.
Lemma up m s s' p : clean_from r s -> (forall q, q <> t -> s' q = s q) ->
  exec (layer_inv m gs r 0 ++ del_reg r (length gs)) ((p + phs gs s)%Z, fun q => if qeq q t then s' t else lay gs r 0 s q) (p, s').
Proof.
  intros H E. set (s1 := fun q => if qeq q t then s' t else lay gs r 0 s q). pose proof (B t (or_introl eq_refl)) as Bt.
  assert (Es : forall g c, In g gs -> In c g -> s1 (fst c) = s (fst c)).
  { intros g c H1 H2. pose proof (in_gs g c H1 H2) as Hc. unfold s1. rewrite qneq by (intros Et; apply (proj2 V); rewrite <- Et; apply in_map; exact Hc).
    apply lay_low, low, Hc. }
  eapply exec_app.
  - apply layer_inv_ok; [apply gs_ok|]. intros j Hj. transitivity (matches s (nth j gs [])).
    + unfold s1. rewrite qneq by (intros Et; rewrite <- Et in Bt; cbn in Bt; lia). unfold lay, in_. cbn [fst snd Nat.add]. rewrite Nat.eqb_refl, Nat.sub_0_r.
      cbn [andb Nat.leb]. destruct (Nat.ltb_spec j (length gs)); [reflexivity|lia].
    + apply matches_agree. intros c Hc. symmetry. apply (Es (nth j gs [])); [apply nth_In; exact Hj|exact Hc].
  - rewrite (phs_agree s1 s gs) by exact Es. replace (p + phs gs s - phs gs s)%Z with p by lia.
    assert (Ef : forall q, (if in_ (length gs) r 0 q then false else s1 q) = s' q).
    { intros q. unfold s1. destruct (qeq_spec q t) as [->|Nq].
      - unfold in_. destruct (Nat.eqb_spec (fst t) r); [lia|]. reflexivity.
      - rewrite E by exact Nq. unfold lay. destruct (in_ (length gs) r 0 q) eqn:Ei; [|reflexivity]. unfold in_ in Ei.
        rewrite !andb_true_iff, Nat.eqb_eq in Ei. destruct Ei as [[Ei _] _]. destruct q as [a i]. cbn in Ei. subst a. symmetry. apply H. lia. }
    eapply exec_pre; [exact Ef|]. apply exec_del_reg. intros i Hi. rewrite E by (intros Et; rewrite <- Et in Bt; cbn in Bt; lia). apply H. lia.
Qed.
End step.

Theorem hybrid_ok m : forall fuel cs t k r, length cs <= fuel -> valid cs t -> before r cs t -> cs <> [] ->
  exists prog, hybrid_mcx fuel m cs t k r = Some prog /\ forall s, clean_from r s -> flips_iff prog cs t s.
Proof.
  induction fuel as [|fuel IH]; intros cs t k r Hl V B Hne; [destruct cs; [congruence|cbn in Hl; lia]|]. cbn [hybrid_mcx].
  destruct ((length cs <=? (if m then 2 else 3)) || match k with Some 0 => true | _ => false end) eqn:Eb.
  - eexists. split; [reflexivity|]. intros s _. apply gray_ok. exact V.
  - apply orb_false_iff in Eb as [Eb1 Eb2]. assert (Hn : 3 <= length cs) by (destruct (Nat.leb_spec (length cs) (if m then 2 else 3)); [discriminate|destruct m; lia]).
    assert (Hk : k <> Some 0) by (intros ->; discriminate).
    pose proof (next_length cs t r k V B Hn Hk) as Hnl. pose proof (next_valid cs t r k V B) as V'. pose proof (next_before cs t r k B) as B'.
    pose proof (next_matches cs t r k B) as Hm. pose proof (next_clean cs r k) as Hcl.
    pose proof (down cs t r k V B m) as D. pose proof (up cs t r k V B m) as U.
    pose proof (groups_nonempty (length cs) k cs Hn eq_refl Hk) as Hge.
    destruct (groups (structure_decider (length cs) k) cs) as [gs rest]. cbn [fst snd] in *.
    destruct (IH (outputs (length gs) r ++ rest) t (option_map (fun k0 => k0 - length gs) k) (S r)) as (core & -> & Hc).
    + lia.
    + exact V'.
    + exact B'.
    + destruct gs; [congruence|]. discriminate.
    + eexists. split; [reflexivity|]. intros s Hs p. eapply exec_app; [exact (D s p Hs)|]. eapply exec_app; [exact (Hc (lay gs r 0 s) (Hcl s Hs) _)|].
      rewrite Hm. eapply exec_pre; [|exact (U s (upd s t (xorb (matches s cs) (s t))) p Hs (fun q Hq => upd_other s t _ q Hq))].
      intros q. cbv beta. rewrite upd_same. unfold upd. destruct (qeq_spec q t) as [->|]; [|reflexivity]. f_equal. apply lay_low, (B t (or_introl eq_refl)).
Qed.

Theorem hybrid_mcp_ok : forall fuel cs t r, length cs <= fuel -> valid cs t -> before r cs t -> 2 <= length cs ->
  exists u qs u', hybrid_mcp fuel cs t r = Some (u, qs, u') /\ forall s, clean_from r s -> s t = false -> phase_iff u qs u' cs s.
Proof.
  induction fuel as [|fuel IH]; intros cs t r Hl V B Hne; [lia|]. cbn [hybrid_mcp].
  destruct (Nat.leb_spec (length cs) 2) as [H2|H2].
  - assert (Hs : gsize cs) by (left; lia). pose proof (group_ok true cs t) as G. pose proof (ungroup_ok true cs t) as U.
    destruct cs as [|a [|b [|? ?]]]; cbn [length] in *; try lia. cbn [group_gate gphase] in G, U. eexists _, _, _. split; [reflexivity|].
    intros s _ Ht p. exists p, (upd s t (matches s [a; b])). specialize (G p s Hs V Ht). rewrite Z.add_0_r in G. split; [exact G|]. split.
    + cbn [forallb]. rewrite upd_same, andb_true_r. reflexivity.
    + specialize (U p (upd s t (matches s [a; b])) Hs V). rewrite Z.sub_0_r in U.
      assert (Hm : matches (upd s t (matches s [a; b])) [a; b] = matches s [a; b]).
      { apply matches_agree. intros c Hc. apply upd_other. intros E. apply (proj2 V). rewrite <- E. apply in_map, Hc. }
      rewrite Hm, upd_same in U. eapply exec_post; [|exact (U eq_refl)]. intros q. unfold upd. destruct (qeq_spec q t) as [->|]; [symmetry; exact Ht|reflexivity].
  - assert (Hk : @None nat <> Some 0) by discriminate. assert (Hn : 3 <= length cs) by lia.
    pose proof (next_length cs t r None V B Hn Hk) as Hnl. pose proof (next_valid cs t r None V B) as V'. pose proof (next_before cs t r None B) as B'.
    pose proof (next_matches cs t r None B) as Hm. pose proof (next_clean cs r None) as Hcl.
    pose proof (down cs t r None V B true) as D. pose proof (up cs t r None V B true) as U.
    assert (Hge : 2 <= length (outputs (length (fst (groups (structure_decider (length cs) None) cs))) r ++ snd (groups (structure_decider (length cs) None) cs))).
    { pose proof (groups_nonempty (length cs) None cs Hn eq_refl Hk) as Hge. pose proof (groups_concat (structure_decider (length cs) None) cs) as Ec.
      pose proof (groups_two (length cs / 2) cs) as Hgs. change (repeat 2 (length cs / 2)) with (structure_decider (length cs) None) in Hgs.
      destruct (groups (structure_decider (length cs) None) cs) as [gs rest]. cbn [fst snd] in *. rewrite app_length. unfold outputs. rewrite map_length, seq_length.
      destruct gs as [|g [|g' gs]]; [congruence| |cbn; lia]. cbn [length]. destruct rest; [|cbn; lia]. exfalso.
      cbn [concat] in Ec. rewrite !app_nil_r in Ec. subst g. specialize (Hgs cs (or_introl eq_refl)). lia. }
    destruct (groups (structure_decider (length cs) None) cs) as [gs rest]. cbn [fst snd] in *.
    destruct (IH (outputs (length gs) r ++ rest) t (S r)) as (u & qs & u' & -> & Hc); [lia|exact V'|exact B'|exact Hge|].
    eexists _, _, _. split; [reflexivity|]. intros s Hs Ht p.
    assert (Lt : lay gs r 0 s t = s t) by (apply lay_low, (B t (or_introl eq_refl))).
    destruct (Hc (lay gs r 0 s) (Hcl s Hs) ltac:(rewrite Lt; exact Ht) (p + phs gs s)%Z) as (p1 & s1 & E1 & E2 & E3).
    exists p1, s1. split; [exact (exec_app _ _ _ _ _ (D s p Hs) E1)|]. split; [rewrite E2; apply Hm|].
    eapply exec_app; [exact E3|]. eapply exec_pre; [|exact (U s s p Hs (fun q _ => eq_refl))].
    intros q. cbv beta. destruct (qeq_spec q t) as [->|]; [exact Lt|reflexivity].
Qed.
