From Verif.Mcx Require Import McxModel McxSpec.
Local Open Scope nat_scope.

(** * X on the controls with control state 0 *)
Definition neg (cs : list (qubit * bool)) (q : qubit) : bool :=
  fold_right (fun c acc => xorb (negb (snd c) && qeq q (fst c)) acc) false cs.
Definition fl (cs : list (qubit * bool)) (s : bstate) : bstate := fun q => xorb (s q) (neg cs q).
Lemma exec_flips cs : forall p s, exec (flips cs) (p, s) (p, fl cs s).
Proof.
  induction cs as [|[q b] cs IH]; intros p s; unfold flips; cbn [flat_map].
  - apply exec_nil. intros q. unfold fl. cbn. rewrite xorb_false_r. reflexivity.
  - fold (flips cs). cbn [snd fst]. destruct b; cbn [app].
    + eapply exec_post; [|apply IH]. intros x. unfold fl. cbn [neg fold_right fst snd negb andb]. fold (neg cs x). rewrite xorb_false_l. reflexivity.
    + eapply exec_cons; [reflexivity|]. eapply exec_post; [|apply IH]. intros x. unfold fl. cbn [neg fold_right fst snd negb andb]. fold (neg cs x).
      unfold upd. destruct (qeq_spec x q) as [->|]; destruct (neg cs _); destruct (s _); reflexivity.
Qed.
Lemma fl_fl cs s q : fl cs (fl cs s) q = s q.
Proof. unfold fl. destruct (s q), (neg cs q); reflexivity. Qed.
Lemma neg_out cs q : ~ In q (map fst cs) -> neg cs q = false.
Proof.
  induction cs as [|[c b] cs IH]; intros H; [reflexivity|]. cbn [neg fold_right fst snd]. fold (neg cs q). cbn [map fst In] in H.
  rewrite IH by tauto. destruct (qeq_spec q c) as [->|]; [tauto|]. rewrite andb_false_r. reflexivity.
Qed.
Lemma neg_in cs : NoDup (map fst cs) -> forall c, In c cs -> neg cs (fst c) = negb (snd c).
Proof.
  induction cs as [|[c b] cs IH]; intros ND [q b'] H; [destruct H|]. cbn [map fst] in ND. inversion ND as [|? ? Hn ND']; subst.
  cbn [neg fold_right fst snd]. fold (neg cs q). destruct H as [E|H].
  - injection E as -> ->. rewrite qeq_refl, (neg_out cs q Hn). destruct b'; reflexivity.
  - pose proof (IH ND' (q, b') H) as E. cbn [fst snd] in E. rewrite E. destruct (qeq_spec q c) as [->|]; [|rewrite andb_false_r, xorb_false_l; reflexivity].
    destruct Hn. apply in_map_iff. exists (c, b'). auto.
Qed.
Lemma fl_in cs s : NoDup (map fst cs) -> forall c, In c cs -> fl cs s (fst c) = eqb (s (fst c)) (snd c).
Proof. intros ND c H. unfold fl. rewrite (neg_in cs ND c H). destruct (s (fst c)), (snd c); reflexivity. Qed.
Lemma fl_out cs s q : ~ In q (map fst cs) -> fl cs s q = s q.
Proof. intros H. unfold fl. rewrite neg_out by exact H. apply xorb_false_r. Qed.
Lemma fl_all cs s : NoDup (map fst cs) -> all_set (fl cs s) (map fst cs) = matches s cs.
Proof.
  intros ND. unfold all_set, matches.
  assert (forall l, incl l cs -> forallb (fl cs s) (map fst l) = forallb (fun c => eqb (s (fst c)) (snd c)) l) as H.
  { induction l as [|c l IH]; intros Hi; [reflexivity|]. cbn [map forallb]. rewrite (fl_in cs s ND c), IH; [reflexivity| |]; intros; try apply Hi; cbn; auto.
    intros x Hx. apply Hi. right. exact Hx. }
  apply H, incl_refl.
Qed.
Lemma exec_wrap cs l p s t v : ~ In t (map fst cs) -> (forall p, exec l (p, fl cs s) (p, upd (fl cs s) t v)) -> exec (wrap cs l) (p, s) (p, upd s t v).
Proof.
  intros Ht H. unfold wrap. eapply exec_app; [apply exec_flips|]. eapply exec_app; [apply H|]. eapply exec_post; [|apply exec_flips].
  intros q. unfold fl, upd. destruct (qeq_spec q t) as [->|]; [rewrite neg_out by exact Ht; apply xorb_false_r|]. destruct (s q), (neg cs q); reflexivity.
Qed.
(** with a phase *)
Lemma exec_wrap' cs l p d s t v : ~ In t (map fst cs) -> (forall p, exec l (p, fl cs s) ((p + d)%Z, upd (fl cs s) t v)) -> exec (wrap cs l) (p, s) ((p + d)%Z, upd s t v).
Proof.
  intros Ht H. unfold wrap. eapply exec_app; [apply exec_flips|]. eapply exec_app; [apply H|]. eapply exec_post; [|apply exec_flips].
  intros q. unfold fl, upd. destruct (qeq_spec q t) as [->|]; [rewrite neg_out by exact Ht; apply xorb_false_r|]. destruct (s q), (neg cs q); reflexivity.
Qed.
Lemma inv_app l1 l2 : inv (l1 ++ l2) = inv l2 ++ inv l1.
Proof. unfold inv. rewrite map_app, rev_app_distr. reflexivity. Qed.
Lemma inv_flips cs : forall p s, exec (inv (flips cs)) (p, s) (p, fl cs s).
Proof.
  induction cs as [|[q b] cs IH]; intros p s; unfold flips; cbn [flat_map].
  - apply exec_nil. intros q. unfold fl. cbn. rewrite xorb_false_r. reflexivity.
  - fold (flips cs). cbn [snd fst]. rewrite inv_app. destruct b.
    + cbn [inv map rev]. rewrite app_nil_r. eapply exec_post; [|apply IH]. intros x. unfold fl. cbn [neg fold_right fst snd negb andb]. fold (neg cs x). rewrite xorb_false_l. reflexivity.
    + eapply exec_app; [apply IH|]. cbn [inv map rev inv1 app]. eapply exec_cons; [reflexivity|]. apply exec_nil.
      intros x. unfold fl. cbn [neg fold_right fst snd negb andb]. fold (neg cs x). unfold upd.
      destruct (qeq_spec x q) as [->|]; destruct (neg cs _); destruct (s _); reflexivity.
Qed.

(** * gray *)
Lemma gray_ok cs t s : valid cs t -> flips_iff (gray_mcx cs t) cs t s.
Proof.
  intros [ND Ht] p. unfold gray_mcx. apply exec_wrap; [exact Ht|]. intros p'. eapply exec_cons; [reflexivity|]. apply exec_nil.
  intros q. rewrite fl_all by exact ND. rewrite (fl_out cs s t Ht). reflexivity.
Qed.

(** * one group of a layer *)
Definition gsize (g : list (qubit * bool)) : Prop := length g = 2 \/ length g = 3.
Definition gphase (g : list (qubit * bool)) (s : bstate) : Z :=
  match g with
  | [a; b; c] => (if matches s [a; b] then 2 else 0) + (if matches s g then 2 else 0)
  | _ => 0
  end%Z.
Lemma qneq p q : p <> q -> qeq p q = false.
Proof. destruct (qeq_spec p q); tauto. Qed.
Lemma group_ok m g out p s : gsize g -> valid g out -> s out = false -> exec (group_gate m g out) (p, s) ((p + gphase g s)%Z, upd s out (matches s g)).
Proof.
  intros Hs [ND Ho] Hc. destruct g as [|[a x] [|[b y] [|[c z] [|? ?]]]]; try (destruct Hs as [Hs|Hs]; discriminate Hs); clear Hs.
  - cbn [group_gate fst snd gphase]. apply exec_wrap'; [exact Ho|]. intros p'. rewrite Z.add_0_r.
    pose proof (fl_in _ s ND (a, x) ltac:(cbn; auto)) as Ea. pose proof (fl_in _ s ND (b, y) ltac:(cbn; auto)) as Eb.
    pose proof (fl_out _ s out Ho) as Eo. rewrite Hc in Eo. cbn [fst snd] in Ea, Eb. set (f := fl _ s) in *.
    cbn [matches forallb fst snd]. rewrite <- Ea, <- Eb, andb_true_r. destruct m.
    + eapply exec_cons; [apply step_gand_clean; exact Eo|]. apply exec_nil. reflexivity.
    + unfold pt2. eapply exec_cons; [reflexivity|]. eapply exec_cons; [reflexivity|]. eapply exec_cons; [reflexivity|].
      cbn [all_set forallb]. rewrite Eo, !andb_true_r, !andb_false_r, xorb_false_r, !Z.add_0_r. apply exec_nil. reflexivity.
  - cbn [group_gate fst snd gphase]. apply exec_wrap'; [exact Ho|]. intros p'.
    pose proof (fl_in _ s ND (a, x) ltac:(cbn; auto)) as Ea. pose proof (fl_in _ s ND (b, y) ltac:(cbn; auto)) as Eb.
    pose proof (fl_in _ s ND (c, z) ltac:(cbn; auto)) as Ec.
    pose proof (fl_out _ s out Ho) as Eo. rewrite Hc in Eo. cbn [fst snd] in Ea, Eb, Ec. set (f := fl _ s) in *.
    cbn [matches forallb fst snd]. rewrite <- Ea, <- Eb, <- Ec, !andb_true_r. unfold pt3.
    do 5 (eapply exec_cons; [reflexivity|]). cbn [all_set forallb]. rewrite Eo, !andb_true_r, !andb_false_r, xorb_false_r.
    rewrite !Z.add_0_r. rewrite Z.add_assoc. apply exec_nil. reflexivity.
Qed.
Lemma ungroup_ok m g out p s : gsize g -> valid g out -> s out = matches s g -> exec (inv (group_gate m g out)) (p, s) ((p - gphase g s)%Z, upd s out false).
Proof.
  intros Hs [ND Ho] Hc. destruct g as [|[a x] [|[b y] [|[c z] [|? ?]]]]; try (destruct Hs as [Hs|Hs]; discriminate Hs); clear Hs.
  - cbn [group_gate fst snd gphase]. unfold wrap. rewrite !inv_app, <- app_assoc. rewrite Z.sub_0_r.
    eapply exec_app; [apply inv_flips|].
    pose proof (fl_in _ s ND (a, x) ltac:(cbn; auto)) as Ea. pose proof (fl_in _ s ND (b, y) ltac:(cbn; auto)) as Eb.
    pose proof (fl_out _ s out Ho) as Eo. rewrite Hc in Eo. cbn [fst snd] in Ea, Eb. set (f := fl _ s) in *.
    cbn [matches forallb fst snd] in Eo. rewrite <- Ea, <- Eb, andb_true_r in Eo.
    assert (Na : qeq a out = false) by (apply qneq; intros ->; apply Ho; cbn; auto).
    assert (Nb : qeq b out = false) by (apply qneq; intros ->; apply Ho; cbn; auto).
    eapply exec_app; [apply (exec_post _ _ p (upd f out false)); [reflexivity|]|].
    + destruct m.
      * cbn [inv map rev inv1 app]. eapply exec_cons; [apply step_unand; exact Eo|]. apply exec_nil. reflexivity.
      * cbn [pt2 inv map rev inv1 app]. do 3 (eapply exec_cons; [reflexivity|]). cbn [all_set forallb]. unfold upd at 1 2 3 4 5. rewrite qeq_refl, Na, Nb, Eo.
        rewrite !andb_true_r. destruct (f a), (f b); cbn [andb xorb]; rewrite ?Z.add_0_r; apply exec_nil; reflexivity.
    + eapply exec_post; [|apply inv_flips]. intros q. unfold fl at 1, upd. destruct (qeq_spec q out) as [->|].
      * rewrite neg_out by exact Ho. reflexivity.
      * unfold f. exact (fl_fl _ s q).
  - cbn [group_gate fst snd gphase]. unfold wrap. rewrite !inv_app, <- app_assoc.
    eapply exec_app; [apply inv_flips|].
    pose proof (fl_in _ s ND (a, x) ltac:(cbn; auto)) as Ea. pose proof (fl_in _ s ND (b, y) ltac:(cbn; auto)) as Eb.
    pose proof (fl_in _ s ND (c, z) ltac:(cbn; auto)) as Ec.
    pose proof (fl_out _ s out Ho) as Eo. rewrite Hc in Eo. cbn [fst snd] in Ea, Eb, Ec. set (f := fl _ s) in *.
    cbn [matches forallb fst snd] in Eo |- *. rewrite <- Ea, <- Eb, <- Ec, !andb_true_r in *.
    assert (Na : qeq a out = false) by (apply qneq; intros ->; apply Ho; cbn; auto).
    assert (Nb : qeq b out = false) by (apply qneq; intros ->; apply Ho; cbn; auto).
    assert (Nc : qeq c out = false) by (apply qneq; intros ->; apply Ho; cbn; auto).
    eapply exec_app; [apply (exec_post _ _ (p - ((if f a && f b then 2 else 0) + (if f a && (f b && f c) then 2 else 0)))%Z (upd f out false)); [reflexivity|]|].
    + cbn [pt3 inv map rev inv1 app]. do 5 (eapply exec_cons; [reflexivity|]). cbn [all_set forallb]. unfold upd at 1 2 3 4 5 6 7 8 9 10 11 12 13. rewrite qeq_refl, Na, Nb, Nc, Eo.
      rewrite !andb_true_r. destruct (f a), (f b), (f c); cbn [andb xorb]; cbn [Z.opp];
      match goal with |- exec [] (?p1, _) (?p2, _) => replace p1 with p2 by lia end; apply exec_nil; reflexivity.
    + eapply exec_post; [|apply inv_flips]. intros q. unfold fl at 1, upd. destruct (qeq_spec q out) as [->|].
      * rewrite neg_out by exact Ho. reflexivity.
      * unfold f. exact (fl_fl _ s q).
Qed.
