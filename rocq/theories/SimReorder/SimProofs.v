(** Proofs for the reordering of circuits before simulation. *)
From Verif.Lib Require Import Trace.
From Verif.PermDag Require Import PermProofs.
From Verif.Toposort Require Import AncProofs TopoProofs.
From Verif.SimReorder Require Import SimModel SimSpec.
From Coq Require Import Bool.
Local Open Scope nat_scope.

Lemma mem_in x l : mem x l = true <-> In x l.
Proof. unfold mem. rewrite existsb_exists. split; [intros (y & I & E); apply Nat.eqb_eq in E; now subst|intros I; exists x; split; [exact I|apply Nat.eqb_refl]]. Qed.
Lemma mem_not x l : mem x l = false <-> ~ In x l.
Proof. rewrite <- mem_in. destruct (mem x l); split; congruence. Qed.

(** * the causal graph *)
Lemma touch_fold new : forall ks d nodes, NoDup ks ->
  let '(d', nodes') := fold_left (touch new) ks (d, nodes) in
  (forall k, dict_get d' k = if mem k ks then Some new else dict_get d k) /\
  (forall v, In v nodes' <-> In v nodes \/ exists k, In k ks /\ dict_get d k = Some v).
Proof.
  induction ks as [|a ks IH]; intros d nodes ND; cbn [fold_left].
  - split; [reflexivity|]. intros v. split; [now left|]. intros [H|(k & [] & _)]. exact H.
  - inversion_clear ND as [|? ? N1 N2]. cbn [touch].
    specialize (IH (dict_set d a new) (match dict_get d a with Some v => nodes ++ [v] | None => nodes end) N2).
    destruct (fold_left (touch new) ks _) as [d' nodes']. destruct IH as [G I]. split.
    + intros k. rewrite G. cbn [mem existsb]. fold (mem k ks). cbn [dict_set dict_get]. destruct (Nat.eqb_spec k a) as [->|NE]; cbn [orb]; [|reflexivity].
      destruct (mem a ks) eqn:E; reflexivity.
    + intros v. rewrite I. cbn [dict_set dict_get]. split.
      * intros [H|(k & Ik & E)].
        -- destruct (dict_get d a) eqn:E; [|tauto]. apply in_app_iff in H. destruct H as [H|[<-|[]]]; [tauto|]. right. exists a. split; [now left|exact E].
        -- destruct (Nat.eqb_spec k a) as [->|NE]; [tauto|]. right. exists k. split; [now right|exact E].
      * intros [H|(k & [->|Ik] & E)].
        -- left. destruct (dict_get d a); [apply in_app_iff; now left|exact H].
        -- left. rewrite E. apply in_elt.
        -- right. exists k. split; [exact Ik|]. destruct (Nat.eqb_spec k a) as [->|NE]; [tauto|exact E].
Qed.

Definition bits := node -> list nat.
Definition qb : bits := fun nd => sq (fst nd).
Definition cb : bits := fun nd => sc (fst nd).
Definition dn : node := (dflt, false).
(** v is the last node before j with bit k *)
Definition last_on (f : bits) (data : list node) (k j v : nat) : Prop :=
  v < j /\ In k (f (nth v data dn)) /\ forall w, v < w -> w < j -> ~ In k (f (nth w data dn)).
Definition tracks (f : bits) (data : list node) (d : dict) : Prop :=
  forall k v, dict_get d k = Some v <-> last_on f data k (length data) v.
Definition edges_ok (data : list node) (G : list (list nat)) : Prop :=
  length G = length data /\ forall j v, j < length data -> (In v (nth j G []) <->
    (exists k, In k (qb (nth j data dn)) /\ last_on qb data k j v) \/ (exists k, In k (cb (nth j data dn)) /\ last_on cb data k j v)).

Lemma last_on_snoc f data nd k j v : j <= length data -> last_on f (data ++ [nd]) k j v <-> last_on f data k j v.
Proof.
  intros L. unfold last_on. split; intros (A & B & C).
  - rewrite app_nth1 in B by lia. split; [exact A|]. split; [exact B|]. intros w W1 W2. specialize (C w W1 W2). now rewrite app_nth1 in C by lia.
  - split; [exact A|]. split; [now rewrite app_nth1 by lia|]. intros w W1 W2. rewrite app_nth1 by lia. auto.
Qed.
Lemma tracks_snoc f data nd d d' : tracks f data d ->
  (forall k, dict_get d' k = if mem k (f nd) then Some (length data) else dict_get d k) -> tracks f (data ++ [nd]) d'.
Proof.
  intros T E k v. rewrite E, app_length. cbn [length]. destruct (mem k (f nd)) eqn:M.
  - apply mem_in in M. split.
    + intros H. injection H as <-. split; [lia|]. split; [rewrite app_nth2, Nat.sub_diag by lia; exact M|]. lia.
    + intros (A & B & C). destruct (Nat.eq_dec v (length data)) as [->|NE]; [reflexivity|]. exfalso. apply (C (length data)); [lia|lia|].
      rewrite app_nth2, Nat.sub_diag by lia. exact M.
  - apply mem_not in M. rewrite (T k v). rewrite <- (last_on_snoc f data nd k (length data) v) by lia. unfold last_on. split; intros (A & B & C).
    + split; [lia|]. split; [exact B|]. intros w W1 W2. destruct (Nat.eq_dec w (length data)) as [->|NE]; [rewrite app_nth2, Nat.sub_diag by lia; exact M|]. apply C; lia.
    + destruct (Nat.eq_dec v (length data)) as [->|NE]; [rewrite app_nth2, Nat.sub_diag in B by lia; contradiction|]. split; [lia|]. split; [exact B|]. intros w W1 W2. apply C; lia.
Qed.

Lemma causal_ok data : Forall (fun nd => NoDup (qb nd) /\ NoDup (cb nd)) data ->
  let '(dq, dc, G) := fold_left add_node data ([], [], []) in tracks qb data dq /\ tracks cb data dc /\ edges_ok data G.
Proof.
  induction data as [|nd data IH] using rev_ind; intros W.
  - cbn. split; [|split].
    1, 2: intros k v; cbn; split; [discriminate|intros (A & _); lia].
    split; [reflexivity|]. cbn. lia.
  - rewrite fold_left_app. cbn [fold_left]. apply Forall_app in W. destruct W as [W Wn]. inversion_clear Wn as [|? ? [Nq Nc] _]. specialize (IH W).
    destruct (fold_left add_node data ([], [], [])) as [[dq dc] G]. destruct IH as (Tq & Tc & L & E). unfold add_node.
    pose proof (touch_fold (length G) (sq (fst nd)) dq [] Nq) as H1. destruct (fold_left (touch (length G)) (sq (fst nd)) (dq, [])) as [dq' n1]. destruct H1 as [D1 I1].
    pose proof (touch_fold (length G) (sc (fst nd)) dc n1 Nc) as H2. destruct (fold_left (touch (length G)) (sc (fst nd)) (dc, n1)) as [dc' n2]. destruct H2 as [D2 I2].
    rewrite L in D1, D2. split; [exact (tracks_snoc qb data nd dq dq' Tq D1)|]. split; [exact (tracks_snoc cb data nd dc dc' Tc D2)|].
    split; [rewrite !app_length, L; reflexivity|]. intros j v Lj. rewrite app_length in Lj. cbn [length] in Lj. destruct (Nat.eq_dec j (length data)) as [->|NE].
    + rewrite <- L at 1. rewrite app_nth2, Nat.sub_diag by lia. cbn [nth]. rewrite nodup_In, I2, I1.
      rewrite !app_nth2, Nat.sub_diag by lia. cbn [nth]. split.
      * intros [[[]|(k & Ik & Ek)]|(k & Ik & Ek)]; [left|right]; exists k; (split; [exact Ik|]); rewrite last_on_snoc by lia; [now apply Tq|now apply Tc].
      * intros [(k & Ik & Ek)|(k & Ik & Ek)]; rewrite last_on_snoc in Ek by lia; [left; right|right]; exists k; (split; [exact Ik|]); [now apply Tq|now apply Tc].
    + rewrite !app_nth1 by lia. rewrite E by lia. split; (intros [(k & Ik & Ek)|(k & Ik & Ek)]; [left|right]; exists k; (split; [exact Ik|])).
      1, 2: rewrite last_on_snoc by lia; exact Ek.
      1, 2: rewrite last_on_snoc in Ek by lia; exact Ek.
Qed.

(** * paths *)
Inductive steps (G : list (list nat)) : nat -> nat -> nat -> Prop :=
| steps_one u v : In v (nth u G []) -> steps G 1 u v
| steps_cons k u v w : In v (nth u G []) -> steps G k v w -> steps G (S k) u w.
Definition path (G : list (list nat)) (u v : nat) : Prop := exists k, steps G k u v.
Lemma path_edge G u v : In v (nth u G []) -> path G u v.
Proof. intros I. exists 1. now constructor. Qed.
Lemma path_cons G u v w : In v (nth u G []) -> path G v w -> path G u w.
Proof. intros I (k & K). exists (S k). now apply steps_cons with v. Qed.
Lemma path_trans G u v w : path G u v -> path G v w -> path G u w.
Proof. intros (k & S) P. induction S as [u v I|k u v x I S IH]; [now apply path_cons with v|]. apply path_cons with v; [exact I|]. now apply IH. Qed.

Section loop.
Context (G : list (list nat)) (DEC : forall u v, In v (nth u G []) -> v < u).
Lemma steps_lt k u v : steps G k u v -> k + v <= u.
Proof. intros S. induction S as [u v I|k u v w I S IH]; [specialize (DEC _ _ I); lia|]. specialize (DEC _ _ I). lia. Qed.
Lemma path_lt u v : path G u v -> v < u.
Proof. intros (k & S). pose proof (steps_lt _ _ _ S). destruct S; lia. Qed.
Lemma path_bound u v : path G u v -> u < length G.
Proof. intros (k & S). destruct S as [u v I|k u v w I S]; (destruct (Nat.lt_ge_cases u (length G)); [assumption|rewrite nth_overflow in I by lia; destruct I]). Qed.

(** the removed nodes are closed under successors *)
Definition up (alive : list nat) : Prop := forall u v, path G u v -> In v alive -> In u alive.

Lemma grow_mono alive : forall fuel s x, In x s -> In x (grow fuel G alive s).
Proof. induction fuel as [|fuel IH]; intros s x I; [exact I|]. cbn [grow]. apply IH, nodup_In, in_app_iff. now left. Qed.
Lemma grow_nodup alive : forall fuel s, NoDup s -> NoDup (grow fuel G alive s).
Proof. induction fuel as [|fuel IH]; intros s N; [exact N|]. cbn [grow]. apply IH, NoDup_nodup. Qed.
Lemma grow_sound alive e : forall fuel s, (forall x, In x s -> path G e x /\ In x alive) -> forall x, In x (grow fuel G alive s) -> path G e x /\ In x alive.
Proof.
  induction fuel as [|fuel IH]; intros s H x I; [now apply H|]. cbn [grow] in I. revert x I. apply IH. intros x I. apply nodup_In, in_app_iff in I.
  destruct I as [I|I]; [now apply H|]. apply in_flat_map in I. destruct I as (v & Iv & I). apply filter_In in I. destruct I as [I M]. apply mem_in in M.
  split; [|exact M]. apply path_trans with v; [now apply H|now apply path_edge].
Qed.
Lemma grow_complete alive : up alive -> forall fuel s k y x, In y s -> steps G k y x -> k <= fuel -> In x alive -> In x (grow fuel G alive s).
Proof.
  intros U. induction fuel as [|fuel IH]; intros s k y x Iy S L A; [destruct S; lia|]. cbn [grow]. destruct S as [y x I|k y z x I S].
  - apply grow_mono, nodup_In, in_app_iff. right. apply in_flat_map. exists y. split; [exact Iy|]. apply filter_In. split; [exact I|now apply mem_in].
  - apply (IH _ k z x); [|exact S|lia|exact A]. apply nodup_In, in_app_iff. right. apply in_flat_map. exists y. split; [exact Iy|]. apply filter_In. split; [exact I|].
    apply mem_in. apply (U z x); [now exists k|exact A].
Qed.
Lemma descendants_spec alive e x : up alive -> (In x (descendants G alive e) <-> path G e x /\ In x alive).
Proof.
  intros U. unfold descendants. split.
  - apply grow_sound. intros y I. apply nodup_In, filter_In in I. destruct I as [I M]. apply mem_in in M. split; [now apply path_edge|exact M].
  - intros [(k & S) A]. pose proof (steps_lt _ _ _ S) as LT. assert (B : e < length G) by (apply path_bound with x; now exists k).
    destruct S as [e x I|k e z x I S].
    + apply grow_mono, nodup_In, filter_In. split; [exact I|now apply mem_in].
    + apply (grow_complete alive U _ _ k z x); [|exact S|lia|exact A]. apply nodup_In, filter_In. split; [exact I|]. apply mem_in. apply (U z x); [now exists k|exact A].
Qed.
Lemma descendants_nodup alive e : NoDup (descendants G alive e).
Proof. apply grow_nodup, NoDup_nodup. Qed.

Context (topo : list nat) (TOPO : topological G topo).
Lemma topo_nodup : NoDup topo.
Proof. apply (Permutation_NoDup (proj1 TOPO)), seq_NoDup. Qed.
Lemma before_rev {A} (l : list A) u v : before l u v -> before (rev l) v u.
Proof. intros (a & b & c & ->). exists (rev c), (rev b), (rev a). rewrite rev_app_distr. cbn [rev]. rewrite rev_app_distr. cbn [rev]. now rewrite <- !app_assoc. Qed.
Lemma path_topo u v : path G u v -> before topo u v.
Proof.
  intros (k & S). induction S as [u v I|k u v w I S IH].
  - apply TOPO; [apply path_bound with v; now apply path_edge|exact I].
  - apply before_trans with v; [exact topo_nodup| |exact IH]. apply TOPO; [apply path_bound with v; now apply path_edge|exact I].
Qed.

Definition compatible (es : list nat) : Prop := ForallOrdPairs (fun e e' => ~ path G e e') es /\ NoDup es.

Lemma evaluate_ok : forall es alive out, compatible es -> (forall e, In e es -> In e alive) -> up alive ->
  NoDup (out ++ alive) -> (forall x, In x (out ++ alive) <-> x < length G) ->
  (forall j i, path G j i -> In j out -> before out i j) ->
  exists l alive', evaluate G topo alive es = Some l /\ up alive' /\ (forall e, In e es -> ~ In e alive') /\
    NoDup ((out ++ l) ++ alive') /\ (forall x, In x ((out ++ l) ++ alive') <-> x < length G) /\
    (forall j i, path G j i -> In j (out ++ l) -> before (out ++ l) i j).
Proof.
  induction es as [|e es IH]; intros alive out [C ND] EA U N M O; cbn [evaluate].
  - exists [], alive. rewrite app_nil_r. split; [reflexivity|]. split; [exact U|]. split; [intros e []|]. auto.
  - inversion_clear C as [|? ? C1 C2]. inversion_clear ND as [|? ? ND1 ND2].
    assert (Ae : In e alive) by (apply EA; now left). rewrite (proj2 (mem_in e alive) Ae).
    set (ds := descendants G alive e). set (l := filter (fun x => mem x ds) (rev topo) ++ [e]). set (alive' := filter (fun x => negb (mem x l)) alive).
    assert (DS : forall x, In x ds <-> path G e x /\ In x alive) by (intros x; now apply descendants_spec).
    assert (Il : forall x, In x l <-> x = e \/ In x ds).
    { intros x. unfold l. rewrite in_app_iff, filter_In, mem_in, <- in_rev. cbn. split; [intros [H|[H|[]]]; [tauto|left; congruence]|]. intros [->|I]; [tauto|]. left. split; [|exact I].
      apply (Permutation_in _ (proj1 TOPO)), in_seq. apply DS in I. destruct I as [P _]. pose proof (path_lt _ _ P). pose proof (path_bound _ _ P). lia. }
    assert (Ia : forall x, In x alive' <-> In x alive /\ ~ In x l).
    { intros x. unfold alive'. rewrite filter_In. rewrite <- mem_in with (l := l). destruct (mem x l); cbn; intuition congruence. }
    assert (Nl : NoDup l).
    { unfold l. apply NoDup_app; [apply NoDup_filter, NoDup_rev, topo_nodup|constructor; [intros []|constructor]|]. intros x I [<-|[]].
      apply filter_In in I. destruct I as [_ I]. apply mem_in, DS in I. destruct I as [P _]. apply path_lt in P. lia. }
    assert (LA : forall x, In x l -> In x alive). { intros x I. apply Il in I. destruct I as [->|I]; [exact Ae|]. now apply DS in I. }
    assert (U' : up alive').
    { intros u v P I. apply Ia in I. destruct I as [I NI]. apply Ia. split; [now apply (U u v)|]. intros K. apply NI. apply Il. right. apply DS. split; [|exact I].
      apply Il in K. destruct K as [->|K]; [exact P|]. apply DS in K. apply path_trans with u; tauto. }
    assert (NO : NoDup out /\ NoDup alive /\ forall x, In x out -> In x alive -> False).
    { clear - N. induction out as [|a out IHo]; cbn in *; [split; [constructor|split; [exact N|intros x []]]|]. inversion_clear N as [|? ? N1 N2]. destruct (IHo N2) as (A & B & C).
      split; [constructor; [|exact A]; intros K; apply N1, in_app_iff; now left|]. split; [exact B|]. intros x [<-|I] J; [apply N1, in_app_iff; now right|now apply (C x)]. }
    destruct NO as (No & Na & Dj).
    destruct (IH alive' (out ++ l)) as (l' & alive'' & E' & U'' & X'' & N'' & M'' & O'').
    + split; assumption.
    + intros e' I. apply Ia. split; [apply EA; now right|]. rewrite Il. intros [->|K]; [contradiction|]. apply DS in K. rewrite Forall_forall in C1. now apply (C1 e').
    + exact U'.
    + apply NoDup_app; [apply NoDup_app; [exact No|exact Nl|]|apply NoDup_filter; exact Na|].
      * intros x Io Ix. apply (Dj x Io). now apply LA.
      * intros x Io Ix. apply Ia in Ix. destruct Ix as [Ix NI]. apply in_app_iff in Io. destruct Io as [Io|Io]; [now apply (Dj x)|contradiction].
    + intros x. rewrite <- M, !in_app_iff, Ia. split; [intros [[I|I]|I]; [tauto|right; now apply LA|tauto]|]. intros [I|I]; [tauto|]. destruct (in_dec Nat.eq_dec x l); tauto.
    + intros j i P I. apply in_app_iff in I. destruct I as [I|I].
      * apply before_app_l. now apply O.
      * destruct (in_dec Nat.eq_dec i out) as [Ii|Ii]; [now apply before_app_lr|].
        assert (Pe : path G e i). { apply Il in I. destruct I as [->|I]; [exact P|]. apply DS in I. apply path_trans with j; tauto. }
        assert (Ai : In i alive).
        { assert (K : In i (out ++ alive)). { apply M. pose proof (path_lt _ _ Pe). pose proof (path_bound _ _ Pe). lia. } apply in_app_iff in K. tauto. }
        assert (Di : In i ds) by (apply DS; auto).
        assert (Ri : In i (filter (fun x => mem x ds) (rev topo))).
        { assert (K : In i l) by (apply Il; now right). unfold l in K. apply in_app_iff in K. destruct K as [K|[<-|[]]]; [exact K|]. apply path_lt in Pe. lia. }
        apply before_app_r. unfold l. apply Il in I. destruct I as [->|I].
        -- now apply before_last.
        -- apply before_snoc. apply before_filter; [now apply mem_in|now apply mem_in|]. apply before_rev. now apply path_topo.
    + exists (l ++ l'), alive''. rewrite E'. split; [reflexivity|]. rewrite !app_assoc. split; [exact U''|]. split; [|auto].
      intros e' [<-|I]; [|now apply X'']. intros K.
      assert (D : NoDup (((out ++ l) ++ l') ++ alive'')) by exact N''. assert (I1 : In e ((out ++ l) ++ l')). { rewrite !in_app_iff. left. right. apply Il. now left. }
      apply in_split in I1. destruct I1 as (p & q & E1). rewrite E1 in D. rewrite <- app_assoc in D. cbn [app] in D. apply NoDup_remove_2 in D. apply D. rewrite !in_app_iff. tauto.
Qed.
End loop.

(** * sorting *)
Definition cost_le (x y : nat * option nat) : Prop := cost_lt (snd y) (snd x) = false.
Lemma insert_perm x l : Permutation (x :: l) (insert x l).
Proof. induction l as [|y l IH]; cbn [insert]; [reflexivity|]. destruct (cost_lt (snd x) (snd y)); [reflexivity|]. rewrite perm_swap. now apply perm_skip. Qed.
Lemma cost_le_trans x y z : cost_le x y -> cost_le y z -> cost_le x z.
Proof. unfold cost_le, cost_lt. destruct (snd x), (snd y), (snd z); try discriminate; try reflexivity. rewrite !Nat.ltb_ge. lia. Qed.
Lemma insert_sorted x l : ForallOrdPairs cost_le l -> ForallOrdPairs cost_le (insert x l).
Proof.
  induction l as [|y l IH]; intros S; cbn [insert]; [repeat constructor|]. inversion_clear S as [|? ? S1 S2]. destruct (cost_lt (snd x) (snd y)) eqn:E.
  - assert (XY : cost_le x y). { unfold cost_le, cost_lt in *. destruct (snd x), (snd y); try discriminate; try reflexivity. apply Nat.ltb_lt in E. apply Nat.ltb_ge. lia. }
    constructor; [|now constructor]. constructor; [exact XY|]. rewrite Forall_forall in S1 |- *. intros z I. apply cost_le_trans with y; auto.
  - constructor; [|now apply IH]. rewrite Forall_forall in S1 |- *. intros z I. apply (Permutation_in _ (Permutation_sym (insert_perm x l))) in I. destruct I as [<-|I]; [exact E|auto].
Qed.
Lemma sort_ok l : Permutation l (sort l) /\ ForallOrdPairs cost_le (sort l).
Proof.
  unfold sort. assert (G : forall l acc, ForallOrdPairs cost_le acc -> Permutation (l ++ acc) (fold_left (fun acc x => insert x acc) l acc) /\ ForallOrdPairs cost_le (fold_left (fun acc x => insert x acc) l acc)).
  { clear l. induction l as [|x l IH]; intros acc S; cbn [fold_left app]; [split; [reflexivity|exact S]|]. destruct (IH (insert x acc) (insert_sorted x acc S)) as [P O]. split; [|exact O].
    rewrite <- P. rewrite Permutation_middle. apply Permutation_app_head. apply insert_perm. }
  destruct (G l [] (FOP_nil _)) as [P O]. rewrite app_nil_r in P. auto.
Qed.

(** * putting it together *)
Lemma node_costs_in G data i c : In (i, c) (node_costs G data) <->
  exists a f, nth_error data i = Some (a, f) /\ ((f = true /\ c = None) \/ (f = false /\ pref a = true /\ c = Some (length (descendants G (seq 0 (length G)) i)))).
Proof.
  unfold node_costs. rewrite in_flat_map. split.
  - intros (k & _ & I). destruct (nth_error data k) as [[a [|]]|] eqn:E.
    + destruct I as [I|[]]. injection I as -> <-. exists a, true. tauto.
    + destruct (pref a) eqn:P; [|destruct I]. destruct I as [I|[]]. injection I as -> <-. exists a, false. tauto.
    + destruct I.
  - intros (a & f & E & H). exists i. split; [apply in_seq; assert (i < length data) by (apply nth_error_Some; congruence); lia|]. rewrite E.
    destruct H as [[-> ->]|(-> & -> & ->)]; now left.
Qed.
Lemma node_costs_nodup G data : NoDup (map fst (node_costs G data)).
Proof.
  unfold node_costs. generalize (seq_NoDup (length data) 0). induction (seq 0 (length data)) as [|i l IH]; intros N; [constructor|]. inversion_clear N as [|? ? N1 N2].
  cbn [flat_map]. rewrite map_app. apply NoDup_app; [|now apply IH|].
  - destruct (nth_error data i) as [[a [|]]|]; [repeat constructor; intros []| |constructor]. destruct (pref a); [repeat constructor; intros []|constructor].
  - intros x I1 I2. assert (x = i). { destruct (nth_error data i) as [[a [|]]|]; [|destruct (pref a)|]; cbn in I1; tauto || (destruct I1 as [<-|[]]; reflexivity). }
    subst x. apply N1. clear - I2. induction l as [|k l IHl]; [destruct I2|]. cbn [flat_map] in I2. rewrite map_app, in_app_iff in I2. destruct I2 as [I2|I2]; [left|right; now apply IHl].
    destruct (nth_error data k) as [[a [|]]|]; [|destruct (pref a)|]; cbn in I2; tauto || (destruct I2 as [<-|[]]; reflexivity).
Qed.
Lemma fop_map {A B} (f : A -> B) (R : A -> A -> Prop) (Q : B -> B -> Prop) l :
  (forall x y, In x l -> In y l -> R x y -> Q (f x) (f y)) -> ForallOrdPairs R l -> ForallOrdPairs Q (map f l).
Proof.
  intros H S. induction S as [|a l S1 S2 IH]; [constructor|]. cbn [map]. constructor.
  - rewrite Forall_forall in S1 |- *. intros y I. apply in_map_iff in I. destruct I as (x & <- & I). apply H; [now left|now right|auto].
  - apply IH. intros x y Ix Iy. apply H; now right.
Qed.

Lemma path_of_overlap (data : list node) G f : edges_ok data G ->
  (forall j v k, j < length data -> In k (f (nth j data dn)) -> last_on f data k j v -> In v (nth j G [])) ->
  forall j i k, i < j -> j < length data -> In k (f (nth i data dn)) -> In k (f (nth j data dn)) -> path G j i.
Proof.
  intros E H. induction j as [j IH] using lt_wf_ind. intros i k L Lj Ii Ij.
  assert (X : exists v, i <= v /\ last_on f data k j v).
  { assert (X : forall m, m <= j - i -> 0 < m -> (exists v, i <= v /\ v < i + m /\ In k (f (nth v data dn)) /\ forall w, v < w -> w < i + m -> ~ In k (f (nth w data dn)))).
    { induction m as [|m IHm]; intros Lm Pm; [lia|]. destruct (in_dec Nat.eq_dec k (f (nth (i + m) data dn))) as [I|NI].
      - exists (i + m). split; [lia|]. split; [lia|]. split; [exact I|]. intros w; lia.
      - destruct m as [|m]; [rewrite Nat.add_0_r in NI; contradiction|]. destruct IHm as (v & A & B & C & D); [lia|lia|]. exists v. split; [exact A|]. split; [lia|]. split; [exact C|].
        intros w W1 W2. destruct (Nat.eq_dec w (i + S m)) as [->|NE]; [exact NI|]. apply D; lia. }
    destruct (X (j - i)) as (v & A & B & C & D); [lia|lia|]. exists v. split; [exact A|]. replace (i + (j - i)) with j in * by lia. split; [exact B|]. split; [exact C|exact D]. }
  destruct X as (v & Lv & LO). assert (Ev : In v (nth j G [])) by (apply (H j v k); assumption). destruct LO as (A & B & _).
  destruct (Nat.eq_dec v i) as [->|NE]; [now apply path_edge|]. apply path_cons with v; [exact Ev|]. apply (IH v A i k); (lia || assumption).
Qed.

Lemma reorder_correct circ qubits topo : wf circ qubits -> topological (causal_graph (with_final circ qubits)) topo ->
  exists out, reorder_circuit circ qubits topo = Some out /\ faithful circ out.
Proof.
  intros [NQ W] TP. unfold reorder_circuit. set (data := with_final circ qubits) in *. set (G := causal_graph data) in *.
  assert (Ld : length data = length circ + length qubits) by (unfold data, with_final; now rewrite app_length, !map_length).
  assert (Dc : forall i, i < length circ -> nth i data dn = (instr_at circ i, false)).
  { intros i L. unfold data, with_final. rewrite app_nth1 by (now rewrite map_length). unfold dn. rewrite (map_nth (fun a => (a, false))). reflexivity. }
  assert (Df : forall i, i < length qubits -> nth (length circ + i) data dn = (SI [nth i qubits 0] [] false, true)).
  { intros i L. unfold data, with_final. rewrite app_nth2; rewrite map_length; [|lia]. replace (length circ + i - length circ) with i by lia.
    rewrite (nth_indep _ dn ((fun q => (SI [q] [] false, true)) 0)) by (now rewrite map_length). now rewrite (map_nth (fun q => (SI [q] [] false, true))). }
  assert (WD : Forall (fun nd => NoDup (qb nd) /\ NoDup (cb nd)) data).
  { apply Forall_app. split; apply Forall_map; rewrite Forall_forall in *.
    - intros a I. destruct (W a I) as (_ & A & B & _). split; assumption.
    - intros q _. split; repeat constructor. intros []. }
  pose proof (causal_ok data WD) as CO. assert (EG : snd (fold_left add_node data ([], [], [])) = G) by reflexivity.
  destruct (fold_left add_node data ([], [], [])) as [[dq dc] G']. cbn [snd] in EG. subst G'. destruct CO as (_ & _ & LG & EO).
  assert (DEC : forall u v, In v (nth u G []) -> v < u).
  { intros u v I. destruct (Nat.lt_ge_cases u (length data)) as [L|L]; [|rewrite nth_overflow in I by lia; destruct I].
    apply EO in I; [|exact L]. destruct I as [(k & _ & A & _)|(k & _ & A & _)]; exact A. }
  assert (Hq : forall j v k, j < length data -> In k (qb (nth j data dn)) -> last_on qb data k j v -> In v (nth j G [])) by (intros; apply EO; [assumption|left; eauto]).
  assert (Hc : forall j v k, j < length data -> In k (cb (nth j data dn)) -> last_on cb data k j v -> In v (nth j G [])) by (intros; apply EO; [assumption|right; eauto]).
  (* nothing depends on a final_op *)
  assert (NF : forall u f, length circ <= f -> ~ In f (nth u G [])).
  { intros u f Lf I. pose proof (DEC _ _ I) as LT. destruct (Nat.lt_ge_cases u (length data)) as [L|L]; [|rewrite nth_overflow in I by lia; destruct I].
    apply EO in I; [|exact L]. replace f with (length circ + (f - length circ)) in I by lia. replace u with (length circ + (u - length circ)) in I by lia.
    unfold last_on in I. rewrite !Df in I by lia. cbn in I. destruct I as [(k & [Ek|[]] & _ & [Ek'|[]] & _)|(k & [] & _)].
    assert (EQ : nth (f - length circ) qubits 0 = nth (u - length circ) qubits 0) by congruence. apply (proj1 (NoDup_nth qubits 0) NQ) in EQ; lia. }
  assert (NFP : forall u f, length circ <= f -> ~ path G u f).
  { intros u f Lf (k & S). induction S as [u f I|k u v w I S IH]; [now apply (NF u f)|now apply IH]. }
  assert (U0 : up G (seq 0 (length G))) by (intros u v P _; apply in_seq; pose proof (path_bound G _ _ P); lia).
  destruct (sort_ok (node_costs G data)) as [PS SS].
  assert (IN : forall i c, In (i, c) (sort (node_costs G data)) -> In (i, c) (node_costs G data)) by (intros i c I; exact (Permutation_in _ (Permutation_sym PS) I)).
  assert (NE : forall i a f, nth_error data i = Some (a, f) -> i < length data /\ nth i data dn = (a, f)).
  { intros i a f E. split; [apply nth_error_Some; congruence|]. now apply nth_error_nth with (d := dn) in E. }
  assert (CP : compatible G (map fst (sort (node_costs G data)))).
  { split; [|apply (Permutation_NoDup (Permutation_map fst PS)), node_costs_nodup].
    apply fop_map with (R := cost_le); [|exact SS]. intros [i c] [j d] Ii Ij LE P. cbn [fst] in P. apply IN in Ii, Ij. apply node_costs_in in Ii, Ij.
    destruct Ii as (a & f & Ea & Ha), Ij as (b & g & Eb & Hb). apply NE in Ea, Eb. destruct Ea as [La Ea], Eb as [Lb Eb].
    assert (Lj : j < length circ). { destruct (Nat.lt_ge_cases j (length circ)); [assumption|]. exfalso. now apply (NFP i j). }
    destruct Hb as [[-> _]|(-> & _ & ->)]; [rewrite Dc in Eb by exact Lj; congruence|]. unfold cost_le, cost_lt in LE. cbn [snd] in LE.
    destruct Ha as [[-> ->]|(-> & _ & ->)]; [discriminate|]. apply Nat.ltb_ge in LE.
    assert (LT : length (j :: descendants G (seq 0 (length G)) j) <= length (descendants G (seq 0 (length G)) i)).
    { apply NoDup_incl_length.
      - constructor; [|apply descendants_nodup]. intros K. apply (descendants_spec G DEC) in K; [|exact U0]. destruct K as [K _]. apply (path_lt G DEC) in K. lia.
      - intros x [<-|I]; apply (descendants_spec G DEC); try exact U0.
        + split; [exact P|]. apply in_seq. lia.
        + apply (descendants_spec G DEC) in I; [|exact U0]. split; [apply path_trans with j; tauto|tauto]. }
    cbn [length] in LT. lia. }
  destruct (evaluate_ok G DEC topo TP (map fst (sort (node_costs G data))) (seq 0 (length G)) []) as (l & alive' & E & U' & X & N & M & O).
  - exact CP.
  - intros e I. apply in_map_iff in I. destruct I as ((i & c) & <- & I). apply IN, node_costs_in in I. destruct I as (a & f & Ea & _). apply NE in Ea. apply in_seq. cbn [fst]. lia.
  - exact U0.
  - cbn [app]. apply seq_NoDup.
  - cbn [app]. intros x. rewrite in_seq. lia.
  - intros j i _ [].
  - rewrite E. eexists. split; [reflexivity|]. cbn [app] in N, M, O.
    assert (A0 : forall x, x < length circ -> In x l).
    { intros x Lx. assert (I : In x (l ++ alive')) by (apply M; lia). apply in_app_iff in I. destruct I as [I|I]; [exact I|]. exfalso.
      rewrite Forall_forall in W. destruct (W (instr_at circ x)) as (Q & _ & _ & IQ); [apply nth_In; exact Lx|].
      destruct (sq (instr_at circ x)) as [|q qs] eqn:ES; [congruence|]. assert (Iq : In q qubits) by (apply IQ; now left).
      apply In_nth with (d := 0) in Iq. destruct Iq as (m & Lm & Em).
      assert (P : path G (length circ + m) x).
      { apply (path_of_overlap data G qb (conj LG EO) Hq (length circ + m) x q); [lia|lia| |].
        - rewrite Dc by exact Lx. unfold qb. cbn [fst]. rewrite ES. now left.
        - rewrite Df by exact Lm. cbn. now left. }
      assert (IF : In (length circ + m) alive') by (now apply (U' _ x)).
      refine (X (length circ + m) _ IF). apply in_map_iff. exists (length circ + m, None). split; [reflexivity|].
      apply (Permutation_in _ PS), node_costs_in. exists (SI [nth m qubits 0] [] false), true. split; [|tauto].
      rewrite <- (Df m Lm). apply nth_error_nth'. lia. }
    assert (NL : NoDup l). { clear - N. revert N. induction l as [|a l IH]; cbn; intros N; [constructor|]. inversion_clear N as [|? ? N1 N2]. constructor; [|now apply IH]. intros K. apply N1, in_app_iff. now left. }
    split.
    + apply NoDup_Permutation; [apply seq_NoDup|now apply NoDup_filter|]. intros x. rewrite in_seq, filter_In, Nat.ltb_lt. split; [intros; split; [apply A0; lia|lia]|lia].
    + intros i j Lij Lj OV. apply before_filter; [apply Nat.ltb_lt; lia|apply Nat.ltb_lt; lia|]. apply O; [|apply A0; lia].
      destruct OV as [(k & K1 & K2)|(k & K1 & K2)].
      * apply (path_of_overlap data G qb (conj LG EO) Hq j i k); [lia|lia| |]; rewrite Dc by lia; assumption.
      * apply (path_of_overlap data G cb (conj LG EO) Hc j i k); [lia|lia| |]; rewrite Dc by lia; assumption.
Qed.

(** running the instructions in the new order *)
Lemma faithful_run (S : Type) (circ : list sinstr) (act : nat -> S -> S) out :
  (forall i j s, i < length circ -> j < length circ -> ~ overlap (instr_at circ i) (instr_at circ j) -> act i (act j s) = act j (act i s)) ->
  faithful circ out -> forall s, run nat S act out s = run nat S act (seq 0 (length circ)) s.
Proof.
  intros CM [P O] s. symmetry.
  apply (reorder nat S eq act (fun i j => overlap (instr_at circ i) (instr_at circ j) /\ i < length circ /\ j < length circ) (fun i => i < length circ));
    try congruence.
  - intros i j t Li Lj NC. apply CM; tauto.
  - apply seq_NoDup.
  - intros i I. apply in_seq in I. lia.
  - intros i j (OV & Li & Lj) B. apply O; [now apply before_seq in B|exact Lj|exact OV].
  - intros i j (OV & Li & Lj). split; [|tauto]. destruct OV as [(k & A & B)|(k & A & B)]; [left|right]; eauto.
Qed.
