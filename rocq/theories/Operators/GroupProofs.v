(** Proofs for GroupModel. *)
From Coq Require Import Permutation.
From Verif.Operators Require Import GroupModel.

Lemma memb_In x l : memb x l = true <-> In x l.
Proof. unfold memb. rewrite existsb_exists. split; [intros (y & H & E); apply Nat.eqb_eq in E; congruence|intros H; exists x; split; [exact H|apply Nat.eqb_refl]]. Qed.
Lemma memb_false x l : memb x l = false <-> ~ In x l.
Proof. rewrite <- memb_In. symmetry. apply not_true_iff_false. Qed.

Lemma argmax_In f l : forall best, In (argmax_from f best l) (best :: l).
Proof.
  induction l as [|v l IH]; intros best; cbn [argmax_from]; [left; reflexivity|].
  specialize (IH (if f best <? f v then v else best)). destruct (f best <? f v); cbn in *; intuition.
Qed.
Lemma pick_In sat deg l : forall best, In (pick sat deg best l) (best :: l).
Proof.
  induction l as [|v l IH]; intros best; cbn [pick]; [left; reflexivity|].
  match goal with |- context[pick sat deg ?b l] => specialize (IH b); assert (b = v \/ b = best) by (destruct (sat best <? sat v), ((sat v =? sat best) && (deg best <? deg v)); auto) end.
  cbn in *. intuition congruence.
Qed.

Lemma filter_le {A} (f : A -> bool) l : length (filter f l) <= length l.
Proof. induction l as [|a l IH]; cbn; [lia|]. destruct (f a); cbn; lia. Qed.
Lemma filter_shorter {A} (f : A -> bool) l x : In x l -> f x = false -> length (filter f l) < length l.
Proof.
  induction l as [|a l IH]; intros H E; [contradiction|]. cbn. destruct H as [->|H].
  - rewrite E. assert (Q := filter_le f l). lia.
  - specialize (IH H E). destruct (f a); cbn; lia.
Qed.

Definition proper (n : nat) (adj : nat -> nat -> bool) (c : coloring) : Prop :=
  forall u v k, u < n -> v < n -> adj u v = true -> c u = Some k -> c v = Some k -> False.
Definition total (n : nat) (c : coloring) : Prop := forall v, v < n -> c v <> None.

Section colour.
Variable n : nat.
Variable adj : nat -> nat -> bool.
Hypothesis sym : forall u v, adj u v = adj v u.
Hypothesis irr : forall u, adj u u = false.

Lemma indep_fold l : forall s, (forall x y, In x s -> In y s -> adj x y = false) ->
  let s' := fold_left (fun s v => if forallb (fun w => negb (adj v w)) s then s ++ [v] else s) l s in
  (forall x y, In x s' -> In y s' -> adj x y = false) /\ (forall x, In x s -> In x s') /\ (forall x, In x s' -> In x s \/ In x l).
Proof.
  induction l as [|v l IH]; intros s H; cbn [fold_left]; [cbn; auto|]. cbv zeta.
  destruct (forallb (fun w => negb (adj v w)) s) eqn:E.
  - assert (F : forall w, In w s -> adj v w = false) by (intros w Hw; rewrite forallb_forall in E; apply negb_true_iff, E, Hw).
    destruct (IH (s ++ [v])) as (H1 & H2 & H3).
    { intros x y Hx Hy. apply in_app_iff in Hx, Hy. cbn in Hx, Hy. destruct Hx as [Hx|[<-|[]]], Hy as [Hy|[<-|[]]]; auto. rewrite sym. auto. }
    split; [exact H1|]. split; [intros x Hx; apply H2, in_app_iff; auto|]. intros x Hx. apply H3 in Hx. rewrite in_app_iff in Hx. cbn in *. intuition.
  - destruct (IH s H) as (H1 & H2 & H3). split; [exact H1|]. split; [exact H2|]. intros x Hx. apply H3 in Hx. cbn. intuition.
Qed.
Lemma setc_fold s k : forall (c : coloring) u, fold_left (fun c v => setc c v k) s c u = if memb u s then Some k else c u.
Proof.
  induction s as [|v s IH]; intros c u; cbn [fold_left]; [reflexivity|]. rewrite IH. cbn [memb existsb]. unfold memb, setc.
  destruct (existsb (Nat.eqb u) s), (u =? v); reflexivity.
Qed.

Lemma rlf_loop_ok fuel : forall unc cur c, length unc <= fuel ->
  (forall v, v < n -> c v = None <-> In v unc) -> (forall v, In v unc -> v < n) ->
  (forall v k, v < n -> c v = Some k -> k < cur) -> proper n adj c ->
  exists c', rlf_loop fuel n adj unc cur c = Some c' /\ total n c' /\ proper n adj c'.
Proof.
  induction fuel as [|fuel IH]; intros unc cur c L U B K P.
  - destruct unc; [|cbn in L; lia]. exists c. split; [reflexivity|]. split; [|exact P]. intros v Hv H. apply U in H; auto.
  - destruct unc as [|u rest]; [exists c; split; [reflexivity|]; split; [|exact P]; intros v Hv H; apply U in H; auto|].
    cbn [rlf_loop]. set (unc := u :: rest) in *. set (first := argmax_from _ _ _).
    assert (Hf : In first unc) by apply argmax_In.
    destruct (indep_fold unc [first]) as (I1 & I2 & I3). { intros x y [<-|[]] [<-|[]]. apply irr. }
    cbv zeta in I1, I2, I3. set (s := fold_left _ unc [first]) in *.
    assert (Hs : forall x, In x s -> In x unc) by (intros x Hx; apply I3 in Hx; destruct Hx as [[<-|[]]|Hx]; auto).
    assert (E : forall v, fold_left (fun c v => setc c v cur) s c v = if memb v s then Some cur else c v) by (intros; apply setc_fold).
    set (c' := fold_left (fun c v => setc c v cur) s c) in *. clearbody c'.
    apply IH.
    + assert (Hfs : In first s) by (apply I2; left; reflexivity).
      assert (length (filter (fun v => negb (memb v s)) unc) < length unc); [|lia].
      apply (filter_shorter _ _ first); [exact Hf|]. apply memb_In in Hfs. rewrite Hfs. reflexivity.
    + intros v Hv. rewrite E, filter_In, negb_true_iff. destruct (memb v s) eqn:Em; [split; [discriminate|intros [_ H]; discriminate]|]. rewrite U by exact Hv. tauto.
    + intros v Hv. apply filter_In in Hv. apply B. tauto.
    + intros v k Hv. rewrite E. destruct (memb v s); [intros [= <-]; lia|]. intros Hk. apply K in Hk; [lia|exact Hv].
    + intros x y k Hx Hy Ha. rewrite !E. destruct (memb x s) eqn:Ex, (memb y s) eqn:Ey.
      * intros _ _. apply memb_In in Ex, Ey. rewrite I1 in Ha by assumption. discriminate.
      * intros [= <-] Hk. apply K in Hk; lia.
      * intros Hk [= <-]. apply K in Hk; lia.
      * eauto.
Qed.

Lemma least_free_ok used : forall fuel k, (forall j, j < k -> In j used) -> length (nodup Nat.eq_dec used) <= fuel + k ->
  exists r, least_free fuel used k = Some r /\ ~ In r used.
Proof.
  induction fuel as [|fuel IH]; intros k H L; cbn [least_free]; destruct (memb k used) eqn:E.
  - exfalso. apply memb_In in E. assert (length (seq 0 (S k)) <= length (nodup Nat.eq_dec used)).
    { apply NoDup_incl_length; [apply seq_NoDup|]. intros x Hx. apply in_seq in Hx. apply nodup_In. destruct (Nat.eq_dec x k); [subst; exact E|apply H; lia]. }
    rewrite seq_length in H0. lia.
  - exists k. split; [reflexivity|]. apply memb_false. exact E.
  - apply IH; [|lia]. intros j Hj. destruct (Nat.eq_dec j k); [subst; apply memb_In; exact E|apply H; lia].
  - exists k. split; [reflexivity|]. apply memb_false. exact E.
Qed.
Lemma neighbour_colors_In c v u k : u < n -> adj v u = true -> c u = Some k -> In k (neighbour_colors n adj c v).
Proof.
  intros Hu Ha Hc. unfold neighbour_colors. apply nodup_In, in_flat_map. exists u. rewrite in_seq. split; [lia|]. rewrite Ha, Hc. left. reflexivity.
Qed.
Lemma neighbour_colors_length c v : length (neighbour_colors n adj c v) <= n.
Proof.
  unfold neighbour_colors. assert (Q : forall l : list nat, length (nodup Nat.eq_dec l) <= length l).
  { induction l as [|x l IHl]; cbn; [lia|]. destruct (in_dec Nat.eq_dec x l); cbn; lia. }
  eapply Nat.le_trans; [apply Q|]. assert (F : forall l, length (flat_map (fun u => if adj v u then match c u with Some k => [k] | None => [] end else []) l) <= length l).
  { induction l as [|x l IHl]; cbn; [lia|]. rewrite app_length. destruct (adj v x), (c x); cbn; lia. }
  specialize (F (seq 0 n)). rewrite seq_length in F. exact F.
Qed.

Lemma dsatur_loop_ok fuel : forall unc sat c, length unc <= fuel ->
  (forall v, v < n -> c v = None <-> In v unc) -> (forall v, In v unc -> v < n) -> proper n adj c ->
  exists c', dsatur_loop fuel n adj unc sat c = Some c' /\ total n c' /\ proper n adj c'.
Proof.
  induction fuel as [|fuel IH]; intros unc sat c L U B P.
  - destruct unc; [|cbn in L; lia]. exists c. split; [reflexivity|]. split; [|exact P]. intros v Hv H. apply U in H; auto.
  - destruct unc as [|u rest]; [exists c; split; [reflexivity|]; split; [|exact P]; intros v Hv H; apply U in H; auto|].
    cbn [dsatur_loop]. set (unc := u :: rest) in *. set (v := pick _ _ _ _). assert (Hv : In v unc) by apply pick_In.
    destruct (least_free_ok (neighbour_colors n adj c v) n 0 ltac:(intros; lia)) as (k & -> & Hk).
    { unfold neighbour_colors. rewrite nodup_fixed_point by apply NoDup_nodup. assert (Q := neighbour_colors_length c v). unfold neighbour_colors in Q. lia. }
    apply IH.
    + assert (length (filter (fun w => negb (w =? v)) unc) < length unc); [|lia].
      apply (filter_shorter _ _ v); [exact Hv|]. rewrite Nat.eqb_refl. reflexivity.
    + intros w Hw. unfold setc. rewrite filter_In, negb_true_iff. destruct (Nat.eqb_spec w v); [split; [discriminate|intros [_ X]; discriminate]|]. rewrite U by exact Hw. tauto.
    + intros w Hw. apply filter_In in Hw. apply B. tauto.
    + intros x y k' Hx Hy Ha. unfold setc. destruct (Nat.eqb_spec x v), (Nat.eqb_spec y v); subst.
      * rewrite irr in Ha. discriminate.
      * intros [= <-] E. apply Hk. apply (neighbour_colors_In c v y); assumption.
      * intros E [= <-]. apply Hk. apply (neighbour_colors_In c v x); try assumption. rewrite sym. exact Ha.
      * eauto.
Qed.
Lemma rlf_ok : exists c, rlf_coloring n adj = Some c /\ total n c /\ proper n adj c.
Proof.
  apply rlf_loop_ok; [rewrite seq_length; lia| | | |].
  - intros v Hv. rewrite in_seq. split; [lia|reflexivity].
  - intros v Hv. apply in_seq in Hv. lia.
  - discriminate.
  - intros x y k _ _ _ H. discriminate.
Qed.
Lemma dsatur_ok : exists c, dsatur_coloring n adj = Some c /\ total n c /\ proper n adj c.
Proof.
  unfold dsatur_coloring. destruct (Nat.eqb_spec n 0) as [E0|E0]; [exists (fun _ => None); split; [reflexivity|]; split; [intros v Hv; lia|intros x y k Hx; lia]|].
  set (v := argmax_from _ _ _). assert (Hv : v < n).
  { assert (Q := argmax_In (degree n adj) (seq 1 (n - 1)) 0). fold v in Q. destruct Q as [<-|Q]; [lia|]. apply in_seq in Q. lia. }
  apply dsatur_loop_ok.
  - assert (Q : forall l0, length (filter (fun w => negb (w =? v)) l0) <= length l0) by (induction l0 as [|x l0 Q]; cbn; [lia|]; destruct (negb (x =? v)); cbn; lia). eapply Nat.le_trans; [apply Q|]. rewrite seq_length. lia.
  - intros w Hw. unfold setc. rewrite filter_In, in_seq, negb_true_iff. destruct (Nat.eqb_spec w v); [split; [discriminate|intros [_ X]; discriminate]|]. split; [intros _; split; [lia|reflexivity]|reflexivity].
  - intros w Hw. apply filter_In in Hw. destruct Hw as [Hw _]. apply in_seq in Hw. lia.
  - intros x y k Hx Hy Ha. unfold setc. destruct (Nat.eqb_spec x v), (Nat.eqb_spec y v); try discriminate. subst. rewrite irr in Ha. discriminate.
Qed.
Lemma find_coloring_ok : exists c, find_coloring n adj = Some c /\ total n c /\ proper n adj c.
Proof.
  unfold find_coloring. destruct rlf_ok as (c1 & -> & T1 & P1), dsatur_ok as (c2 & -> & T2 & P2).
  destruct (max_color n c1 <? max_color n c2); eauto.
Qed.
End colour.

Lemma max_color_ge n c v k : v < n -> c v = Some k -> k <= max_color n c.
Proof.
  intros Hv Hc. unfold max_color.
  assert (Mono : forall l m, m <= fold_left (fun m v => match c v with Some k => Nat.max m k | None => m end) l m).
  { induction l as [|x l IH]; intros m; cbn; [lia|]. destruct (c x); [|apply IH]. specialize (IH (Nat.max m n0)). lia. }
  assert (G : forall l m, In v l -> k <= fold_left (fun m v => match c v with Some k => Nat.max m k | None => m end) l m).
  { induction l as [|x l IH]; intros m H; [contradiction|]. cbn. destruct H as [->|H]; [|apply IH; exact H]. rewrite Hc. eapply Nat.le_trans; [|apply Mono]. lia. }
  apply G. apply in_seq. lia.
Qed.

Lemma map_nth_seq {B} (l : list B) d : map (fun i => nth i l d) (seq 0 (length l)) = l.
Proof. induction l as [|x l IH]; [reflexivity|]. cbn [length seq map nth]. f_equal. rewrite <- seq_shift, map_map. exact IH. Qed.

(** splitting a list by a key *)
Lemma split_by_key {B} (f : nat -> B) (c : coloring) l : forall m, (forall p, In p l -> exists k, c p = Some k /\ k < m) ->
  Permutation (concat (map (fun k => map f (filter (fun p => match c p with Some k' => k' =? k | None => false end) l)) (seq 0 m))) (map f l).
Proof.
  induction l as [|p l IH]; intros m H.
  - cbn. induction (seq 0 m); cbn; auto.
  - destruct (H p (or_introl eq_refl)) as (k & Ek & Hk). specialize (IH m ltac:(intros q Hq; apply H; right; exact Hq)).
    rewrite (Permutation_cons_app [] (map f l) (f p) (Permutation_refl _)) at 1. cbn [app map].
    replace m with (k + (1 + (m - k - 1))) in IH |- * by lia. rewrite !seq_app, !map_app, !concat_app in *. cbn [seq map concat app Nat.add] in *.
    rewrite app_nil_r in *. 
    assert (Same : forall l0, (forall j, In j l0 -> j <> k) -> map (fun k => map f (filter (fun p => match c p with Some k' => k' =? k | None => false end) (p :: l))) l0 =
       map (fun k => map f (filter (fun p => match c p with Some k' => k' =? k | None => false end) l)) l0).
    { intros l0 Hl0. apply map_ext_in. intros j Hj. cbn [filter]. rewrite Ek. destruct (Nat.eqb_spec k j); [exfalso; apply (Hl0 j); auto|reflexivity]. }
    rewrite Same by (intros j Hj; apply in_seq in Hj; lia). rewrite (Same (seq _ _)) by (intros j Hj; apply in_seq in Hj; lia).
    cbn [filter]. rewrite Ek, Nat.eqb_refl. cbn [map]. rewrite <- IH. rewrite <- app_comm_cons. symmetry. apply Permutation_middle.
Qed.

Section group.
Context {A : Type} (rel : A -> A -> bool) (items : list A) (d : A).
Notation n := (length items).
Lemma add_node_In l i x : In x (add_node l i) <-> In x l \/ x = i.
Proof. unfold add_node. destruct (memb i l) eqn:E; [apply memb_In in E; split; [auto|intros [H| ->]; assumption]|]. rewrite in_app_iff. cbn. intuition. Qed.
Lemma add_node_NoDup l i : NoDup l -> NoDup (add_node l i).
Proof.
  intros H. unfold add_node. destruct (memb i l) eqn:E; [exact H|]. apply memb_false in E. apply (Permutation_NoDup (l := i :: l)); [apply Permutation_cons_append|constructor; assumption].
Qed.
Lemma node_list_perm : Permutation (node_list rel items d) (seq 0 n).
Proof.
  unfold node_list.
  assert (Inner : forall i l0 l, NoDup l -> NoDup (fold_left (fun l j => if conflict rel items d i j then add_node l j else l) l0 l) /\
     forall x, In x (fold_left (fun l j => if conflict rel items d i j then add_node l j else l) l0 l) -> In x l \/ In x l0).
  { induction l0 as [|j l0 IH]; intros l ND; cbn [fold_left]; [auto|]. destruct (conflict rel items d i j).
    - destruct (IH (add_node l j) (add_node_NoDup _ _ ND)) as [H1 H2]. split; [exact H1|]. intros x Hx. apply H2 in Hx. rewrite add_node_In in Hx. cbn. intuition.
    - destruct (IH l ND) as [H1 H2]. split; [exact H1|]. intros x Hx. apply H2 in Hx. cbn. intuition. }
  assert (Keep : forall i l0 l x, In x l -> In x (fold_left (fun l j => if conflict rel items d i j then add_node l j else l) l0 l)).
  { induction l0 as [|j l0 IH]; intros l x Hx; cbn [fold_left]; [exact Hx|]. apply IH. destruct (conflict rel items d i j); [apply add_node_In; auto|exact Hx]. }
  assert (Outer : forall l1 l, NoDup l -> (forall x, In x l -> x < n) -> (forall x, In x l1 -> x < n) ->
     let r := fold_left (fun l i => fold_left (fun l j => if conflict rel items d i j then add_node l j else l) (seq 0 n) (add_node l i)) l1 l in
     NoDup r /\ (forall x, In x r -> x < n) /\ (forall x, In x l \/ In x l1 -> In x r)).
  { induction l1 as [|i l1 IH]; intros l ND B B1; cbn [fold_left]; [cbv zeta; split; [exact ND|split; [exact B|intros x [H|[]]; exact H]]|]. cbv zeta.
    destruct (Inner i (seq 0 n) (add_node l i) (add_node_NoDup _ _ ND)) as [H1 H2].
    destruct (IH _ H1) as (R1 & R2 & R3).
    - intros x Hx. apply H2 in Hx. rewrite add_node_In in Hx. destruct Hx as [[Hx| ->]|Hx]; [auto|apply B1; left; reflexivity|apply in_seq in Hx; lia].
    - intros x Hx. apply B1. right. exact Hx.
    - split; [exact R1|]. split; [exact R2|]. intros x Hx. apply R3. destruct Hx as [Hx|[<-|Hx]]; [left; apply Keep, add_node_In; auto|left; apply Keep, add_node_In; auto|right; exact Hx]. }
  destruct (Outer (seq 0 n) [] (NoDup_nil _)) as (H1 & H2 & H3); [intros x []|intros x Hx; apply in_seq in Hx; lia|]. cbv zeta in *.
  apply NoDup_Permutation; [exact H1|apply seq_NoDup|]. intros x. rewrite in_seq. split; [intros Hx; apply H2 in Hx; lia|intros Hx; apply H3; right; apply in_seq; exact Hx].
Qed.
Lemma node_lt p : p < n -> node rel items d p < n.
Proof.
  intros Hp. assert (P := node_list_perm). assert (L := Permutation_length P). rewrite seq_length in L.
  assert (H : In (node rel items d p) (seq 0 n)) by (apply (Permutation_in _ P); apply nth_In; lia). apply in_seq in H. lia.
Qed.
Lemma node_inj p q : p < n -> q < n -> node rel items d p = node rel items d q -> p = q.
Proof.
  intros Hp Hq E. assert (P := node_list_perm). assert (L := Permutation_length P). rewrite seq_length in L.
  assert (ND : NoDup (node_list rel items d)) by (apply (Permutation_NoDup (Permutation_sym P)), seq_NoDup).
  rewrite NoDup_nth with (d := 0) in ND. apply ND; try lia. exact E.
Qed.

Lemma group_up_ok : exists groups, group_up_iterable rel items d = Some groups /\
  Permutation (concat groups) items /\
  forall g, In g groups -> exists ps, NoDup ps /\ (forall p, In p ps -> p < n) /\ g = map (item items d) ps /\
    forall p q, In p ps -> In q ps -> p <> q -> rel (item items d p) (item items d q) = true.
Proof.
  destruct items as [|x0 l0] eqn:Ei; [exists []; cbn; split; [reflexivity|]; split; [constructor|intros g []]|].
  unfold group_up_iterable. cbn match. rewrite <- Ei. clear Ei.
  set (adj := fun p q => edge rel items d (node rel items d p) (node rel items d q)).
  destruct (find_coloring_ok n adj) as (c & -> & T & P).
  - intros u v. unfold adj, edge. apply orb_comm.
  - intros u. unfold adj, edge, conflict. rewrite Nat.eqb_refl. reflexivity.
  - eexists. split; [reflexivity|]. split.
    + transitivity (map (fun p => item items d (node rel items d p)) (seq 0 n)).
      * apply (split_by_key (fun p => item items d (node rel items d p))). intros p Hp. apply in_seq in Hp. destruct (c p) as [k|] eqn:Ec; [|exfalso; apply (T p); [lia|exact Ec]].
        exists k. split; [reflexivity|]. assert (k <= max_color n c) by (apply (max_color_ge n c p); [lia|exact Ec]). lia.
      * rewrite <- (map_map (node rel items d) (item items d)).
        assert (E : map (node rel items d) (seq 0 n) = node_list rel items d).
        { assert (L := Permutation_length node_list_perm). rewrite seq_length in L. unfold node. rewrite <- L. clear. generalize (node_list rel items d) as l. intros l.
          apply map_nth_seq. }
        rewrite E, (Permutation_map _ node_list_perm). unfold item. clear.
        assert (Q : map (fun i => nth i items d) (seq 0 n) = items); [|rewrite Q; reflexivity].
        apply map_nth_seq.
    + intros g Hg. apply in_map_iff in Hg. destruct Hg as (k & <- & Hk).
      exists (map (node rel items d) (filter (fun p => match c p with Some k' => k' =? k | None => false end) (seq 0 n))).
      assert (F : forall p, In p (filter (fun p => match c p with Some k' => k' =? k | None => false end) (seq 0 n)) -> p < n /\ c p = Some k).
      { intros p Hp. apply filter_In in Hp. destruct Hp as [H1 H2]. apply in_seq in H1. destruct (c p) as [k'|]; [|discriminate]. apply Nat.eqb_eq in H2. subst. split; [lia|reflexivity]. }
      split; [|split; [|split]].
      * assert (ND : NoDup (filter (fun p => match c p with Some k' => k' =? k | None => false end) (seq 0 n))) by (apply NoDup_filter, seq_NoDup).
        revert F ND. generalize (filter (fun p => match c p with Some k' => k' =? k | None => false end) (seq 0 n)). intros l F ND.
        induction l as [|p l IH]; [constructor|]. inversion ND; subst. cbn. constructor; [|apply IH; [intros q Hq; apply F; right; exact Hq|assumption]].
        intros H. apply in_map_iff in H. destruct H as (q & Eq & Hq). assert (q = p); [|subst; contradiction].
        apply node_inj; [apply F; right; exact Hq|apply F; left; reflexivity|exact Eq].
      * intros p Hp. apply in_map_iff in Hp. destruct Hp as (q & <- & Hq). apply node_lt. apply F. exact Hq.
      * rewrite map_map. reflexivity.
      * intros p q Hp Hq Hn. apply in_map_iff in Hp, Hq. destruct Hp as (p' & <- & Hp), Hq as (q' & <- & Hq). apply F in Hp, Hq. destruct Hp as [Hp Cp], Hq as [Hq Cq].
        destruct (rel (item items d (node rel items d p')) (item items d (node rel items d q'))) eqn:E; [reflexivity|]. exfalso. apply (P p' q' k); try assumption.
        unfold adj, edge, conflict. rewrite E. destruct (Nat.eqb_spec (node rel items d p') (node rel items d q')); [contradiction|]. reflexivity.
Qed.

(** ** commuting_groups *)
Definition pairwise (g : list A) : Prop := ForallOrdPairs (fun x y => rel x y = true) g.
Lemma FOP_app_one g t : pairwise g -> (forall u, In u g -> rel u t = true) -> pairwise (g ++ [t]).
Proof.
  unfold pairwise. induction g as [|u g IH]; intros P H; cbn; [constructor; constructor|]. inversion P; subst. constructor.
  - apply Forall_app. split; [assumption|]. constructor; [apply H; left; reflexivity|constructor].
  - apply IH; [assumption|]. intros v Hv. apply H. right. exact Hv.
Qed.
Lemma insert_group_ok t gs : Forall pairwise gs -> Forall pairwise (insert_group rel t gs) /\ Permutation (concat (insert_group rel t gs)) (t :: concat gs).
Proof.
  induction gs as [|g gs IH]; intros F; cbn [insert_group].
  - split; [constructor; [repeat constructor|constructor]|]. cbn. reflexivity.
  - inversion F; subst. destruct (forallb (fun u => rel u t) g) eqn:E.
    + split.
      * constructor; [|assumption]. apply FOP_app_one; [assumption|]. intros u Hu. rewrite forallb_forall in E. apply E. exact Hu.
      * cbn. rewrite <- app_assoc. cbn. symmetry. apply Permutation_middle.
    + destruct (IH H2) as [I1 I2]. split; [constructor; assumption|]. cbn. rewrite I2. symmetry. apply Permutation_middle.
Qed.
Lemma commuting_groups_ok sorted : Permutation (concat (commuting_groups rel sorted)) sorted /\ Forall pairwise (commuting_groups rel sorted).
Proof.
  unfold commuting_groups. assert (G : forall l gs, Forall pairwise gs -> Permutation (concat (fold_left (fun gs t => insert_group rel t gs) l gs)) (l ++ concat gs) /\ Forall pairwise (fold_left (fun gs t => insert_group rel t gs) l gs)).
  { induction l as [|t l IH]; intros gs F; cbn [fold_left]; [split; [reflexivity|exact F]|]. destruct (insert_group_ok t gs F) as [F' P]. destruct (IH _ F') as [I1 I2]. split; [|exact I2].
    rewrite I1, P. cbn. symmetry. apply Permutation_middle. }
  destruct (G sorted [] (Forall_nil _)) as [H1 H2]. cbn in H1. rewrite app_nil_r in H1. auto.
Qed.
End group.
