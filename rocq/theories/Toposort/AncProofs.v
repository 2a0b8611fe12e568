(** Proofs: ancestor matrices and the allocation-aware sort. *)
From Verif.Lib Require Import Trace.
From Verif.Toposort Require Import TopoModel TopoSpec TopoProofs.
From Coq Require Import ZArith List Lia Bool Permutation.
Import ListNotations.
Local Open Scope nat_scope.

Lemma fold_upd_length {A} (F : nat -> A -> A) l : forall m, length (fold_left (fun m c => upd m c (F c)) l m) = length m.
Proof. induction l; intros m; cbn [fold_left]; [reflexivity|]. now rewrite IHl, upd_length. Qed.
Lemma fold_upd_nth {A} (F : nat -> A -> A) (d : A) : (forall c r, F c (F c r) = F c r) -> forall l m v, v < length m ->
  nth v (fold_left (fun m c => upd m c (F c)) l m) d = if mem v l then F v (nth v m d) else nth v m d.
Proof.
  intros I l. induction l as [|c l IH]; intros m v Hv; cbn [fold_left]; [reflexivity|].
  rewrite IH by now rewrite upd_length. rewrite upd_nth. cbn [mem existsb]. fold (mem v l).
  destruct (Nat.eqb_spec v c) as [->|NE]; cbn [orb].
  - destruct (Nat.ltb_spec c (length m)); [|lia]. destruct (mem c l); [apply I|reflexivity].
  - reflexivity.
Qed.

Lemma or_row_length r s : length (or_row r s) = Nat.min (length r) (length s).
Proof. unfold or_row. now rewrite map_length, combine_length. Qed.
Lemma or_row_nth : forall r s a, length r = length s -> nth a (or_row r s) false = nth a r false || nth a s false.
Proof.
  unfold or_row. induction r as [|x r IH]; intros [|y s] [|a] H; cbn in *; try discriminate; try reflexivity.
  apply IH. lia.
Qed.
Lemma or_row_idem_r : forall r s, or_row (or_row r s) s = or_row r s.
Proof. unfold or_row. induction r as [|x r IH]; intros [|y s]; cbn; try reflexivity. rewrite IH. f_equal. destruct x, y; reflexivity. Qed.
Lemma or_row_idem_l : forall r s, or_row r (or_row r s) = or_row r s.
Proof. unfold or_row. induction r as [|x r IH]; intros [|y s]; cbn; try reflexivity. rewrite IH. f_equal. destruct x, y; reflexivity. Qed.

Lemma reach_inv G a v : reach G a v <-> a = v \/ exists u, edge G u v /\ reach G a u.
Proof.
  split.
  - intros H. inversion H; subst; [now left|]. right. eauto.
  - intros [->|(u & E & R)]; [constructor|econstructor; eassumption].
Qed.
Lemma reach_cons G u v w : edge G u v -> reach G v w -> reach G u w.
Proof. intros E R. induction R; [econstructor; [constructor|exact E]|econstructor; [apply IHR; exact E|assumption]]. Qed.
Lemma reach_bound G a v : wf_graph G -> v < length G -> reach G a v -> a < length G.
Proof. intros W Hv R. induction R; [exact Hv|]. apply IHR. apply H. Qed.

Lemma bool_iff (b : bool) (P : Prop) c : (b = true <-> P) -> (c = true <-> P) -> b = c.
Proof. destruct b, c; intuition congruence. Qed.

Lemma before_filter_seq n f u v : u < v -> In u (filter f (seq 0 n)) -> In v (filter f (seq 0 n)) -> before (filter f (seq 0 n)) u v.
Proof.
  rename n into k. intros H Hu Hv.
  apply filter_In in Hu, Hv. destruct Hu as [Hu Fu], Hv as [Hv Fv]. apply in_seq in Hu, Hv.
  assert (E : seq 0 k = seq 0 u ++ u :: seq (S u) (v - S u) ++ v :: seq (S v) (k - S v)).
  { replace k with (u + (S (v - S u) + S (k - S v))) at 1 by lia. rewrite seq_app. f_equal. cbn [Nat.add seq]. f_equal.
    replace (v - S u + S (k - S v)) with ((v - S u) + S (k - S v)) by lia. rewrite seq_app. f_equal.
    replace (S (u) + (v - S u)) with v by lia. reflexivity. }
  rewrite E. rewrite filter_app. cbn [filter]. rewrite Fu. rewrite filter_app. cbn [filter]. rewrite Fv.
  exists (filter f (seq 0 u)), (filter f (seq (S u) (v - S u))), (filter f (seq (S v) (k - S v))). reflexivity.
Qed.
Lemma before_app_l (l m : list nat) u v : before l u v -> before (l ++ m) u v.
Proof. intros (a & b & c & ->). exists a, b, (c ++ m). rewrite <- !app_assoc. cbn. now rewrite <- app_assoc. Qed.
Lemma before_app_r (l m : list nat) u v : before m u v -> before (l ++ m) u v.
Proof. intros (a & b & c & ->). exists (l ++ a), b, c. now rewrite <- app_assoc. Qed.
Lemma before_app_lr (l m : list nat) u v : In u l -> In v m -> before (l ++ m) u v.
Proof. intros H K. apply in_split in H, K. destruct H as (a & b & ->), K as (c & d & ->). exists a, (b ++ c), d. rewrite <- !app_assoc. reflexivity. Qed.

Lemma argmin_aux_lt : forall l i best m, best < i -> argmin_aux l i best m < i + length l.
Proof.
  induction l as [|x l IH]; intros i best m H; cbn [argmin_aux length]; [lia|].
  destruct (Z.ltb x m); [specialize (IH (S i) i x)|specialize (IH (S i) best m)]; lia.
Qed.
Lemma argmin_lt l : l <> [] -> argmin l < length l.
Proof. destruct l as [|x l]; intros H; [congruence|]. cbn [argmin length]. pose proof (argmin_aux_lt l 1 0 x). lia. Qed.

Section anc.
Context (G : graph) (W : wf_graph G) (A : acyclic G).
Let n := length G.

Definition square (m : list (list bool)) : Prop := length m = n /\ forall v, v < n -> length (nth v m []) = n.
Definition anc_inv (o : list nat) (m : list (list bool)) : Prop :=
  square m /\ forall v a, v < n -> a < n -> nth a (nth v m []) false = true <-> (In v o /\ a = v) \/ exists u, In u o /\ edge G u v /\ reach G a u.

Lemma anc_init : anc_inv [] (repeat (repeat false n) n).
Proof.
  split.
  - split; [apply repeat_length|]. intros v Hv.
    assert (H : In (nth v (repeat (repeat false n) n) []) (repeat (repeat false n) n)) by (apply nth_In; now rewrite repeat_length).
    apply repeat_spec in H. rewrite H. apply repeat_length.
  - intros v a Hv Ha. assert (H : In (nth v (repeat (repeat false n) n) []) (repeat (repeat false n) n)) by (apply nth_In; now rewrite repeat_length).
    apply repeat_spec in H. rewrite H, nth_repeat. split; [discriminate|]. intros [[[] _]|(u & [] & _)].
Qed.

Lemma anc_fold_eq u : forall l m, ~ In u l ->
  fold_left (fun anc c => upd anc c (fun r => or_row r (nth u anc []))) l m =
  fold_left (fun anc c => upd anc c (fun r => or_row r (nth u m []))) l m.
Proof.
  assert (K : forall l m row, ~ In u l -> nth u m [] = row ->
    fold_left (fun anc c => upd anc c (fun r => or_row r (nth u anc []))) l m = fold_left (fun anc c => upd anc c (fun r => or_row r row)) l m).
  { induction l as [|c l IH]; intros m row H E; cbn [fold_left]; [reflexivity|]. rewrite E. apply IH; [intros K; apply H; now right|].
    rewrite upd_nth. destruct (Nat.eqb_spec u c); [exfalso; apply H; now left|exact E]. }
  intros. now apply K.
Qed.

Lemma anc_step o m u : good G o -> ~ In u o -> u < length G -> (forall w, edge G w u -> In w o) -> anc_inv o m -> anc_inv (o ++ [u]) (anc_visit G m u).
Proof.
  intros (ND & BO & RO) Hu Lu PR [[L1 L2] HA]. fold n in Lu. unfold anc_visit.
  set (m1 := upd m u (fun r => upd r u (fun _ => true))).
  assert (S1 : square m1).
  { split; [unfold m1; now rewrite upd_length|]. intros v Hv. unfold m1. rewrite upd_nth. destruct (Nat.eqb_spec v u) as [->|]; [|now apply L2].
    destruct (Nat.ltb_spec u (length m)); [|lia]. rewrite upd_length. now apply L2. }
  assert (N1 : forall v a, v < n -> a < n -> nth a (nth v m1 []) false = if Nat.eqb v u && Nat.eqb a u then true else nth a (nth v m []) false).
  { intros v a Hv Ha. unfold m1. rewrite upd_nth. destruct (Nat.eqb_spec v u) as [->|]; [|reflexivity].
    destruct (Nat.ltb_spec u (length m)); [|lia]. rewrite upd_nth. rewrite (L2 u Lu). cbn [andb].
    destruct (Nat.eqb_spec a u); [|reflexivity]. destruct (Nat.ltb_spec u n); [reflexivity|lia]. }
  assert (SELF : ~ In u (succ G u)) by (intros K; apply Hu; apply PR; split; assumption).
  assert (ROWU : forall a, a < n -> nth a (nth u m1 []) false = true <-> reach G a u).
  { intros a Ha. rewrite N1 by assumption. rewrite Nat.eqb_refl. cbn [andb]. rewrite reach_inv.
    destruct (Nat.eqb_spec a u) as [->|NE]; [intuition|]. rewrite (HA u a Lu Ha). split.
    - intros [[K _]|(w & Hw & E & R)]; [contradiction|]. right. exists w. split; assumption.
    - intros [K|(w & E & R)]; [contradiction|]. right. exists w. split; [now apply PR|]. split; assumption. }
  rewrite (anc_fold_eq u (succ G u) m1 SELF).
  pose proof (fold_upd_nth (fun _ r => or_row r (nth u m1 [])) ([] : list bool) (fun _ r => or_row_idem_r r _) (succ G u) m1) as FN.
  assert (FL := fold_upd_length (fun _ r => or_row r (nth u m1 [])) (succ G u) m1). cbv beta in FN, FL.
  destruct S1 as [S1 S2].
  split.
  - split; [rewrite FL; exact S1|]. intros v Hv. rewrite FN by lia. destruct (mem v (succ G u)); [|now apply S2].
    rewrite or_row_length, !S2 by assumption. apply Nat.min_id.
  - intros v a Hv Ha. rewrite FN by lia.
    assert (OLD : nth a (nth v m1 []) false = true <-> (In v (o ++ [u]) /\ a = v) \/ (exists w, In w o /\ edge G w v /\ reach G a w)).
    { rewrite N1 by assumption. rewrite in_app_iff. cbn [In]. destruct (Nat.eqb_spec v u) as [->|NE]; cbn [andb].
      - destruct (Nat.eqb_spec a u) as [->|NA]; [intuition|]. rewrite (HA u a Lu Ha). intuition.
      - rewrite (HA v a Hv Ha). intuition congruence. }
    assert (TGT : ((In v (o ++ [u]) /\ a = v) \/ exists w, In w (o ++ [u]) /\ edge G w v /\ reach G a w) <->
       ((In v (o ++ [u]) /\ a = v) \/ (exists w, In w o /\ edge G w v /\ reach G a w)) \/ (edge G u v /\ reach G a u)).
    { split.
      - intros [K|(w & Hw & E & R)]; [now left; left|]. apply in_app_iff in Hw. destruct Hw as [Hw|[<-|[]]]; [left; right; eauto|right; auto].
      - intros [[K|(w & Hw & E & R)]|[E R]]; [now left| |]; right; [exists w|exists u]; rewrite in_app_iff; cbn; auto. }
    rewrite TGT, <- OLD. destruct (mem v (succ G u)) eqn:M.
    + apply mem_In in M. rewrite or_row_nth by (rewrite !S2 by assumption; reflexivity). rewrite orb_true_iff, ROWU by exact Ha.
      assert (edge G u v) by (split; assumption). tauto.
    + assert (~ edge G u v). { intros [_ K]. apply mem_In in K. congruence. } tauto.
Qed.

Lemma ancestors_dense_spec : exists m, ancestors_dense G = Some m /\ square m /\
  forall v a, v < n -> a < n -> nth a (nth v m []) false = true <-> reach G a v.
Proof.
  destruct (run_kahn_correct G (fun _ _ => 0%nat) (anc_visit G) anc_inv W ltac:(intros p [|x q] H; [congruence|cbn; lia]) anc_step _ A anc_init)
    as (out & m & E & [PM _] & S & HA).
  exists m. unfold ancestors_dense. fold n. rewrite E. split; [reflexivity|]. split; [exact S|].
  intros v a Hv Ha. rewrite (HA v a Hv Ha), reach_inv. assert (IN : forall x, x < n -> In x out) by (intros x Hx; apply (Permutation_in _ PM), in_seq; unfold n in Hx; lia).
  split.
  - intros [[_ K]|(u & _ & Eu & R)]; [now left|right; eauto].
  - intros [->|(u & Eu & R)]; [left; auto|]. right. exists u. split; [apply IN, Eu|]. split; assumption.
Qed.

(** the sparse variant *)
Section sparse.
Context (keep : nat -> bool).
Definition pre_row (o : list nat) (v : nat) (r : list bool) : Prop :=
  length r = n /\ forall a, a < n -> nth a r false = true <-> a = v \/ exists u, In u o /\ edge G u v /\ reach G a u.
Definition sp_row (o : list nat) (v : nat) (r : option (list bool)) : Prop :=
  if mem v o then if keep v then exists r', r = Some r' /\ pre_row o v r' else r = None
  else ((exists u, In u o /\ edge G u v) \/ (forall u, ~ edge G u v)) /\ (exists r', r = Some r' /\ pre_row o v r') \/
       (exists u, edge G u v) /\ (forall u, In u o -> ~ edge G u v) /\ r = None.
Definition sp_inv (o : list nat) (m : list (option (list bool))) : Prop := length m = n /\ forall v, v < n -> sp_row o v (nth v m None).

Lemma unit_row_spec v : v < n -> length (unit_row n v) = n /\ forall a, a < n -> nth a (unit_row n v) false = Nat.eqb a v.
Proof.
  intros Hv. unfold unit_row. rewrite upd_length, repeat_length. split; [reflexivity|]. intros a Ha. rewrite upd_nth, repeat_length, !nth_repeat.
  destruct (Nat.eqb_spec a v); [|reflexivity]. destruct (Nat.ltb_spec v n); [reflexivity|lia].
Qed.
Lemma edge_dec v : (exists u, edge G u v) \/ forall u, ~ edge G u v.
Proof.
  destruct (existsb (fun u => mem v (succ G u)) (seq 0 n)) eqn:E.
  - left. apply existsb_exists in E. destruct E as (u & Hu & M). apply in_seq in Hu. apply mem_In in M. exists u. split; [unfold n in *; lia|exact M].
  - right. intros u [L K]. assert (existsb (fun u => mem v (succ G u)) (seq 0 n) = true); [|congruence].
    apply existsb_exists. exists u. split; [apply in_seq; unfold n; lia|now apply mem_In].
Qed.
Lemma sp_init : sp_inv [] (fold_left (fun anc i => upd anc i (fun _ => Some (unit_row n i))) (roots (in_degrees G)) (repeat None n)).
Proof.
  split; [rewrite (fold_upd_length (fun i _ => Some (unit_row n i))); apply repeat_length|].
  intros v Hv. rewrite (fold_upd_nth (fun i _ => Some (unit_row n i)) None (fun _ _ => eq_refl)) by now rewrite repeat_length.
  destruct (in_degrees_spec G W) as [LD ND]. unfold sp_row. cbn [mem existsb].
  assert (RT : mem v (roots (in_degrees G)) = true <-> forall u, ~ edge G u v).
  { rewrite mem_In. unfold roots. rewrite filter_In, LD, in_seq, Z.eqb_eq, ND by exact Hv.
    split.
    - intros [_ K] u E. assert (K' : indeg G [] v = 0) by lia. rewrite indeg_zero in K'. destruct (K' u E).
    - intros H. split; [unfold n in Hv; lia|]. assert (indeg G [] v = 0) by (apply indeg_zero; intros u E; destruct (H u E)). lia. }
  destruct (mem v (roots (in_degrees G))).
  - left. split; [right; now apply RT|]. eexists. split; [reflexivity|]. destruct (unit_row_spec v Hv) as [U1 U2]. split; [exact U1|].
    intros a Ha. rewrite U2 by exact Ha. rewrite Nat.eqb_eq. split; [now left|intros [K|(u & [] & _)]; exact K].
  - right. split; [destruct (edge_dec v) as [K|K]; [exact K|]; apply RT in K; discriminate|]. split; [intros u []|]. apply nth_repeat.
Qed.

Lemma sp_step o m u : good G o -> ~ In u o -> u < length G -> (forall w, edge G w u -> In w o) -> sp_inv o m -> sp_inv (o ++ [u]) (anc_visit_sparse G keep m u).
Proof.
  intros (ND & BO & RO) Hu Lu PR [L HA]. fold n in Lu. unfold anc_visit_sparse. fold n.
  assert (SELF : ~ In u (succ G u)) by (intros K; apply Hu; apply PR; split; assumption).
  assert (NOo : forall c, In c (succ G u) -> ~ In c o).
  { intros c Hc K. apply Hu. destruct (RO u c (conj Lu Hc) K) as (x & y & z & ->). apply in_app_iff. right. now left. }
  assert (CUR : exists cur, nth u m None = Some cur /\ length cur = n /\ forall a, a < n -> nth a cur false = true <-> reach G a u).
  { pose proof (HA u Lu) as R. unfold sp_row in R. assert (M : mem u o = false) by (destruct (mem u o) eqn:M; [apply mem_In in M; contradiction|reflexivity]).
    rewrite M in R. destruct R as [[_ (r & E & Lr & R)]|((w & Ew) & K & _)].
    - exists r. split; [exact E|]. split; [exact Lr|]. intros a Ha. rewrite (R a Ha), reach_inv. split.
      + intros [K|(w & _ & Ew & Rw)]; [now left|right; eauto].
      + intros [K|(w & Ew & Rw)]; [now left|right; exists w; auto].
    - exfalso. apply (K w); [now apply PR|exact Ew]. }
  destruct CUR as (cur & EC & LC & HC). rewrite EC.
  set (F1 := fun c (r : option (list bool)) => match r with None => Some (unit_row n c) | Some r => Some r end).
  set (F2 := fun (c : nat) (r : option (list bool)) => match r with Some b => Some (or_row cur b) | None => None end).
  set (m2 := fold_left (fun anc c => upd anc c (F2 c)) (succ G u) (fold_left (fun anc c => upd anc c (F1 c)) (succ G u) m)).
  assert (L2 : length m2 = n) by (unfold m2; rewrite (fold_upd_length F2), (fold_upd_length F1); exact L).
  assert (I1 : forall c r, F1 c (F1 c r) = F1 c r) by (intros c [r|]; reflexivity).
  assert (I2 : forall c r, F2 c (F2 c r) = F2 c r) by (intros c [r|]; cbn; [now rewrite or_row_idem_l|reflexivity]).
  assert (N2 : forall v, v < n -> nth v m2 None = if mem v (succ G u) then F2 v (F1 v (nth v m None)) else nth v m None).
  { intros v Hv. unfold m2. rewrite (fold_upd_nth F2 None I2) by (rewrite (fold_upd_length F1); lia). rewrite (fold_upd_nth F1 None I1) by lia.
    destruct (mem v (succ G u)); reflexivity. }
  assert (R2 : forall v, v < n -> v <> u -> sp_row (o ++ [u]) v (nth v m2 None)).
  { intros v Hv NE. rewrite N2 by exact Hv. pose proof (HA v Hv) as R. unfold sp_row in *. rewrite mem_app_last.
    destruct (Nat.eqb_spec v u); [contradiction|]. rewrite orb_false_r.
    assert (PRE : forall r, ~ edge G u v -> pre_row o v r -> pre_row (o ++ [u]) v r).
    { intros r NEd [Lr Hr]. split; [exact Lr|]. intros a Ha. rewrite (Hr a Ha). split; (intros [K|(w & Hw & E & K)]; [now left|right; exists w]).
      - rewrite in_app_iff. auto.
      - apply in_app_iff in Hw. destruct Hw as [Hw|[<-|[]]]; [auto|contradiction]. }
    destruct (mem v o) eqn:Mo.
    - assert (NEd : ~ In v (succ G u)) by (intros K; apply mem_In in Mo; exact (NOo v K Mo)).
      destruct (mem v (succ G u)) eqn:M; [apply mem_In in M; contradiction|].
      destruct (keep v); [|exact R]. destruct R as (r & E & K). exists r. split; [exact E|]. apply PRE; [intros [_ Q]; contradiction|exact K].
    - destruct (mem v (succ G u)) eqn:M.
      + apply mem_In in M. assert (Euv : edge G u v) by (split; assumption). left. split; [left; exists u; rewrite in_app_iff; cbn; auto|].
        assert (B : exists b, F1 v (nth v m None) = Some b /\ pre_row o v b).
        { destruct R as [[_ (r & E & K)]|(_ & K & E)]; rewrite E; cbn.
          - exists r. split; [reflexivity|exact K].
          - exists (unit_row n v). split; [reflexivity|]. destruct (unit_row_spec v Hv) as [U1 U2]. split; [exact U1|]. intros a Ha. rewrite U2 by exact Ha. rewrite Nat.eqb_eq.
            split; [now left|]. intros [Q|(w & Hw & Ew & _)]; [exact Q|destruct (K w Hw Ew)]. }
        destruct B as (b & -> & Lb & Hb). cbn [F2]. exists (or_row cur b). split; [reflexivity|]. split; [rewrite or_row_length, LC, Lb; apply Nat.min_id|].
        intros a Ha. rewrite or_row_nth by lia. rewrite orb_true_iff, (HC a Ha), (Hb a Ha). split.
        * intros [K|[K|(w & Hw & Ew & K)]]; [right; exists u|now left|right; exists w]; rewrite in_app_iff; cbn; auto.
        * intros [K|(w & Hw & Ew & K)]; [auto|]. apply in_app_iff in Hw. destruct Hw as [Hw|[<-|[]]]; [right; right; eauto|now left].
      + assert (NEd : ~ edge G u v) by (intros [_ Q]; apply mem_In in Q; congruence).
        destruct R as [[Q (r & E & K)]|(Q & K & E)].
        * left. split; [destruct Q as [(w & Hw & Ew)|Q]; [left; exists w; rewrite in_app_iff; auto|now right]|]. exists r. split; [exact E|]. now apply PRE.
        * right. split; [exact Q|]. split; [|exact E]. intros w Hw. apply in_app_iff in Hw. destruct Hw as [Hw|[<-|[]]]; [now apply K|exact NEd]. }
  assert (RU : nth u m2 None = Some cur -> pre_row (o ++ [u]) u cur).
  { intros _. split; [exact LC|]. intros a Ha. rewrite (HC a Ha), reach_inv. split.
    - intros [K|(w & Ew & K)]; [now left|right; exists w; rewrite in_app_iff; auto].
    - intros [K|(w & _ & Ew & K)]; [now left|right; eauto]. }
  assert (U2 : nth u m2 None = nth u m None).
  { rewrite N2 by exact Lu. destruct (mem u (succ G u)) eqn:M; [apply mem_In in M; contradiction|reflexivity]. }
  assert (MU : mem u (o ++ [u]) = true) by (apply mem_In, in_app_iff; right; now left).
  change (sp_inv (o ++ [u]) (if keep u then m2 else upd m2 u (fun _ => None))).
  destruct (keep u) eqn:KU.
  - split; [exact L2|]. intros v Hv. destruct (Nat.eq_dec v u) as [->|NE]; [|now apply R2]. unfold sp_row. rewrite MU, KU.
    exists cur. assert (E : nth u m2 None = Some cur); [|split; [exact E|now apply RU]].
    rewrite U2. exact EC.
  - split; [now rewrite upd_length|]. intros v Hv. rewrite upd_nth. destruct (Nat.eqb_spec v u) as [->|NE]; [|now apply R2].
    unfold sp_row. rewrite MU, KU. destruct (u <? length m2); reflexivity.
Qed.

Lemma ancestors_sparse_spec preferred : keep = (fun u => existsb (Nat.eqb u) preferred) -> exists m, ancestors_sparse G preferred = Some m /\
  forall v, v < n -> In v preferred -> exists r, nth v m None = Some r /\ length r = n /\ forall a, a < n -> nth a r false = true <-> reach G a v.
Proof.
  intros HK.
  destruct (run_kahn_correct G (fun _ _ => 0%nat) (anc_visit_sparse G keep) sp_inv W ltac:(intros p [|x q] H; [congruence|cbn; lia]) sp_step _ A sp_init)
    as (out & m & E & [PM _] & S & HA).
  exists m. unfold ancestors_sparse. rewrite HK in E. fold n. rewrite E. split; [reflexivity|].
  intros v Hv Hp. specialize (HA v Hv). assert (IN : forall x, x < n -> In x out) by (intros x Hx; apply (Permutation_in _ PM), in_seq; unfold n in Hx; lia).
  unfold sp_row in HA. assert (M : mem v out = true) by (apply mem_In; auto). rewrite M in HA.
  assert (K : keep v = true) by (rewrite HK; now apply mem_In). rewrite K in HA. destruct HA as (r & Er & Lr & Hr).
  exists r. split; [exact Er|]. split; [exact Lr|]. intros a Ha. rewrite (Hr a Ha), reach_inv. split.
  - intros [Q|(u & _ & Eu & R)]; [now left|right; eauto].
  - intros [Q|(u & Eu & R)]; [now left|]. right. exists u. split; [apply IN, Eu|]. split; assumption.
Qed.
End sparse.

(** the loop over the preferred nodes; [rel] lists the pairs whose order is to be shown: some node
    reachable from another with a smaller number *)
Section order_proof.
Context (rel : nat -> nat -> Prop) (REL : forall u v, rel u v -> u < v /\ v < n /\ reach G u v) (anc : nat -> nat -> bool) (preferred : list nat).
Hypothesis PB : forall p, In p preferred -> p < n.
Hypothesis ANC : forall p a, In p preferred -> a < n -> anc p a = true <-> reach G a p.

Definition rgood (o : list nat) : Prop :=
  NoDup o /\ (forall x, In x o -> x < n) /\ (forall u v, edge G u v -> In v o -> In u o) /\ (forall u v, rel u v -> In v o -> before o u v).
Definition ord_inv (st : list (list Z) * list bool * list nat) : Prop :=
  let '(dep, rem, res) := st in length dep = length preferred /\ length rem = n /\ rgood res /\
    forall a, a < n -> nth a rem false = true <-> ~ In a res.

(** appending the remaining members of an ancestor-closed set, in numerical order *)
Lemma good_block res (rem : list bool) (f : nat -> bool) : rgood res -> length rem = n ->
  (forall a, a < n -> nth a rem false = true <-> ~ In a res) ->
  (forall u v, edge G u v -> f v = true -> f u = true) ->
  rgood (res ++ filter (fun a => f a && nth a rem false) (seq 0 n)).
Proof.
  intros (ND & B & PC & R) Lr RM CL. set (block := filter _ _).
  assert (IB : forall a, In a block <-> a < n /\ f a = true /\ ~ In a res).
  { intros a. unfold block. rewrite filter_In, in_seq, andb_true_iff. split.
    - intros [H [K1 K2]]. split; [lia|]. split; [exact K1|]. apply RM; [lia|exact K2].
    - intros (H & K1 & K2). split; [lia|]. split; [exact K1|]. now apply RM. }
  assert (CLR : forall u v, reach G u v -> f v = true -> f u = true).
  { intros u v H. induction H as [|u v w H IH E]; [auto|]. intros Fw. apply IH. exact (CL v w E Fw). }
  split.
  - apply NoDup_app; [exact ND|apply NoDup_filter, seq_NoDup|]. intros x Hx Hb. apply IB in Hb. tauto.
  - split; [|split].
    + intros x Hx. apply in_app_iff in Hx. destruct Hx as [Hx|Hx]; [now apply B|]. apply IB in Hx. apply Hx.
    + intros u v E Hv. apply in_app_iff. apply in_app_iff in Hv. destruct Hv as [Hv|Hv]; [left; exact (PC u v E Hv)|].
      destruct (in_dec Nat.eq_dec u res) as [Iu|Iu]; [now left|right]. apply IB in Hv. apply IB. split; [apply E|]. split; [|exact Iu]. apply (CL u v E). apply Hv.
    + intros u v E Hv. apply in_app_iff in Hv. destruct Hv as [Hv|Hv].
      * apply before_app_l. now apply R.
      * pose proof Hv as Hv'. apply IB in Hv'. destruct Hv' as (Lv & Fv & Nv). destruct (REL u v E) as (Luv & _ & RE).
        assert (Fu := CLR u v RE Fv).
        destruct (in_dec Nat.eq_dec u res) as [Iu|Iu].
        -- now apply before_app_lr.
        -- apply before_app_r. apply before_filter_seq; [exact Luv| |exact Hv]. apply IB. split; [lia|now split].
Qed.

Lemma pref_step_inv st i : preferred <> [] -> ord_inv st -> ord_inv (pref_step n anc preferred st i).
Proof.
  destruct st as [[dep rem] res]. intros NE (LD & LR & GD & RM). unfold pref_step.
  set (k := argmin _). assert (Lk : k < length preferred).
  { unfold k. rewrite <- LD. rewrite <- (map_length (fun r => fold_left Z.add r 0%Z) dep). apply argmin_lt. destruct dep; [|discriminate].
    cbn in LD. destruct preferred; [congruence|discriminate]. }
  set (p := nth k preferred 0). assert (Hp : In p preferred) by (now apply nth_In).
  set (block := filter _ _).
  assert (GB : rgood (res ++ block)).
  { apply (good_block res rem (fun a => Nat.ltb a n && anc p a)) in GD; try assumption.
    - replace block with (filter (fun a => ((a <? n) && anc p a) && nth a rem false) (seq 0 n)); [exact GD|].
      apply filter_ext_in. intros a Ha. apply in_seq in Ha. destruct (Nat.ltb_spec a n); [reflexivity|lia].
    - intros u v E K. apply andb_true_iff in K. destruct K as [K1 K2]. apply Nat.ltb_lt in K1.
      assert (Lu : u < n) by apply E. apply andb_true_iff. split; [now apply Nat.ltb_lt|]. apply ANC; [exact Hp|exact Lu|].
      apply ANC in K2; [|exact Hp|exact K1]. now apply (reach_cons G u v). }
  split; [now rewrite upd_length, map_length|]. split.
  - rewrite (fold_upd_length (fun (_ : nat) (_ : bool) => false)). exact LR.
  - split; [exact GB|]. intros a Ha. rewrite (fold_upd_nth (fun (_ : nat) (_ : bool) => false) false (fun _ _ => eq_refl)) by lia.
    rewrite in_app_iff. destruct (mem a block) eqn:M.
    + apply mem_In in M. split; [discriminate|tauto].
    + rewrite (RM a Ha). assert (~ In a block) by (intros K; apply mem_In in K; congruence). tauto.
Qed.

Lemma order_correct delay : Permutation (seq 0 n) (order n anc preferred delay) /\ forall u v, rel u v -> before (order n anc preferred delay) u v.
Proof.
  unfold order. set (dep := map _ preferred).
  assert (I0 : ord_inv (dep, repeat true n, [])).
  { split; [unfold dep; apply map_length|]. split; [apply repeat_length|]. split.
    - split; [constructor|]. split; [intros x []|]. split; intros u v _ [].
    - intros a Ha. split; [intros _ []|]. intros _. assert (K : In (nth a (repeat true n) false) (repeat true n)) by (apply nth_In; now rewrite repeat_length).
      now apply repeat_spec in K. }
  assert (I1 : ord_inv (if length delay =? 0 then (dep, repeat true n, []) else fold_left (pref_step n anc preferred) (seq 0 (length preferred)) (dep, repeat true n, []))).
  { destruct (length delay =? 0); [exact I0|]. destruct preferred as [|p0 pr] eqn:EP; [exact I0|]. rewrite <- EP in *.
    generalize (seq 0 (length preferred)) as l. intros l. revert I0. generalize (dep, repeat true n, [] : list nat) as st.
    induction l as [|i l IH]; intros st I0; [exact I0|]. cbn [fold_left]. apply IH. apply pref_step_inv; [rewrite EP; discriminate|exact I0]. }
  destruct (if length delay =? 0 then _ else _) as [[dep' rem] res]. destruct I1 as (_ & LR & GD & RM).
  pose proof (good_block res rem (fun _ => true) GD LR RM (fun _ _ _ _ => eq_refl)) as GB. cbn [andb] in GB.
  set (out := res ++ _) in *. destruct GB as (ND & B & _ & R).
  assert (ALL : forall a, a < n -> In a out).
  { intros a Ha. unfold out. rewrite in_app_iff, filter_In, in_seq. rewrite (RM a Ha).
    destruct (in_dec Nat.eq_dec a res); [now left|right; split; [lia|assumption]]. }
  split.
  - apply NoDup_Permutation; [apply seq_NoDup|exact ND|]. intros a. rewrite in_seq. fold n. split; [intros; apply ALL; lia|intros K; specialize (B a K); fold n in B; lia].
  - intros u v E. apply R; [exact E|]. apply ALL. apply (REL u v E).
Qed.
End order_proof.
End anc.

Lemma numbered_acyclic G : numbered G -> acyclic G.
Proof. intros H. exists (fun x => x). exact H. Qed.

(** the sort on an acyclic graph keeps every pair (u, v) with u < v and v reachable from u in order *)
Lemma topological_sort_rel dense G prefer delay (rel : nat -> nat -> Prop) : wf_graph G -> acyclic G -> (forall u v, rel u v -> u < v /\ v < length G /\ reach G u v) ->
  exists l, topological_sort dense G prefer delay = Some l /\ Permutation (seq 0 (length G)) l /\ forall u v, rel u v -> before l u v.
Proof.
  intros W A REL. unfold topological_sort. set (preferred := filter prefer (seq 0 (length G))).
  assert (PB : forall p, In p preferred -> p < length G) by (intros p Hp; apply filter_In in Hp; destruct Hp as [Hp _]; apply in_seq in Hp; lia).
  destruct (Nat.eqb _ 0).
  - eexists. split; [reflexivity|]. split; [reflexivity|]. intros u v E. destruct (REL u v E) as (L & Lv & _).
    pose proof (before_filter_seq (length G) (fun _ => true) u v L) as K.
    assert (F : filter (fun _ => true) (seq 0 (length G)) = seq 0 (length G)).
    { clear. generalize (seq 0 (length G)) as l. induction l as [|x l IH]; [reflexivity|]. cbn. now rewrite IH. }
    rewrite F in K. apply K; apply in_seq; lia.
  - destruct dense.
    + destruct (ancestors_dense_spec G W A) as (m & E & _ & H). unfold toposort_dense. rewrite E. cbn [option_map].
      eexists. split; [reflexivity|]. apply (order_correct G rel REL _ _ PB). intros p a Hp Ha. apply H; [now apply PB|exact Ha].
    + destruct (ancestors_sparse_spec G W A _ preferred eq_refl) as (m & E & H). unfold toposort_sparse. rewrite E.
      assert (F : forallb (fun p => match nth p m None with Some _ => true | None => false end) preferred = true).
      { apply forallb_forall. intros p Hp. destruct (H p (PB p Hp) Hp) as (r & -> & _). reflexivity. }
      rewrite F. eexists. split; [reflexivity|]. apply (order_correct G rel REL _ _ PB). intros p a Hp Ha.
      destruct (H p (PB p Hp) Hp) as (r & -> & _ & Hr). now apply Hr.
Qed.
Lemma topological_sort_correct dense G prefer delay : wf_graph G -> numbered G ->
  exists l, topological_sort dense G prefer delay = Some l /\ topological_order G l.
Proof.
  intros W NUM. destruct (topological_sort_rel dense G prefer delay (edge G) W (numbered_acyclic G NUM)) as (l & E & P & R).
  - intros u v E. split; [exact (NUM u v E)|]. split; [exact (W u v E)|]. eapply reach_step; [constructor|exact E].
  - exists l. split; [exact E|]. split; [exact P|exact R].
Qed.

(** the depth-sensitive sort, for every cost function *)
Lemma depth_sort_correct G qubits ind cost nq : wf_graph G -> acyclic G ->
  exists l, depth_sort G qubits ind cost nq = Some l /\ topological_order G l.
Proof.
  intros W A. destruct (run_kahn_correct G (depth_pick qubits ind cost) (depth_visit qubits ind) (fun _ _ => True) W) with (p := repeat 0%Z nq) as (out & p' & E & T & _).
  - intros p q NE. unfold depth_pick. rewrite <- (map_length (fun u => cost (node_depths qubits p u) (ind u)) q). apply argmin_lt. intros K. apply map_eq_nil in K. contradiction.
  - auto.
  - exact A.
  - exact I.
  - unfold depth_sort. rewrite E. destruct T as [PM R]. pose proof (Permutation_length PM) as L. rewrite seq_length in L. rewrite <- L, Nat.eqb_refl.
    exists out. split; [reflexivity|]. split; assumption.
Qed.
