(** Proofs about the topological sorts. *)
From Verif.Lib Require Import Trace.
From Verif.Toposort Require Import TopoModel TopoSpec.
From Coq Require Import ZArith List Lia Bool Permutation.
Import ListNotations.
Local Open Scope nat_scope.

Lemma upd_length {A} : forall (l : list A) i f, length (upd l i f) = length l.
Proof. induction l; intros [|i] f; cbn; auto. Qed.
Lemma upd_nth {A} : forall (l : list A) i f j d, nth j (upd l i f) d = if Nat.eqb j i then (if Nat.ltb i (length l) then f (nth i l d) else d) else nth j l d.
Proof.
  induction l as [|x l IH]; intros [|i] f [|j] d; cbn -[Nat.ltb]; try reflexivity.
  - destruct (Nat.eqb j i); reflexivity.
  - rewrite IH. change (S i <? S (length l)) with (i <? length l). reflexivity.
Qed.

Definition cnt (l : list nat) (v : nat) : nat := count_occ Nat.eq_dec l v.
Lemma cnt_cons x l v : cnt (x :: l) v = (if Nat.eqb x v then 1 else 0) + cnt l v.
Proof. unfold cnt. cbn. destruct (Nat.eq_dec x v), (Nat.eqb_spec x v); try congruence; reflexivity. Qed.
Lemma cnt_pos l v : In v l <-> 0 < cnt l v.
Proof. unfold cnt. rewrite (count_occ_In Nat.eq_dec). lia. Qed.

Definition mem (x : nat) (l : list nat) : bool := existsb (Nat.eqb x) l.
Lemma mem_In x l : mem x l = true <-> In x l.
Proof. unfold mem. rewrite existsb_exists. split; [intros (y & H & E); apply Nat.eqb_eq in E; now subst|intros H; exists x; split; [exact H|apply Nat.eqb_refl]]. Qed.

(** remaining in-degree *)
Fixpoint indeg_list (G : graph) (us o : list nat) (v : nat) : nat :=
  match us with
  | [] => 0
  | u :: t => (if mem u o then 0 else cnt (succ G u) v) + indeg_list G t o v
  end.
Definition indeg (G : graph) (o : list nat) (v : nat) : nat := indeg_list G (seq 0 (length G)) o v.

Lemma indeg_list_zero G us o v : indeg_list G us o v = 0 <-> forall u, In u us -> In v (succ G u) -> In u o.
Proof.
  induction us as [|w us IH]; cbn; [split; [intros _ u []|reflexivity]|].
  destruct (mem w o) eqn:M.
  - rewrite Nat.add_0_l, IH. apply mem_In in M. split; [intros H u [->|K]; auto|auto].
  - split.
    + intros H u [->|K] Hv; [|apply IH in K; auto; lia]. apply cnt_pos in Hv. lia.
    + intros H. assert (indeg_list G us o v = 0) by (apply IH; auto).
      destruct (Nat.eq_dec (cnt (succ G w) v) 0); [lia|]. exfalso.
      assert (In w o) by (apply H; [now left|apply cnt_pos; lia]). apply mem_In in H1. congruence.
Qed.
Lemma indeg_zero G o v : indeg G o v = 0 <-> forall u, edge G u v -> In u o.
Proof.
  unfold indeg. rewrite indeg_list_zero. unfold edge. split; intros H u.
  - intros [A B]. apply H; [apply in_seq; lia|exact B].
  - intros A B. apply H. split; [apply in_seq in A; lia|exact B].
Qed.
Lemma mem_app_last u o w : mem w (o ++ [u]) = mem w o || (w =? u).
Proof. unfold mem. rewrite existsb_app. cbn. now rewrite orb_false_r. Qed.
Lemma indeg_list_step G o u v : ~ In u o -> forall us, NoDup us ->
  indeg_list G us o v = indeg_list G us (o ++ [u]) v + (if mem u us then cnt (succ G u) v else 0).
Proof.
  intros Hu us. induction us as [|w us IH]; intros N; [reflexivity|]. inversion N as [|? ? Nw N']; subst.
  cbn [indeg_list]. rewrite mem_app_last, (IH N'). cbn [mem existsb]. fold (mem u us).
  destruct (Nat.eqb_spec w u) as [->|NE].
  - rewrite Nat.eqb_refl. cbn [orb].
    assert (M : mem u o = false) by (destruct (mem u o) eqn:E; [apply mem_In in E; contradiction|reflexivity]).
    assert (M2 : mem u us = false) by (destruct (mem u us) eqn:E; [apply mem_In in E; contradiction|reflexivity]).
    rewrite M, M2. cbn [orb]. lia.
  - rewrite orb_false_r. destruct (Nat.eqb_spec u w); [congruence|]. cbn [orb]. lia.
Qed.
Lemma indeg_step G o u v : ~ In u o -> u < length G -> indeg G o v = indeg G (o ++ [u]) v + cnt (succ G u) v.
Proof.
  intros Hu L. unfold indeg. rewrite (indeg_list_step G o u v Hu _ (seq_NoDup _ _)).
  assert (M : mem u (seq 0 (length G)) = true) by (apply mem_In, in_seq; lia). now rewrite M.
Qed.

(** the initial in-degrees *)
Lemma inc_fold l : forall d v, v < length d -> (forall j, In j l -> j < length d) ->
  nth v (fold_left (fun d j => upd d j (fun x => (x + 1)%Z)) l d) 0%Z = (nth v d 0 + Z.of_nat (cnt l v))%Z.
Proof.
  induction l as [|j l IH]; intros d v Hv HB; cbn [fold_left]; [cbn; lia|].
  rewrite IH by (rewrite upd_length; auto; intros; apply HB; now right). rewrite upd_nth, cnt_cons.
  assert (j < length d) by (apply HB; now left).
  destruct (Nat.eqb_spec v j), (Nat.eqb_spec j v); try congruence; subst.
  - destruct (Nat.ltb_spec j (length d)); lia.
  - lia.
Qed.
Lemma inc_fold_length l : forall d, length (fold_left (fun d j => upd d j (fun x => (x + 1)%Z)) l d) = length d.
Proof. induction l; intros d; cbn [fold_left]; [reflexivity|]. now rewrite IHl, upd_length. Qed.
Lemma in_degrees_spec G : wf_graph G -> length (in_degrees G) = length G /\
  forall v, v < length G -> nth v (in_degrees G) 0%Z = Z.of_nat (indeg G [] v).
Proof.
  intros W. unfold in_degrees, indeg.
  assert (K : forall us d, (forall u, In u us -> u < length G) -> length d = length G ->
     let r := fold_left (fun d i => fold_left (fun d j => upd d j (fun x => (x + 1)%Z)) (succ G i) d) us d in
     length r = length G /\ forall v, v < length G -> nth v r 0%Z = (nth v d 0 + Z.of_nat (indeg_list G us [] v))%Z).
  { induction us as [|u us IH]; intros d HU HL; cbn [fold_left].
    - cbv zeta. split; [exact HL|]. intros. cbn. lia.
    - cbv zeta. destruct (IH (fold_left (fun d j => upd d j (fun x => (x + 1)%Z)) (succ G u) d)) as [L N].
      + intros; apply HU; now right.
      + now rewrite inc_fold_length.
      + split; [exact L|]. intros v Hv. rewrite N by exact Hv. cbn [indeg_list mem existsb].
        rewrite inc_fold; [lia|lia|]. intros j Hj. rewrite HL. apply (W u j). split; [apply HU; now left|exact Hj]. }
  destruct (K (seq 0 (length G)) (repeat 0%Z (length G))) as [L N].
  - intros u Hu. apply in_seq in Hu. lia.
  - apply repeat_length.
  - split; [exact L|]. intros v Hv. rewrite N by exact Hv. rewrite nth_repeat. lia.
Qed.

(** the successor loop *)
Lemma relax_fold l : forall d q, (forall j, In j l -> j < length d) ->
  (forall v, v < length d -> (Z.of_nat (cnt l v) <= nth v d 0)%Z) ->
  exists d' news, fold_left relax l (d, q) = (d', q ++ news) /\ length d' = length d /\ NoDup news /\
    (forall v, v < length d -> nth v d' 0%Z = (nth v d 0 - Z.of_nat (cnt l v))%Z) /\
    (forall v, In v news <-> v < length d /\ (0 < nth v d 0)%Z /\ nth v d 0%Z = Z.of_nat (cnt l v)).
Proof.
  induction l as [|j l IH]; intros d q HB HC.
  - exists d, []. cbn. rewrite app_nil_r. split; [reflexivity|]. split; [reflexivity|]. split; [constructor|]. split; [intros; lia|]. intros v. split; [intros []|]. intros (A & B & C). lia.
  - assert (Lj : j < length d) by (apply HB; now left).
    cbn [fold_left relax]. set (d1 := upd d j (fun x => (x - 1)%Z)).
    assert (L1 : length d1 = length d) by apply upd_length.
    assert (N1 : forall v, v < length d -> nth v d1 0%Z = (nth v d 0 - (if Nat.eqb j v then 1 else 0))%Z).
    { intros v Hv. unfold d1. rewrite upd_nth. destruct (Nat.eqb_spec v j), (Nat.eqb_spec j v); try congruence; subst.
      - destruct (Nat.ltb_spec j (length d)); lia.
      - lia. }
    assert (HC1 : forall v, v < length d1 -> (Z.of_nat (cnt l v) <= nth v d1 0)%Z).
    { intros v Hv. rewrite L1 in Hv. rewrite N1 by exact Hv. specialize (HC v Hv). rewrite cnt_cons in HC. destruct (Nat.eqb j v); lia. }
    assert (HB1 : forall k, In k l -> k < length d1) by (intros; rewrite L1; apply HB; now right).
    destruct (IH d1 (if (nth j d1 0 =? 0)%Z then q ++ [j] else q) HB1 HC1) as (d' & news & E & L' & ND & NV & NI).
    rewrite E. assert (NV' : forall v, v < length d -> nth v d' 0%Z = (nth v d 0 - Z.of_nat (cnt (j :: l) v))%Z).
    { intros v Hv. rewrite NV by lia. rewrite N1 by exact Hv. rewrite cnt_cons. destruct (Nat.eqb j v); lia. }
    assert (Cj := HC j Lj). rewrite cnt_cons, Nat.eqb_refl in Cj.
    assert (N1j := N1 j Lj). rewrite Nat.eqb_refl in N1j.
    destruct (Z.eqb_spec (nth j d1 0%Z) 0) as [Z0|Z0].
    + exists d', (j :: news). rewrite <- app_assoc. split; [reflexivity|]. split; [lia|].
      assert (NJ : ~ In j news) by (intros K; apply NI in K; lia).
      split; [constructor; assumption|]. split; [exact NV'|]. intros v. cbn [In]. rewrite NI, L1, cnt_cons.
      destruct (Nat.eqb_spec j v) as [<-|NE].
      * split; [|intros; now left]. intros _. split; [exact Lj|]. specialize (HC1 j ltac:(lia)). lia.
      * split; [intros [K|(A & B & C)]; [congruence|]|intros (A & B & C); right];
          (split; [exact A|]); pose proof (N1 v A) as Nv; destruct (Nat.eqb_spec j v); try congruence; lia.
    + exists d', news. split; [reflexivity|]. split; [lia|]. split; [exact ND|]. split; [exact NV'|].
      intros v. rewrite NI, L1, cnt_cons. destruct (Nat.eqb_spec j v) as [<-|NE].
      * split; intros (A & B & C); (split; [exact A|]); specialize (HC1 j ltac:(lia)); lia.
      * split; intros (A & B & C); (split; [exact A|]); pose proof (N1 v A) as Nv; destruct (Nat.eqb_spec j v); try congruence; lia.
Qed.

Lemma pop_at_spec : forall q i, i < length q -> exists a u b, q = a ++ u :: b /\ pop_at q i = Some (u, a ++ b).
Proof.
  induction q as [|x q IH]; intros [|i] H; cbn in H; try lia.
  - exists [], x, q. split; reflexivity.
  - destruct (IH i ltac:(lia)) as (a & u & b & -> & E). exists (x :: a), u, b. split; [reflexivity|]. cbn. now rewrite E.
Qed.

(** what holds of the visited nodes at any time *)
Definition good (G : graph) (o : list nat) : Prop :=
  NoDup o /\ (forall x, In x o -> x < length G) /\ (forall u v, edge G u v -> In v o -> before o u v).

Lemma before_snoc (o : list nat) x u v : before o u v -> before (o ++ [x]) u v.
Proof. intros (a & b & c & ->). exists a, b, (c ++ [x]). rewrite <- !app_assoc. cbn. now rewrite <- app_assoc. Qed.
Lemma before_last (o : list nat) x u : In u o -> before (o ++ [x]) u x.
Proof. intros H. apply in_split in H. destruct H as (a & b & ->). exists a, b, []. now rewrite <- app_assoc. Qed.

Lemma NoDup_app {A} (l m : list A) : NoDup l -> NoDup m -> (forall x, In x l -> In x m -> False) -> NoDup (l ++ m).
Proof.
  induction l as [|x l IH]; intros Nl Nm D; [exact Nm|]. inversion Nl; subst. cbn. constructor.
  - rewrite in_app_iff. intros [K|K]; [contradiction|]. apply (D x); [now left|exact K].
  - apply IH; auto. intros y Hy. apply D. now right.
Qed.
Lemma NoDup_app_remove_r {A} (l m : list A) : NoDup (l ++ m) -> NoDup l.
Proof. induction l as [|x l IH]; intros H; [constructor|]. cbn in H. inversion H; subst. constructor; [rewrite in_app_iff in *; tauto|auto]. Qed.

Section kahn_proof.
Context {P : Type} (G : graph) (pick : P -> list nat -> nat) (visit : P -> nat -> P) (J : list nat -> P -> Prop).
Hypothesis W : wf_graph G.
Hypothesis pick_ok : forall p q, q <> [] -> pick p q < length q.
Hypothesis J_step : forall o p u, good G o -> ~ In u o -> u < length G -> (forall w, edge G w u -> In w o) -> J o p -> J (o ++ [u]) (visit p u).

Definition inv (o q : list nat) (d : list Z) : Prop :=
  length d = length G /\ NoDup (o ++ q) /\ (forall x, In x (o ++ q) -> x < length G) /\
  (forall v, v < length G -> nth v d 0%Z = Z.of_nat (indeg G o v)) /\
  (forall v, v < length G -> indeg G o v = 0 <-> In v (o ++ q)) /\
  (forall u v, edge G u v -> In v o -> before o u v).

Lemma inv_good o q d : inv o q d -> good G o.
Proof.
  intros (L & N & B & _ & _ & R). split; [|split; [|exact R]].
  - apply (NoDup_app_remove_r _ _ N).
  - intros x Hx. apply B. apply in_app_iff. now left.
Qed.

Lemma inv_step o a u b d : inv o (a ++ u :: b) d ->
  exists d' news, fold_left relax (succ G u) (d, a ++ b) = (d', (a ++ b) ++ news) /\ inv (o ++ [u]) ((a ++ b) ++ news) d'.
Proof.
  intros (L & N & B & D & Z0 & R).
  assert (Lu : u < length G) by (apply B; rewrite !in_app_iff; right; right; now left).
  assert (Nu : ~ In u o).
  { intros K. rewrite app_assoc in N. apply NoDup_remove_2 in N. apply N. rewrite !in_app_iff. auto. }
  assert (HB : forall j, In j (succ G u) -> j < length d) by (intros j Hj; rewrite L; apply (W u j); split; assumption).
  assert (HC : forall v, v < length d -> (Z.of_nat (cnt (succ G u) v) <= nth v d 0)%Z).
  { intros v Hv. rewrite D by lia. rewrite (indeg_step G o u v Nu Lu). lia. }
  destruct (relax_fold (succ G u) d (a ++ b) HB HC) as (d' & news & E & L' & ND & NV & NI).
  exists d', news. split; [exact E|].
  assert (D' : forall v, v < length G -> nth v d' 0%Z = Z.of_nat (indeg G (o ++ [u]) v)).
  { intros v Hv. rewrite NV by lia. rewrite D by exact Hv. rewrite (indeg_step G o u v Nu Lu). lia. }
  assert (NEW : forall v, In v news <-> v < length G /\ 0 < indeg G o v /\ indeg G (o ++ [u]) v = 0).
  { intros v. rewrite NI, L. split; intros (A & K); (split; [exact A|]); rewrite D in * by exact A; pose proof (indeg_step G o u v Nu Lu); lia. }
  assert (PM : Permutation ((o ++ [u]) ++ (a ++ b) ++ news) ((o ++ a ++ u :: b) ++ news)).
  { rewrite <- !app_assoc. apply Permutation_app_head. cbn. rewrite (app_comm_cons b news u). apply Permutation_middle. }
  assert (INE : forall v, In v ((o ++ [u]) ++ (a ++ b) ++ news) <-> In v (o ++ a ++ u :: b) \/ In v news).
  { intros v. split; intros H; [apply in_app_iff; now apply (Permutation_in _ PM)|apply (Permutation_in _ (Permutation_sym PM)); now apply in_app_iff]. }
  split; [lia|]. split.
  { apply (Permutation_NoDup (Permutation_sym PM)). apply NoDup_app; [exact N|exact ND|].
    intros v H1 H2. apply NEW in H2. destruct H2 as (A & K & _). assert (indeg G o v = 0) by (now apply Z0). lia. }
  split.
  { intros x Hx. apply INE in Hx. destruct Hx as [Hx|Hx]; [now apply B|now apply NEW]. }
  split; [exact D'|]. split.
  { intros v Hv. rewrite INE, NEW. rewrite <- (Z0 v Hv). pose proof (indeg_step G o u v Nu Lu). split.
    - intros K. destruct (Nat.eq_dec (indeg G o v) 0); [now left|right; lia].
    - intros [K|(A & K & M)]; lia. }
  intros x v Exv Hv. apply in_app_iff in Hv. destruct Hv as [Hv|[<-|[]]].
  - apply before_snoc. now apply R.
  - apply before_last. assert (Q : indeg G o u = 0) by (apply Z0; [exact Lu|]; rewrite !in_app_iff; right; right; now left).
    rewrite indeg_zero in Q. now apply Q.
Qed.

Lemma inv_preds o q d u : inv o q d -> In u q -> forall w, edge G w u -> In w o.
Proof.
  intros (L & N & B & D & Z0 & R) Hu. assert (Hu' : In u (o ++ q)) by (apply in_app_iff; now right).
  apply indeg_zero. apply Z0; [now apply B|exact Hu'].
Qed.

Lemma kahn_inv : forall fuel o q d p, inv o q d -> J o p -> length G <= fuel + length o ->
  exists out p' d', kahn G pick visit fuel p d q o = Some (out, p') /\ inv out [] d' /\ J out p'.
Proof.
  induction fuel as [|fuel IH]; intros o q d p HI HJ HF.
  - destruct q as [|x q].
    + exists o, p, d. cbn. split; [reflexivity|]. split; assumption.
    + exfalso. destruct HI as (L & N & B & _). assert (K : length (o ++ x :: q) <= length (seq 0 (length G))).
      { apply NoDup_incl_length; [exact N|]. intros y Hy. apply in_seq. specialize (B y Hy). lia. }
      rewrite app_length, seq_length in K. cbn in K. lia.
  - destruct q as [|x q].
    + exists o, p, d. cbn. split; [reflexivity|]. split; assumption.
    + cbn [kahn]. assert (PK : pick p (x :: q) < length (x :: q)) by (apply pick_ok; discriminate).
      destruct (pop_at_spec _ _ PK) as (a & u & b & E & ->). rewrite E in HI.
      destruct (inv_step o a u b d HI) as (d' & news & -> & HI').
      apply (IH (o ++ [u])).
      * exact HI'.
      * pose proof HI as (L & N & B & D & Z0 & R). apply J_step.
        -- exact (inv_good _ _ _ HI).
        -- intros K. rewrite app_assoc in N. apply NoDup_remove_2 in N. apply N. rewrite !in_app_iff. auto.
        -- apply B. rewrite !in_app_iff. right. right. now left.
        -- apply (inv_preds _ _ _ _ HI). apply in_elt.
        -- exact HJ.
      * rewrite app_length. cbn. lia.
Qed.

Lemma inv_init : inv [] (roots (in_degrees G)) (in_degrees G).
Proof.
  destruct (in_degrees_spec G W) as [L N]. split; [exact L|]. cbn [app]. unfold roots. rewrite L.
  split; [apply NoDup_filter, seq_NoDup|]. split; [intros x Hx; apply filter_In in Hx; destruct Hx as [Hx _]; apply in_seq in Hx; lia|].
  split; [exact N|]. split.
  - intros v Hv. rewrite filter_In, in_seq. rewrite N by exact Hv. rewrite Z.eqb_eq. split; [intros; split; lia|intros [_ K]; lia].
  - intros u v _ [].
Qed.

Lemma all_visited o d : acyclic G -> inv o [] d -> Permutation (seq 0 (length G)) o.
Proof.
  intros [rank HR] (L & N & B & D & Z0 & R). rewrite app_nil_r in *.
  assert (K : forall k v, rank v < k -> v < length G -> In v o).
  { induction k as [|k IH]; intros v Hk Hv; [lia|]. apply Z0; [exact Hv|]. apply indeg_zero. intros u E.
    apply IH; [specialize (HR _ _ E); lia|apply E]. }
  apply NoDup_Permutation; [apply seq_NoDup|exact N|]. intros v. rewrite in_seq. split.
  - intros H. apply (K (S (rank v))); lia.
  - intros H. specialize (B v H). lia.
Qed.

Lemma run_kahn_correct p : acyclic G -> J [] p -> exists out p', run_kahn G pick visit p = Some (out, p') /\ topological_order G out /\ J out p'.
Proof.
  intros A HJ. unfold run_kahn. destruct (kahn_inv (length G) [] _ _ p inv_init HJ) as (out & p' & d' & E & HI & HJ'); [cbn; lia|].
  exists out, p'. split; [exact E|]. split; [|exact HJ'].
  pose proof (all_visited _ _ A HI) as PM. split; [exact PM|]. intros u v Euv. destruct HI as (_ & _ & _ & _ & _ & R).
  apply R; [exact Euv|]. apply (Permutation_in _ PM). apply in_seq. specialize (W u v Euv). lia.
Qed.
End kahn_proof.
