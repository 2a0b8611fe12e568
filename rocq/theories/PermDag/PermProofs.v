(** Proofs: the permeability graph orders conflicting instructions. *)
From Verif.Lib Require Import Trace.
From Verif.Toposort Require Import TopoModel TopoSpec TopoProofs AncProofs AllocProofs.
From Verif.PermDag Require Import PermModel PermSpec.
From Coq Require Import ZArith List Lia Bool Permutation.
Import ListNotations.
Local Open Scope nat_scope.

Definition nth_node (N : list node) (u : nat) : node := nth u N (NOp 0).
Definition rank (N : list node) (u : nat) : nat := match nth_node N u with NTerm _ x => 2 * x + 1 | _ => 2 * u + 2 end.
Definition node_of (N : list node) (n i : nat) : Prop := n < length N /\ src (nth_node N n) = [i].
Definition step (g : dag) (u v : nat) : Prop := exists o, In (u, v, o) (edges g).
Inductive path (g : dag) : nat -> nat -> Prop :=
| path_refl u : path g u u
| path_snoc u v w : path g u v -> step g v w -> path g u w.
Lemma path_one g u v : step g u v -> path g u v.
Proof. intros. econstructor; [constructor|eassumption]. Qed.

(** well-formed edges and terminators *)
Definition edge_ok (N : list node) (e : nat * nat * option nat) : Prop :=
  let '(u, v, _) := e in u < length N /\ v < length N /\ rank N u < rank N v /\ (forall q s, nth_node N v <> NAlloc q s).
Definition base (g : dag) : Prop :=
  Forall (edge_ok (nodes g)) (edges g) /\ (forall u q x, u < length (nodes g) -> nth_node (nodes g) u = NTerm q x -> x < u).

Definition grows (g g' : dag) : Prop := (exists l, nodes g' = nodes g ++ l) /\ incl (edges g) (edges g').
Lemma grows_refl g : grows g g.
Proof. split; [exists []; now rewrite app_nil_r|apply incl_refl]. Qed.
Lemma grows_trans a b c : grows a b -> grows b c -> grows a c.
Proof. intros [[l E] I] [[m F] J]. split; [exists (l ++ m); now rewrite F, E, app_assoc|eapply incl_tran; eassumption]. Qed.
Lemma nth_node_app N l u : u < length N -> nth_node (N ++ l) u = nth_node N u.
Proof. intros. unfold nth_node. now apply app_nth1. Qed.
Lemma rank_app N l u : u < length N -> rank (N ++ l) u = rank N u.
Proof. intros. unfold rank. now rewrite nth_node_app. Qed.
Lemma node_of_app N l n i : node_of N n i -> node_of (N ++ l) n i.
Proof. intros [H E]. split; [rewrite app_length; lia|now rewrite nth_node_app]. Qed.
Lemma edge_ok_app N l e : edge_ok N e -> edge_ok (N ++ l) e.
Proof.
  destruct e as [[u v] o]. intros (A & B & C & D). unfold edge_ok. rewrite app_length, !rank_app, nth_node_app by assumption. repeat split; try lia. exact D.
Qed.
Lemma path_grows g g' u v : grows g g' -> path g u v -> path g' u v.
Proof. intros [_ I] H. induction H; [constructor|]. econstructor; [eassumption|]. destruct H0 as [o Ho]. exists o. now apply I. Qed.
Lemma path_trans g u v w : path g u v -> path g v w -> path g u w.
Proof. intros H K. induction K; [exact H|]. eapply path_snoc; [apply IHK, H|eassumption]. Qed.

Lemma members_in g r q v : In v (members g r q) <-> In (r, v, Some q) (edges g).
Proof.
  unfold members. rewrite in_map_iff. split.
  - intros ([[u v'] o] & E & H). cbn in E. subst v'. apply filter_In in H. destruct H as [H K]. apply andb_true_iff in K. destruct K as [K1 K2].
    apply Nat.eqb_eq in K1. subst u. destruct o as [q'|]; [|discriminate]. apply Nat.eqb_eq in K2. now subst.
  - intros H. exists (r, v, Some q). split; [reflexivity|]. apply filter_In. split; [exact H|]. rewrite !Nat.eqb_refl. reflexivity.
Qed.

Lemma add_edge_spec g u v o : u <> v -> add_edge g u v o = Dag (nodes g) (edges g ++ [(u, v, o)]) (recent g) (streak g) (touched g) (crecent g).
Proof. intros H. unfold add_edge. apply Nat.eqb_neq in H. now rewrite H. Qed.
Lemma add_edge_fields g u v o : nodes (add_edge g u v o) = nodes g /\ recent (add_edge g u v o) = recent g /\ streak (add_edge g u v o) = streak g /\
  touched (add_edge g u v o) = touched g /\ crecent (add_edge g u v o) = crecent g.
Proof. unfold add_edge. destruct (Nat.eqb u v); repeat split. Qed.

(** the term-edge loop *)
Lemma term_fold t q : forall ms g, (forall s, In s ms -> s <> t) ->
  fold_left (fun g s => add_edge g s t (Some q)) ms g =
  Dag (nodes g) (edges g ++ map (fun s => (s, t, Some q)) ms) (recent g) (streak g) (touched g) (crecent g).
Proof.
  induction ms as [|s ms IH]; intros g H; cbn [fold_left map].
  - destruct g. cbn. now rewrite app_nil_r.
  - rewrite IH by (intros; apply H; now right). rewrite add_edge_spec by (apply H; now left). cbn. now rewrite <- app_assoc.
Qed.

Lemma members_app N E E' r s t c q u :
  members (Dag N (E ++ E') r s t c) u q = map (fun '(_, v, _) => v) (filter (fun '(u', _, o) => Nat.eqb u' u && match o with Some q' => Nat.eqb q q' | None => false end) E)
    ++ map (fun '(_, v, _) => v) (filter (fun '(u', _, o) => Nat.eqb u' u && match o with Some q' => Nat.eqb q q' | None => false end) E').
Proof. unfold members. cbn [edges]. now rewrite filter_app, map_app. Qed.

Lemma filter_nil {A} (f : A -> bool) l : (forall e, In e l -> f e = false) -> filter f l = [].
Proof. intros H. induction l as [|a l IH]; [reflexivity|]. cbn. rewrite (H a) by now left. apply IH. intros. apply H. now right. Qed.
Lemma map_eq_nil_iff {A B} (f : A -> B) l : l = [] -> map f l = [].
Proof. now intros ->. Qed.

Section build.
Context (circ : list instr).
Notation c := (at_ circ).

(** the state of one qubit after the instructions before K *)
Definition qinv (g : dag) (q K : nat) : Prop :=
  match recent g q with
  | None => forall i, i < K -> ~ In q (qs (c i))
  | Some r => r < length (nodes g) /\ (forall s, In s (members g r q) -> members g s q = []) /\
      forall i, i < K -> In q (qs (c i)) -> exists n, node_of (nodes g) n i /\
        (path g n r \/ (In n (members g r q) /\ etype (c i) q = streak g q))
  end.

Definition same_q (g g' : dag) (q : nat) : Prop :=
  grows g g' /\ recent g' q = recent g q /\ streak g' q = streak g q /\ forall u, u < length (nodes g) -> members g' u q = members g u q.

Lemma qinv_same g g' q K : base g -> same_q g g' q -> qinv g q K -> qinv g' q K.
Proof.
  intros [B _] (G & R & S & M) H. unfold qinv in *. rewrite R. destruct (recent g q) as [r|]; [|exact H].
  destruct H as (Lr & C2 & C1). destruct G as [[l E] I]. split; [rewrite E, app_length; lia|]. rewrite (M r Lr). split.
  - intros s Hs. rewrite M; [now apply C2|]. apply members_in in Hs. rewrite Forall_forall in B. specialize (B _ Hs). cbn in B. lia.
  - intros i Hi Hq. destruct (C1 i Hi Hq) as (n & Nn & P). exists n. split; [rewrite E; now apply node_of_app|]. rewrite S.
    destruct P as [P|P]; [left|right; exact P]. apply (path_grows g); [split; [exists l; exact E|exact I]|exact P].
Qed.

Lemma base_src g u v o : base g -> In (u, v, o) (edges g) -> u < length (nodes g) /\ v < length (nodes g) /\ rank (nodes g) u < rank (nodes g) v.
Proof. intros [B _] H. rewrite Forall_forall in B. specialize (B _ H). cbn in B. tauto. Qed.

Lemma rank_bound g u x : base g -> u < length (nodes g) -> u < x -> rank (nodes g) u < 2 * x + 1.
Proof. intros [_ T] L H. unfold rank. destruct (nth_node (nodes g) u) as [| |q y] eqn:E; try lia. specialize (T u q y L E). lia. Qed.

Definition low (g : dag) (q x : nat) : Prop := match recent g q with Some r => r < x /\ forall s, In s (members g r q) -> s < x | None => False end.

Lemma nil_members g u q : (forall v o, ~ In (u, v, o) (edges g)) -> members g u q = [].
Proof. intros H. destruct (members g u q) as [|v l] eqn:E; [reflexivity|]. exfalso. apply (H v (Some q)). apply members_in. rewrite E. now left. Qed.

Lemma connect_correct x k g q e : base g -> x < length (nodes g) -> nth_node (nodes g) x = NOp k -> (forall v o, ~ In (x, v, o) (edges g)) ->
  low g q x -> qinv g q k -> (streak g q <> PN -> touched g q = true) -> In q (qs (c k)) -> etype (c k) q = e ->
  let g' := connect x g (q, e) in
  base g' /\ grows g g' /\ (forall v o, ~ In (x, v, o) (edges g')) /\ qinv g' q (S k) /\ touched g' q = true /\
  (forall q', q' <> q -> same_q g g' q' /\ touched g' q' = touched g q') /\ crecent g' = crecent g /\
  (forall i, i < k -> In q (qs (c i)) -> ~ (etype (c i) q = e /\ e <> PN) -> exists n, node_of (nodes g') n i /\ path g' n x) /\
  flat_map src (nodes g') = flat_map src (nodes g) /\ nth_node (nodes g') x = NOp k.
Proof.
  intros B Lx Nx NX LOW Q TS Hq He. unfold low in LOW. unfold qinv in Q. destruct (recent g q) as [r|] eqn:R; [|destruct LOW]. destruct LOW as [Lr Lm]. destruct Q as (_ & C2 & C1).
  cbv zeta. unfold connect. rewrite R.
  assert (RX : rank (nodes g) x = 2 * x + 2) by (unfold rank; now rewrite Nx).
  assert (NOA : forall q0 s0, nth_node (nodes g) x <> NAlloc q0 s0) by (rewrite Nx; discriminate).
  destruct (ptype_eqb (streak g q) e && negb (ptype_eqb e PN)) eqn:ST.
  - (* the streak continues *)
    assert (SE : streak g q = e /\ e <> PN) by (destruct (streak g q), e; cbn in ST; try discriminate; split; congruence).
    destruct SE as [SE NEe].
    rewrite add_edge_spec by lia. set (g' := Dag _ _ _ _ _ _).
    assert (G : grows g g') by (split; [exists []; cbn; now rewrite app_nil_r|cbn; apply incl_appl, incl_refl]).
    assert (MEM : forall u q', members g' u q' = members g u q' ++ (if Nat.eqb r u && Nat.eqb q' q then [x] else [])).
    { intros u q'. unfold g'. rewrite members_app. f_equal. cbn [filter]. destruct (Nat.eqb r u && Nat.eqb q' q); reflexivity. }
    split; [|split; [exact G|]].
    { destruct B as [B T]. split; [|exact T]. cbn [edges nodes g']. apply Forall_app. split; [exact B|]. constructor; [|constructor].
      repeat split; try lia; [|exact NOA]. rewrite RX. pose proof (rank_bound g r x (conj B T)). lia. }
    split; [|split; [|split; [|split; [|split; [|split; [|split]]]]]].
    + intros v o H. cbn in H. apply in_app_iff in H. destruct H as [H|[H|[]]]; [exact (NX v o H)|]. injection H as E _ _. lia.
    + unfold qinv. cbn [recent g' nodes]. rewrite R. split; [lia|]. rewrite MEM, !Nat.eqb_refl. cbn [andb]. split.
      * intros s Hs. rewrite MEM. apply in_app_iff in Hs. destruct Hs as [Hs|[<-|[]]].
        -- rewrite C2 by exact Hs. apply members_in in Hs. pose proof (base_src g _ _ _ B Hs). destruct (Nat.eqb_spec r s); [subst; lia|reflexivity].
        -- rewrite (nil_members g x q NX). destruct (Nat.eqb_spec r x); [lia|reflexivity].
      * intros i Hi Hiq. destruct (Nat.eq_dec i k) as [->|NE].
        -- exists x. split; [split; [exact Lx|now rewrite Nx]|]. right. split; [apply in_app_iff; right; now left|]. cbn [streak g']. congruence.
        -- destruct (C1 i ltac:(lia) Hiq) as (n & Nn & [P|[P1 P2]]); exists n; (split; [exact Nn|]); [left; now apply (path_grows g)|right].
           split; [apply in_app_iff; now left|exact P2].
    + cbn [touched g']. apply TS. congruence.
    + intros q' NE. split; [|reflexivity]. split; [exact G|]. split; [reflexivity|]. split; [reflexivity|]. intros u _. rewrite MEM.
      destruct (Nat.eqb_spec q' q); [contradiction|]. rewrite andb_false_r. apply app_nil_r.
    + reflexivity.
    + intros i Hi Hiq NC. destruct (C1 i Hi Hiq) as (n & Nn & [P|[P1 P2]]).
      * exists n. split; [exact Nn|]. apply (path_trans g' n r x); [now apply (path_grows g)|]. apply path_one. exists (Some q). cbn. apply in_app_iff. right. now left.
      * exfalso. apply NC. split; [congruence|exact NEe].
    + reflexivity.
    + exact Nx.
  - (* the streak ends *)
    clear ST.
    (* the node r1 after which x is inserted, in the extended graph g1 *)
    set (g1 := if Nat.ltb 1 (length (members g r q)) then _ else _).
    assert (A : exists r1, recent g1 q = Some r1 /\ base g1 /\ grows g g1 /\ r1 < length (nodes g1) /\ r1 <> x /\ rank (nodes g1) r1 < 2 * x + 2 /\
      (forall v o, ~ In (x, v, o) (edges g1)) /\ members g1 r1 q = [] /\ streak g1 = streak g /\ touched g1 = touched g /\ crecent g1 = crecent g /\
      (forall q', q' <> q -> same_q g g1 q') /\ flat_map src (nodes g1) = flat_map src (nodes g) /\
      (forall i, i < k -> In q (qs (c i)) -> exists n, node_of (nodes g1) n i /\ path g1 n r1)).
    { destruct (members g r q) as [|s [|s' ms]] eqn:M; cbn [length Nat.ltb Nat.leb] in g1.
      - exists r. unfold g1. repeat (split; [first [exact R|exact B|apply grows_refl|lia|exact NX|exact M|reflexivity]|]).
        split; [pose proof (rank_bound g r x B ltac:(lia) Lr); lia|]. repeat (split; [first [exact NX|exact M|reflexivity]|]).
        split; [intros q' _; repeat split; [exists []; now rewrite app_nil_r|apply incl_refl]|]. split; [reflexivity|].
        intros i Hi Hiq. destruct (C1 i Hi Hiq) as (n & Nn & [P|[[] _]]). exists n. now split.
      - assert (Hs : In (r, s, Some q) (edges g)) by (apply members_in; rewrite M; now left).
        assert (Ls : s < x) by (apply Lm; now left).
        exists s. unfold g1. cbn [set_recent recent nodes edges streak touched crecent]. unfold fupd at 1. rewrite Nat.eqb_refl.
        assert (GG : grows g (set_recent g q s)) by (split; [exists []; cbn; now rewrite app_nil_r|apply incl_refl]).
        repeat (split; [first [reflexivity|exact B|exact GG|lia|exact NX]|]).
        split; [pose proof (rank_bound g s x B ltac:(lia) Ls); lia|]. split; [exact NX|]. split; [apply C2; now left|].
        repeat (split; [reflexivity|]). split.
        { intros q' NE. split; [exact GG|]. cbn [set_recent recent streak]. unfold fupd. apply Nat.eqb_neq in NE. rewrite NE. repeat split. }
        split; [reflexivity|]. intros i Hi Hiq. destruct (C1 i Hi Hiq) as (n & Nn & [P|[[<-|[]] _]]); exists n || exists s; (split; [exact Nn|]).
        + apply (path_trans _ n r s); [exact (path_grows g (set_recent g q s) n r GG P)|]. apply path_one. exists (Some q). exact Hs.
        + constructor.
      - set (ms0 := s :: s' :: ms) in *. set (t := length (nodes g)) in *.
        assert (EG : g1 = set_recent (Dag (nodes g ++ [NTerm q x]) (edges g ++ map (fun s => (s, t, Some q)) ms0) (recent g) (streak g) (touched g) (crecent g)) q t).
        { unfold g1. cbv zeta. rewrite term_fold; [reflexivity|]. intros y Hy. specialize (Lm y Hy). unfold t. lia. }
        clearbody g1. subst g1.
        set (g1 := set_recent _ _ _).
        assert (E1 : nodes g1 = nodes g ++ [NTerm q x]) by reflexivity.
        assert (E2 : edges g1 = edges g ++ map (fun s => (s, t, Some q)) ms0) by reflexivity.
        assert (GG : grows g g1) by (split; [exists [NTerm q x]; exact E1|rewrite E2; apply incl_appl, incl_refl]).
        assert (Nt : nth_node (nodes g1) t = NTerm q x) by (rewrite E1; unfold nth_node, t; rewrite app_nth2, Nat.sub_diag by lia; reflexivity).
        assert (Rt : rank (nodes g1) t = 2 * x + 1) by (unfold rank; now rewrite Nt).
        assert (Hms : forall y, In y ms0 -> In (r, y, Some q) (edges g)) by (intros y Hy; apply members_in; now rewrite M).
        assert (ST : forall y, In y ms0 -> step g1 y t) by (intros y Hy; exists (Some q); rewrite E2; apply in_app_iff; right; apply in_map_iff; exists y; now split).
        exists t. split; [cbn; unfold fupd; now rewrite Nat.eqb_refl|].
        assert (B1 : base g1).
        { destruct B as [B T]. split.
          - rewrite E2. apply Forall_app. split; [rewrite E1; eapply Forall_impl; [|exact B]; intros; now apply edge_ok_app|].
            apply Forall_forall. intros e' H. apply in_map_iff in H. destruct H as (y & <- & Hy). specialize (Lm y Hy). cbn [edge_ok].
            rewrite Nt, Rt, E1, app_length, rank_app by lia. cbn [length]. pose proof (rank_bound g y x (conj B T) ltac:(lia) Lm). repeat split; try (unfold t; lia). discriminate.
          - rewrite E1. intros u q0 x0 Hu HN. rewrite app_length in Hu. cbn in Hu. destruct (Nat.eq_dec u t) as [->|NE].
            + rewrite <- E1, Nt in HN. injection HN as _ <-. exact Lx.
            + rewrite nth_node_app in HN by (unfold t in NE; lia). apply (T u q0 x0); [unfold t in NE; lia|exact HN]. }
        split; [exact B1|]. split; [exact GG|]. split; [rewrite E1, app_length; cbn; unfold t; lia|]. split; [unfold t; lia|]. split; [rewrite Rt; lia|].
        assert (NX1 : forall v o, ~ In (x, v, o) (edges g1)).
        { intros v o H. rewrite E2 in H. apply in_app_iff in H. destruct H as [H|H]; [exact (NX v o H)|]. apply in_map_iff in H. destruct H as (y & E & Hy). injection E as -> _ _. specialize (Lm x Hy). lia. }
        split; [exact NX1|]. split.
        { apply nil_members. intros v o H. rewrite E2 in H. apply in_app_iff in H. destruct H as [H|H].
          - pose proof (base_src g _ _ _ B H). unfold t in *. lia.
          - apply in_map_iff in H. destruct H as (y & E & Hy). injection E as -> _ _. specialize (Lm t Hy). unfold t in *. lia. }
        repeat (split; [reflexivity|]). split.
        { intros q' NE. split; [exact GG|]. split; [cbn; unfold fupd; apply Nat.eqb_neq in NE; now rewrite NE|]. split; [reflexivity|]. intros u Hu.
          unfold g1. cbn [set_recent]. unfold set_recent. cbn [nodes edges recent streak touched crecent]. rewrite members_app. unfold members. rewrite <- app_nil_r. f_equal.
          apply map_eq_nil_iff. apply filter_nil. intros e' H. apply in_map_iff in H. destruct H as (y & <- & _). apply Nat.eqb_neq in NE. rewrite NE. apply andb_false_r. }
        split; [rewrite E1, flat_map_app; cbn; now rewrite app_nil_r|].
        intros i Hi Hiq. destruct (C1 i Hi Hiq) as (n & Nn & P). exists n. split; [rewrite E1; now apply node_of_app|]. destruct P as [P|[P _]].
        + apply (path_trans g1 n r t); [now apply (path_grows g)|]. apply (path_trans g1 r s t); [apply path_one; exists (Some q); apply GG, Hms; now left|]. apply path_one, ST. now left.
        + apply path_one, ST, P. }
    clearbody g1. destruct A as (r1 & R1 & B1 & G1 & Lr1 & NEr & RK & NX1 & M1 & S1 & T1 & CR1 & OTH & SRC & ALL).
    rewrite R1. rewrite add_edge_spec by exact NEr. cbn [nodes edges recent streak touched crecent]. set (g' := Dag _ _ _ _ _ _).
    assert (G' : grows g1 g') by (split; [exists []; cbn; now rewrite app_nil_r|cbn; apply incl_appl, incl_refl]).
    assert (MEM : forall u q', members g' u q' = members g1 u q' ++ (if Nat.eqb r1 u && Nat.eqb q' q then [x] else [])).
    { intros u q'. unfold g'. rewrite members_app. f_equal. cbn [filter]. destruct (Nat.eqb r1 u && Nat.eqb q' q); reflexivity. }
    assert (Lx1 : x < length (nodes g1)) by (destruct G1 as [[l E] _]; rewrite E, app_length; lia).
    assert (Nx1 : nth_node (nodes g1) x = NOp k) by (destruct G1 as [[l E] _]; rewrite E, nth_node_app; assumption).
    assert (STx : step g' r1 x) by (exists (Some q); cbn; apply in_app_iff; right; now left).
    split; [|split; [exact (grows_trans _ _ _ G1 G')|split; [|split; [|split; [|split; [|split; [|split; [|split]]]]]]]].
    + destruct B1 as [B1 T]. split; [|exact T]. cbn [edges nodes g']. apply Forall_app. split; [exact B1|]. constructor; [|constructor].
      cbn [edge_ok]. rewrite Nx1. repeat split; try assumption; [|discriminate]. unfold rank at 2. rewrite Nx1. exact RK.
    + intros v o H. cbn in H. apply in_app_iff in H. destruct H as [H|[H|[]]]; [exact (NX1 v o H)|]. injection H as E _ _. contradiction.
    + unfold qinv. cbn [recent g' nodes]. rewrite R1. split; [exact Lr1|]. rewrite MEM, M1, !Nat.eqb_refl. cbn [andb app]. split.
      * intros s [<-|[]]. rewrite MEM, (nil_members g1 x q NX1). destruct (Nat.eqb_spec r1 x); [contradiction|reflexivity].
      * intros i Hi Hiq. destruct (Nat.eq_dec i k) as [->|NE].
        -- exists x. split; [split; [exact Lx1|now rewrite Nx1]|]. right. split; [now left|]. cbn [streak g']. unfold fupd. now rewrite Nat.eqb_refl.
        -- destruct (ALL i ltac:(lia) Hiq) as (n & Nn & P). exists n. split; [exact Nn|]. left. exact (path_grows g1 g' n r1 G' P).
    + cbn [touched g']. unfold fupd. now rewrite Nat.eqb_refl.
    + intros q' NE. pose proof (OTH q' NE) as (_ & Rq & Sq & Mq). pose proof NE as NE'. apply Nat.eqb_neq in NE. split.
      * split; [exact (grows_trans _ _ _ G1 G')|]. split; [exact Rq|]. split; [cbn [streak g']; unfold fupd; rewrite NE; exact Sq|]. intros u Hu. rewrite MEM, NE, andb_false_r, app_nil_r. now apply Mq.
      * cbn [touched g']. unfold fupd. rewrite NE. now rewrite T1.
    + exact CR1.
    + intros i Hi Hiq _. destruct (ALL i Hi Hiq) as (n & Nn & P). exists n. split; [exact Nn|]. eapply path_snoc; [exact (path_grows g1 g' n r1 G' P)|exact STx].
    + exact SRC.
    + exact Nx1.
Qed.

Lemma low_same g g' q x : x <= length (nodes g) -> same_q g g' q -> low g q x -> low g' q x.
Proof. intros L (_ & R & _ & M) H. unfold low in *. rewrite R. destruct (recent g q) as [r|]; [|exact H]. destruct H as [A B]. split; [exact A|]. rewrite M by lia. exact B. Qed.
Lemma same_q_refl g q : same_q g g q.
Proof. split; [apply grows_refl|]. repeat split. Qed.
Lemma same_q_trans a b d q : same_q a b q -> same_q b d q -> same_q a d q.
Proof.
  intros (G & R & S & M) (G' & R' & S' & M'). split; [exact (grows_trans _ _ _ G G')|]. split; [congruence|]. split; [congruence|].
  intros u Hu. destruct G as [[l E] _]. rewrite M' by (rewrite E, app_length; lia). now apply M.
Qed.
Definition tinv (g : dag) (q : nat) : Prop := streak g q <> PN -> touched g q = true.

Lemma connect_fold x k : forall l g, base g -> x < length (nodes g) -> nth_node (nodes g) x = NOp k -> (forall v o, ~ In (x, v, o) (edges g)) ->
  NoDup (map fst l) ->
  (forall q e, In (q, e) l -> low g q x /\ qinv g q k /\ tinv g q /\ In q (qs (c k)) /\ etype (c k) q = e) ->
  let g' := fold_left (connect x) l g in
  base g' /\ grows g g' /\ (forall v o, ~ In (x, v, o) (edges g')) /\ crecent g' = crecent g /\ flat_map src (nodes g') = flat_map src (nodes g) /\ nth_node (nodes g') x = NOp k /\
  (forall q e, In (q, e) l -> qinv g' q (S k) /\ touched g' q = true /\
     forall i, i < k -> In q (qs (c i)) -> ~ (etype (c i) q = e /\ e <> PN) -> exists n, node_of (nodes g') n i /\ path g' n x) /\
  (forall q, ~ In q (map fst l) -> same_q g g' q /\ touched g' q = touched g q).
Proof.
  induction l as [|[q e] l IH]; intros g B Lx Nx NX ND H; cbn [fold_left].
  - do 6 (split; [first [exact B|apply grows_refl|exact NX|reflexivity|exact Nx]|]). split; [intros q e []|]. intros q _. split; [apply same_q_refl|reflexivity].
  - cbn in ND. inversion_clear ND as [|? ? NI ND'].
    destruct (H q e ltac:(now left)) as (LOW & Q & TI & Hq & He).
    destruct (connect_correct x k g q e B Lx Nx NX LOW Q TI Hq He) as (B1 & G1 & NX1 & Q1 & T1 & OTH & CR & CONF & SRC & Nx1). cbv zeta in *.
    set (g1 := connect x g (q, e)) in *.
    assert (Lx1 : x < length (nodes g1)) by (destruct G1 as [[m E] _]; rewrite E, app_length; lia).
    destruct (IH g1 B1 Lx1 Nx1 NX1 ND') as (B' & G' & NX' & CR' & SRC' & Nx' & ON & OFF).
    { intros q' e' H'. assert (NE : q' <> q) by (intros ->; apply NI, in_map_iff; exists (q, e'); now split).
      destruct (H q' e' ltac:(now right)) as (LOW' & Q' & TI' & Hq' & He'). destruct (OTH q' NE) as [SQ TQ].
      split; [apply (low_same g); [lia|exact SQ|exact LOW']|]. split; [now apply (qinv_same g)|]. split; [|now split].
      destruct SQ as (_ & _ & S & _). unfold tinv. rewrite S, TQ. exact TI'. }
    split; [exact B'|]. split; [exact (grows_trans _ _ _ G1 G')|]. split; [exact NX'|]. split; [congruence|]. split; [congruence|]. split; [exact Nx'|]. split.
    + intros q' e' [H'|H'].
      * injection H' as <- <-. destruct (OFF q NI) as [SQ TQ]. split; [now apply (qinv_same g1)|]. split; [now rewrite TQ|].
        intros i Hi Hiq NC. destruct (CONF i Hi Hiq NC) as (n & Nn & P). exists n. split; [|now apply (path_grows g1)]. destruct G' as [[m E] _]. rewrite E. now apply node_of_app.
      * exact (ON q' e' H').
    + intros q' NI'. cbn in NI'. assert (NE : q' <> q) by (intros ->; tauto). destruct (OTH q' NE) as [SQ TQ]. destruct (OFF q') as [SQ' TQ']; [tauto|].
      split; [exact (same_q_trans _ _ _ _ SQ SQ')|congruence].
Qed.

(** the classical bits *)
Definition cinv (g : dag) (b K : nat) : Prop :=
  match crecent g b with
  | None => forall i, i < K -> ~ In b (cs (c i))
  | Some r => r < length (nodes g) /\ forall i, i < K -> In b (cs (c i)) -> exists n, node_of (nodes g) n i /\ path g n r
  end.
Lemma cinv_grows g g' b K : grows g g' -> crecent g' b = crecent g b -> cinv g b K -> cinv g' b K.
Proof.
  intros G E H. unfold cinv in *. rewrite E. destruct (crecent g b) as [r|]; [|exact H]. pose proof G as [[l EN] _]. rewrite EN, app_length. destruct H as [L H]. split; [lia|].
  intros i Hi Hb. destruct (H i Hi Hb) as (n & Nn & P). exists n. split; [now apply node_of_app|now apply (path_grows g)].
Qed.

Lemma clbit_fold x k : forall l g, base g -> x < length (nodes g) -> nth_node (nodes g) x = NOp k ->
  (forall b, crecent g b = Some x \/ (forall r, crecent g b = Some r -> r < x) /\ cinv g b k) ->
  (forall b, crecent g b = Some x -> forall i, i < k -> In b (cs (c i)) -> exists n, node_of (nodes g) n i /\ path g n x) ->
  let g' := fold_left (connect_clbit x) l g in
  base g' /\ grows g g' /\ nodes g' = nodes g /\ (forall q, same_q g g' q /\ touched g' q = touched g q) /\
  (forall b, In b l \/ crecent g b = Some x -> crecent g' b = Some x) /\ (forall b, ~ In b l -> crecent g' b = crecent g b) /\
  (forall b, crecent g' b = Some x -> forall i, i < k -> In b (cs (c i)) -> exists n, node_of (nodes g') n i /\ path g' n x).
Proof.
  induction l as [|b l IH]; intros g B Lx Nx HB HX; cbn [fold_left].
  - split; [exact B|]. split; [apply grows_refl|]. split; [reflexivity|]. split; [intros; split; [apply same_q_refl|reflexivity]|]. split; [intros b [[]|H]; exact H|]. split; [reflexivity|exact HX].
  - set (g1 := connect_clbit x g b).
    assert (RX : rank (nodes g) x = 2 * x + 2) by (unfold rank; now rewrite Nx).
    assert (A : base g1 /\ grows g g1 /\ nodes g1 = nodes g /\ (forall q, same_q g g1 q /\ touched g1 q = touched g q) /\ crecent g1 = fupd (crecent g) b (Some x) /\
      (forall i, i < k -> In b (cs (c i)) -> exists n, node_of (nodes g1) n i /\ path g1 n x)).
    { unfold g1, connect_clbit. destruct (HB b) as [E|[BD CI]].
      - rewrite E. unfold add_edge. rewrite Nat.eqb_refl. cbn [nodes edges recent streak touched crecent]. split; [exact B|].
        assert (GG : forall cr, grows g (Dag (nodes g) (edges g) (recent g) (streak g) (touched g) cr)) by (intros; split; [exists []; cbn; now rewrite app_nil_r|apply incl_refl]).
        split; [apply GG|]. split; [reflexivity|]. split; [intros q; split; [split; [apply GG|]; repeat split|reflexivity]|]. split; [reflexivity|].
        intros i Hi Hb. destruct (HX b E i Hi Hb) as (n & Nn & P). exists n. split; [exact Nn|]. exact (path_grows g _ n x (GG _) P).
      - unfold cinv in CI. destruct (crecent g b) as [r|] eqn:E.
        + specialize (BD r eq_refl). destruct CI as [_ CI]. rewrite add_edge_spec by lia. cbn [nodes edges recent streak touched crecent].
          set (g2 := Dag _ _ _ _ _ _). assert (GG : grows g g2) by (split; [exists []; cbn; now rewrite app_nil_r|cbn; apply incl_appl, incl_refl]).
          split.
          { destruct B as [B T]. split; [|exact T]. cbn. apply Forall_app. split; [exact B|]. constructor; [|constructor]. cbn [edge_ok]. rewrite Nx, RX.
            pose proof (rank_bound g r x (conj B T) ltac:(lia) BD). repeat split; try lia. discriminate. }
          split; [exact GG|]. split; [reflexivity|]. split.
          { intros q. split; [|reflexivity]. split; [exact GG|]. do 2 (split; [reflexivity|]). intros u _. unfold g2. rewrite members_app. cbn [filter]. rewrite andb_false_r. cbn [map]. now rewrite app_nil_r. }
          split; [reflexivity|]. intros i Hi Hb. destruct (CI i Hi Hb) as (n & Nn & P). exists n. split; [exact Nn|].
          eapply path_snoc; [exact (path_grows g g2 n r GG P)|]. exists None. cbn. apply in_app_iff. right. now left.
        + assert (GG : forall cr, grows g (Dag (nodes g) (edges g) (recent g) (streak g) (touched g) cr)) by (intros; split; [exists []; cbn; now rewrite app_nil_r|apply incl_refl]).
          split; [exact B|]. split; [apply GG|]. split; [reflexivity|]. split; [intros q; split; [split; [apply GG|]; repeat split|reflexivity]|]. split; [reflexivity|].
          intros i Hi Hb. destruct (CI i Hi Hb). }
    destruct A as (B1 & G1 & N1 & S1 & CR1 & CF). clearbody g1.
    destruct (IH g1 B1) as (B' & G' & N' & S' & ON & OFF & CF').
    + now rewrite N1.
    + now rewrite N1.
    + intros b'. rewrite CR1. unfold fupd. destruct (Nat.eqb_spec b' b) as [->|NE]; [now left|]. destruct (HB b') as [E|[BD CI]]; [now left|]. right. split; [exact BD|].
      apply (cinv_grows g); [exact G1| |exact CI]. rewrite CR1. unfold fupd. apply Nat.eqb_neq in NE. now rewrite NE.
    + intros b' E i Hi Hb. destruct (Nat.eq_dec b' b) as [->|NE]; [now apply CF|]. rewrite CR1 in E. unfold fupd in E. apply Nat.eqb_neq in NE. rewrite NE in E.
      destruct (HX b' E i Hi Hb) as (n & Nn & P). exists n. split; [now rewrite N1|now apply (path_grows g)].
    + split; [exact B'|]. split; [exact (grows_trans _ _ _ G1 G')|]. split; [congruence|]. split.
      { intros q. destruct (S1 q), (S' q). split; [eapply same_q_trans; eassumption|congruence]. }
      split; [|split; [|exact CF']].
      * intros b' [[<-|H]|H]; apply ON; [right|now left|right]; rewrite CR1; unfold fupd; [now rewrite Nat.eqb_refl|]. destruct (Nat.eqb b' b); [reflexivity|exact H].
      * intros b' H. cbn in H. rewrite OFF by tauto. rewrite CR1. unfold fupd. destruct (Nat.eqb_spec b' b) as [->|]; [tauto|reflexivity].
Qed.

(** the whole state after the instructions before k *)
Definition ordered (g : dag) (k : nat) : Prop := forall i j, i < j -> j < k -> conflict (c i) (c j) -> exists n m, node_of (nodes g) n i /\ node_of (nodes g) m j /\ path g n m.
Record inv (g : dag) (k : nat) : Prop := {
  inv_base : base g;
  inv_src : flat_map src (nodes g) = seq 0 k;
  inv_q : forall q, qinv g q k;
  inv_t : forall q, tinv g q;
  inv_c : forall b, cinv g b k;
  inv_alloc : forall q, recent g q <> None -> touched g q = false -> exists i, i < k /\ is_alloc (c i) = true /\ qs (c i) = [q] /\ forall j, i < j -> j < k -> ~ In q (qs (c j));
  inv_ord : ordered g k }.

Lemma ordered_grows g g' k : grows g g' -> ordered g k -> ordered g' k.
Proof.
  intros G O i j Lij Lj C. destruct (O i j Lij Lj C) as (n & m & Nn & Nm & P). pose proof G as [[l E] _]. exists n, m. rewrite E. split; [now apply node_of_app|]. split; [now apply node_of_app|now apply (path_grows g)].
Qed.

(** one missing allocation node *)
Lemma ensure_one i al g q : base g -> let g' := ensure_alloc i al g q in
  base g' /\ grows g g' /\ edges g' = edges g /\ crecent g' = crecent g /\ (forall q', recent g q' <> None \/ q' <> q -> same_q g g' q' /\ touched g' q' = touched g q') /\
  recent g' q <> None /\
  (recent g q = None -> recent g' q = Some (length (nodes g)) /\ nodes g' = nodes g ++ [NAlloc q (if al then Some i else None)] /\ streak g' q = PN /\ touched g' q = false).
Proof.
  intros B. unfold ensure_alloc. destruct (recent g q) as [r|] eqn:R; cbv zeta.
  - split; [exact B|]. split; [apply grows_refl|]. do 2 (split; [reflexivity|]). split; [intros; split; [apply same_q_refl|reflexivity]|]. split; [congruence|discriminate].
  - set (g' := Dag _ _ _ _ _ _). assert (G : grows g g') by (split; [eexists; reflexivity|apply incl_refl]).
    split.
    { destruct B as [B T]. split; [cbn; eapply Forall_impl; [|exact B]; intros; now apply edge_ok_app|]. cbn [nodes g']. intros u q0 x0 Hu HN. rewrite app_length in Hu. cbn in Hu.
      destruct (Nat.eq_dec u (length (nodes g))) as [->|NE].
      - unfold nth_node in HN. rewrite app_nth2, Nat.sub_diag in HN by lia. discriminate.
      - rewrite nth_node_app in HN by lia. apply (T u q0 x0); [lia|exact HN]. }
    split; [exact G|]. do 2 (split; [reflexivity|]). split.
    { intros q' H. assert (NE : q' <> q) by (destruct H as [H|H]; [intros ->; contradiction|exact H]). apply Nat.eqb_neq in NE.
      split; [|cbn; unfold fupd; now rewrite NE]. split; [exact G|]. cbn. unfold fupd. rewrite NE. repeat split. }
    cbn. unfold fupd. rewrite Nat.eqb_refl. split; [discriminate|]. intros _. repeat split.
Qed.

Lemma ensure_fold i : forall l g, base g -> let g' := fold_left (ensure_alloc i false) l g in
  base g' /\ grows g g' /\ crecent g' = crecent g /\ flat_map src (nodes g') = flat_map src (nodes g) /\
  (forall q, recent g q <> None \/ ~ In q l -> same_q g g' q /\ touched g' q = touched g q) /\
  (forall q, In q l -> recent g' q <> None) /\
  (forall q, In q l -> recent g q = None -> exists r, recent g' q = Some r /\ r < length (nodes g') /\ members g' r q = [] /\ streak g' q = PN).
Proof.
  induction l as [|q l IH]; intros g B; cbn [fold_left].
  - split; [exact B|]. split; [apply grows_refl|]. do 2 (split; [reflexivity|]). split; [intros; split; [apply same_q_refl|reflexivity]|]. split; intros q [].
  - destruct (ensure_one i false g q B) as (B1 & G1 & E1 & C1 & S1 & R1 & N1). cbv zeta in *. set (g1 := ensure_alloc i false g q) in *.
    destruct (IH g1 B1) as (B' & G' & C' & SRC & S' & R' & N'). cbv zeta in *. clear IH.
    split; [exact B'|]. split; [exact (grows_trans _ _ _ G1 G')|]. split; [congruence|]. split; [|split; [|split]].
    + rewrite SRC. destruct (recent g q) eqn:R.
      * unfold g1, ensure_alloc. now rewrite R.
      * destruct (N1 eq_refl) as (_ & -> & _). rewrite flat_map_app. cbn. apply app_nil_r.
    + intros q' H. assert (H1 : recent g q' <> None \/ q' <> q) by (destruct H as [H|H]; [now left|right; intros ->; apply H; now left]).
      destruct (S1 q' H1) as [SQ TQ]. pose proof SQ as (_ & RQ & _). destruct (S' q') as [SQ' TQ'].
      { rewrite RQ. destruct H as [H|H]; [now left|right; intros K; apply H; now right]. }
      split; [exact (same_q_trans _ _ _ _ SQ SQ')|congruence].
    + intros q' [<-|H]; [|now apply R']. destruct (S' q (or_introl R1)) as [(_ & -> & _) _]. exact R1.
    + intros q' H RN. destruct (Nat.eq_dec q' q) as [->|NE].
      * destruct (N1 RN) as (Rr & Nn & Ss & _). destruct (S' q (or_introl R1)) as [(GG & RQ & SQ & MQ) _]. exists (length (nodes g)). split; [congruence|].
        assert (L1 : length (nodes g) < length (nodes g1)) by (rewrite Nn, app_length; cbn; lia).
        split; [destruct G' as [[m E] _]; rewrite E, app_length; lia|]. split; [|congruence]. rewrite MQ by exact L1. apply nil_members. rewrite E1. intros v o K.
        pose proof (base_src g _ _ _ B K). lia.
      * destruct H as [->|H]; [contradiction|]. apply N'; [exact H|]. destruct (S1 q' (or_intror NE)) as [(_ & -> & _) _]. exact RN.
Qed.

Lemma lookup_combine q e : forall ql pl, NoDup ql -> In (q, e) (combine ql pl) -> lookup ql pl q = e.
Proof.
  induction ql as [|x ql IH]; intros [|p pl] ND H; cbn in H; try contradiction. inversion_clear ND as [|? ? NI ND']. cbn. destruct H as [H|H].
  - injection H as -> ->. now rewrite Nat.eqb_refl.
  - destruct (Nat.eqb_spec q x) as [->|_]; [apply in_combine_l in H; contradiction|now apply IH].
Qed.
Lemma map_fst_combine {A B} : forall (l : list A) (m : list B), length l <= length m -> map fst (combine l m) = l.
Proof. induction l as [|a l IH]; intros [|b m] H; cbn in *; try reflexivity; [lia|]. f_equal. apply IH. lia. Qed.

Lemma node_of_new N k : node_of (N ++ [NOp k]) (length N) k.
Proof. split; [rewrite app_length; cbn; lia|]. unfold nth_node. rewrite app_nth2, Nat.sub_diag by lia. reflexivity. Qed.

Lemma qinv_next g q k : qinv g q k -> ~ In q (qs (c k)) -> qinv g q (S k).
Proof.
  unfold qinv. destruct (recent g q) as [r|]; intros H NI.
  - destruct H as (L & C2 & C1). split; [exact L|]. split; [exact C2|]. intros i Hi Hq. destruct (Nat.eq_dec i k) as [->|]; [contradiction|]. apply C1; [lia|exact Hq].
  - intros i Hi. destruct (Nat.eq_dec i k) as [->|]; [exact NI|]. apply H. lia.
Qed.

(** an instruction that gets a node of its own, all its qubits being known *)
Lemma insert_correct g k ps : base g -> flat_map src (nodes g) = seq 0 k -> (forall q, qinv g q k) -> (forall q, tinv g q) -> (forall b, cinv g b k) -> ordered g k ->
  NoDup (qs (c k)) -> (forall q, In q (qs (c k)) -> recent g q <> None) -> length (qs (c k)) <= length ps ->
  (forall q e, In (q, e) (combine (qs (c k)) ps) -> etype (c k) q = e) ->
  let x := length (nodes g) in
  let g1 := Dag (nodes g ++ [NOp k]) (edges g) (recent g) (streak g) (touched g) (crecent g) in
  let g' := fold_left (connect_clbit x) (cs (c k)) (fold_left (connect x) (combine (qs (c k)) ps) g1) in
  base g' /\ flat_map src (nodes g') = seq 0 (S k) /\ (forall q, qinv g' q (S k)) /\ (forall q, tinv g' q) /\ (forall b, cinv g' b (S k)) /\ ordered g' (S k) /\
  (forall q, In q (qs (c k)) -> touched g' q = true) /\ (forall q, ~ In q (qs (c k)) -> touched g' q = touched g q /\ recent g' q = recent g q).
Proof.
  intros B SRC Q T C O ND RE LP ET x g1. cbv zeta.
  assert (G01 : grows g g1) by (split; [eexists; reflexivity|apply incl_refl]).
  assert (S01 : forall q, same_q g g1 q) by (intros q; split; [exact G01|]; repeat split).
  assert (Lx : x < length (nodes g1)) by (cbn; rewrite app_length; unfold x; cbn; lia).
  assert (Nx : nth_node (nodes g1) x = NOp k) by (cbn; unfold nth_node, x; rewrite app_nth2, Nat.sub_diag by lia; reflexivity).
  assert (B1 : base g1).
  { destruct B as [B TT]. split; [cbn; eapply Forall_impl; [|exact B]; intros; now apply edge_ok_app|]. cbn [nodes g1]. intros u q0 x0 Hu HN. rewrite app_length in Hu. cbn in Hu.
    destruct (Nat.eq_dec u x) as [->|NE]; [cbn [nodes g1] in Nx; rewrite Nx in HN; discriminate|]. unfold x in NE. rewrite nth_node_app in HN by lia. apply (TT u q0 x0); [lia|exact HN]. }
  assert (NX : forall v o, ~ In (x, v, o) (edges g1)) by (cbn; intros v o K; pose proof (base_src g _ _ _ B K); unfold x in *; lia).
  destruct (connect_fold x k (combine (qs (c k)) ps) g1 B1 Lx Nx NX) as (B2 & G2 & NX2 & CR2 & SRC2 & Nx2 & ON & OFF).
  { rewrite map_fst_combine by exact LP. exact ND. }
  { intros q e H. pose proof (in_combine_l _ _ _ _ H) as Hq. split.
    - unfold low. cbn [recent g1]. specialize (Q q). specialize (RE q Hq). unfold qinv in Q. destruct (recent g q) as [r|]; [|congruence]. split; [apply Q|].
      intros s Hs. assert (Hs' : In (r, s, Some q) (edges g)) by (now apply (members_in g1)). pose proof (base_src g _ _ _ B Hs'). unfold x. lia.
    - split; [apply (qinv_same g); [exact B|apply S01|apply Q]|]. split; [apply T|]. split; [exact Hq|now apply ET]. }
  cbv zeta in *. rewrite map_fst_combine in OFF by exact LP. set (g2 := fold_left (connect x) _ g1) in *.
  assert (Lx2 : x < length (nodes g2)) by (destruct G2 as [[m E] _]; rewrite E, app_length; lia).
  assert (C2 : forall b, cinv g2 b k) by (intros b; apply (cinv_grows g); [exact (grows_trans _ _ _ G01 G2)|now rewrite CR2|apply C]).
  assert (CB : forall b r, crecent g b = Some r -> r < x) by (intros b r E; specialize (C b); unfold cinv in C; rewrite E in C; apply C).
  destruct (clbit_fold x k (cs (c k)) g2 B2 Lx2 Nx2) as (B3 & G3 & N3 & S3 & CON & COFF & CF).
  { intros b. right. split; [|apply C2]. rewrite CR2. apply CB. }
  { intros b E. exfalso. rewrite CR2 in E. cbn in E. specialize (CB b x E). lia. }
  cbv zeta in *. set (g3 := fold_left (connect_clbit x) _ g2) in *.
  assert (OP : forall q, In q (qs (c k)) -> exists e, In (q, e) (combine (qs (c k)) ps)).
  { intros q Hq. rewrite <- (map_fst_combine (qs (c k)) ps LP) in Hq. apply in_map_iff in Hq. destruct Hq as ([q' e] & <- & H). exists e. exact H. }
  assert (NK : node_of (nodes g3) x k) by (rewrite N3; split; [exact Lx2|now rewrite Nx2]).
  assert (TT : forall q, In q (qs (c k)) -> touched g3 q = true).
  { intros q Hq. destruct (S3 q) as [_ ->]. destruct (OP q Hq) as (e & H). apply (ON q e H). }
  assert (TF : forall q, ~ In q (qs (c k)) -> touched g3 q = touched g q /\ recent g3 q = recent g q /\ streak g3 q = streak g q).
  { intros q Hq. destruct (S3 q) as [(_ & R3 & ST3 & _) T3]. destruct (OFF q Hq) as [(_ & R2 & ST2 & _) T2].
    cbn [recent streak touched g1] in R2, ST2, T2. rewrite R3, ST3, T3, R2, ST2, T2. repeat split. }
  split; [exact B3|]. split.
  { rewrite N3, SRC2. cbn [nodes g1]. rewrite flat_map_app, SRC, seq_S. reflexivity. }
  split; [|split; [|split; [|split; [|split]]]].
  - intros q. apply (qinv_same g2); [exact B2|apply S3|]. destruct (in_dec Nat.eq_dec q (qs (c k))) as [Hq|Hq].
    + destruct (OP q Hq) as (e & H). apply (ON q e H).
    + apply qinv_next; [|exact Hq]. apply (qinv_same g1); [exact B1|apply OFF, Hq|]. apply (qinv_same g); [exact B|apply S01|apply Q].
  - intros q. destruct (in_dec Nat.eq_dec q (qs (c k))) as [Hq|Hq]; [intros _; now apply TT|]. destruct (TF q Hq) as (TQ & _ & SQ). unfold tinv. rewrite TQ, SQ. apply T.
  - intros b. destruct (in_dec Nat.eq_dec b (cs (c k))) as [Hb|Hb].
    + unfold cinv. rewrite (CON b (or_introl Hb)). split; [rewrite N3; exact Lx2|]. intros i Hi Hib. destruct (Nat.eq_dec i k) as [->|NE].
      * exists x. split; [exact NK|constructor].
      * apply (CF b (CON b (or_introl Hb)) i); [lia|exact Hib].
    + specialize (C2 b). apply (cinv_grows g2 g3 b k G3 (COFF b Hb)) in C2. unfold cinv in *. destruct (crecent g3 b) as [r|].
      * destruct C2 as [L C2]. split; [exact L|]. intros i Hi Hib. destruct (Nat.eq_dec i k) as [->|]; [contradiction|]. apply C2; [lia|exact Hib].
      * intros i Hi. destruct (Nat.eq_dec i k) as [->|]; [exact Hb|]. apply C2. lia.
  - intros i j Lij Lj CC. destruct (Nat.eq_dec j k) as [->|NE].
    + destruct CC as [(b & Hi & Hj)|(q & Hi & Hj & NC)].
      * destruct (CF b (CON b (or_introl Hj)) i Lij Hi) as (n & Nn & P). exists n, x. now split.
      * destruct (OP q Hj) as (e & H). destruct (ON q e H) as (_ & _ & CONF). destruct (CONF i Lij Hi) as (n & Nn & P).
        { intros [E1 E2]. apply NC. rewrite (ET q e H). split; [exact E1|congruence]. }
        exists n, x. rewrite N3. split; [exact Nn|]. split; [rewrite <- N3; exact NK|]. now apply (path_grows g2).
    + apply (ordered_grows g g3 k (grows_trans _ _ _ (grows_trans _ _ _ G01 G2) G3) O i j Lij); [lia|exact CC].
  - exact TT.
  - intros q Hq. destruct (TF q Hq) as (A1 & A2 & _). now split.
Qed.

Lemma process_correct g k : inv g k -> wf_instr (c k) ->
  (is_alloc (c k) = true -> forall i, i < k -> is_alloc (c i) = true -> qs (c i) = qs (c k) -> exists j, i < j /\ j < k /\ incl (qs (c k)) (qs (c j))) ->
  exists g', process (Some g) (k, c k) = Some g' /\ inv g' (S k).
Proof.
  intros [B SRC Q T C AL O] WF RU. destruct WF as [ND WF]. unfold process.
  destruct (is_alloc (c k)) eqn:IA.
  - (* allocation *)
    assert (KA : ikind (c k) = KAlloc) by (unfold is_alloc in IA; destruct (ikind (c k)); congruence). rewrite KA in WF. destruct WF as ((q & Eq) & Ec & Ep).
    rewrite Eq. cbn [fold_left last andb].
    destruct (recent g q) as [r|] eqn:R.
    + assert (E1 : ensure_alloc k true g q = g) by (unfold ensure_alloc; now rewrite R). rewrite E1.
      assert (TQ : touched g q = true).
      { destruct (touched g q) eqn:TQ; [reflexivity|]. exfalso. destruct (AL q) as (i & Hi & Ai & Qi & NO); [congruence|exact TQ|].
        destruct (RU eq_refl i Hi Ai ltac:(congruence)) as (j & L1 & L2 & IN). apply (NO j L1 L2). apply IN. rewrite Eq. now left. }
      rewrite TQ. cbn [negb]. unfold perm_list. rewrite KA, Ep, Ec.
      destruct (insert_correct g k [PN] B SRC Q T C O ND) as (B' & SRC' & Q' & T' & C' & O' & TT & TF).
      * rewrite Eq. intros q' [<-|[]]. congruence.
      * rewrite Eq. cbn. lia.
      * rewrite Eq. cbn. intros q' e [H|[]]. injection H as <- <-. unfold etype. rewrite KA, Eq, Ep. cbn. now rewrite Nat.eqb_refl.
      * cbv zeta in *. rewrite Eq, Ec in *. eexists. split; [reflexivity|]. constructor; try assumption.
        intros q' RN TN. destruct (Nat.eq_dec q' q) as [->|NE]; [now rewrite (TT q (or_introl eq_refl)) in TN|].
        destruct (TF q') as [TE REq]; [cbn; intuition congruence|]. rewrite TE in TN. rewrite REq in RN. destruct (AL q' RN TN) as (i & Hi & Ai & Qi & NO).
        exists i. split; [lia|]. split; [exact Ai|]. split; [exact Qi|]. intros j Lj1 Lj2. destruct (Nat.eq_dec j k) as [->|]; [rewrite Eq; cbn; intuition congruence|]. apply NO; lia.
    + destruct (ensure_one k true g q B) as (B1 & G1 & E1 & C1 & S1 & R1 & N1). cbv zeta in *. destruct (N1 R) as (R2 & NN & SS & TT).
      set (g1 := ensure_alloc k true g q) in *. rewrite TT. cbn [negb]. exists g1. split; [reflexivity|].
      assert (NK : node_of (nodes g1) (length (nodes g)) k).
      { rewrite NN. split; [rewrite app_length; cbn; lia|]. unfold nth_node. rewrite app_nth2, Nat.sub_diag by lia. reflexivity. }
      assert (NQ : forall i, i < k -> ~ In q (qs (c i))) by (specialize (Q q); unfold qinv in Q; now rewrite R in Q).
      assert (NIN : forall q', q' <> q -> ~ In q' (qs (c k))) by (intros q' NE; rewrite Eq; cbn; intuition congruence).
      constructor.
      * exact B1.
      * rewrite NN, flat_map_app, SRC, seq_S. reflexivity.
      * intros q'. destruct (Nat.eq_dec q' q) as [->|NE].
        -- unfold qinv. rewrite R2. split; [apply NK|]. assert (M : members g1 (length (nodes g)) q = []).
           { apply nil_members. rewrite E1. intros v o K. pose proof (base_src g _ _ _ B K). lia. }
           rewrite M. split; [intros s []|]. intros i Hi Hq. destruct (Nat.eq_dec i k) as [->|]; [|exfalso; apply (NQ i); [lia|exact Hq]].
           exists (length (nodes g)). split; [exact NK|]. left. constructor.
        -- apply qinv_next; [|now apply NIN]. apply (qinv_same g); [exact B|apply S1; now right|apply Q].
      * intros q'. destruct (Nat.eq_dec q' q) as [->|NE]; [intros K; congruence|]. destruct (S1 q' (or_intror NE)) as [(_ & _ & SE & _) TE]. unfold tinv. rewrite SE, TE. apply T.
      * intros b. specialize (C b). apply (cinv_grows g g1 b k G1 ltac:(now rewrite C1)) in C. unfold cinv in *. destruct (crecent g1 b).
        -- destruct C as [L C]. split; [exact L|]. intros i Hi Hb. destruct (Nat.eq_dec i k) as [->|]; [rewrite Ec in Hb; destruct Hb|]. apply C; [lia|exact Hb].
        -- intros i Hi. destruct (Nat.eq_dec i k) as [->|]; [rewrite Ec; intros []|]. apply C. lia.
      * intros q' RN TN. destruct (Nat.eq_dec q' q) as [->|NE].
        -- exists k. split; [lia|]. split; [exact IA|]. split; [exact Eq|]. intros; lia.
        -- destruct (S1 q' (or_intror NE)) as [(_ & RE & _ & _) TE]. rewrite TE in TN. rewrite RE in RN. destruct (AL q' RN TN) as (i & Hi & Ai & Qi & NO).
           exists i. split; [lia|]. split; [exact Ai|]. split; [exact Qi|]. intros j Lj1 Lj2. destruct (Nat.eq_dec j k) as [->|]; [now apply NIN|]. apply NO; lia.
      * intros i j Lij Lj CC. destruct (Nat.eq_dec j k) as [->|NE].
        -- exfalso. destruct CC as [(b & _ & Hb)|(q' & Hi & Hj & _)]; [rewrite Ec in Hb; destruct Hb|]. rewrite Eq in Hj. destruct Hj as [<-|[]]. exact (NQ i Lij Hi).
        -- apply (ordered_grows g g1 k G1 O i j Lij); [lia|exact CC].
  - cbn [andb].
    destruct (ensure_fold k (qs (c k)) g B) as (B1 & G1 & C1 & SRC1 & S1 & R1 & N1). cbv zeta in *. set (g1 := fold_left (ensure_alloc k false) (qs (c k)) g) in *.
    assert (PS : exists ps, perm_list (c k) = Some ps /\ length (qs (c k)) <= length ps /\ forall q e, In (q, e) (combine (qs (c k)) ps) -> etype (c k) q = e).
    { unfold perm_list, etype. unfold is_alloc in IA. destruct (ikind (c k)); try discriminate.
      - destruct (Nat.ltb_spec 1 (length (qs (c k)))); [lia|]. exists [PN]. split; [reflexivity|]. split; [cbn; lia|]. intros q e H'. apply in_combine_r in H'. destruct H' as [<-|[]]. reflexivity.
      - destruct (Nat.ltb_spec 1 (length (qs (c k)))); [lia|]. exists [PN]. split; [reflexivity|]. split; [cbn; lia|]. intros q e H'. apply in_combine_r in H'. destruct H' as [<-|[]]. reflexivity.
      - exists (pt (c k)). split; [reflexivity|]. split; [lia|]. intros q e H'. now apply lookup_combine. }
    destruct PS as (ps & -> & LP & ET).
    assert (Q1 : forall q, qinv g1 q k).
    { intros q. destruct (in_dec Nat.eq_dec q (qs (c k))) as [Hq|Hq]; [|apply (qinv_same g); [exact B|apply S1; now right|apply Q]].
      destruct (recent g q) eqn:R; [apply (qinv_same g); [exact B|apply S1; left; congruence|apply Q]|].
      destruct (N1 q Hq R) as (r & Er & L & M & _). specialize (Q q). unfold qinv in *. rewrite R in Q. rewrite Er, M. split; [exact L|]. split; [intros s []|].
      intros i Hi Hiq. exfalso. exact (Q i Hi Hiq). }
    assert (T1 : forall q, tinv g1 q).
    { intros q. destruct (in_dec Nat.eq_dec q (qs (c k))) as [Hq|Hq].
      - destruct (recent g q) eqn:R.
        + destruct (S1 q) as [(_ & _ & SE & _) TE]; [left; congruence|]. unfold tinv. rewrite SE, TE. apply T.
        + destruct (N1 q Hq R) as (r & _ & _ & _ & SE). intros K. congruence.
      - destruct (S1 q (or_intror Hq)) as [(_ & _ & SE & _) TE]. unfold tinv. rewrite SE, TE. apply T. }
    destruct (insert_correct g1 k ps B1 ltac:(congruence) Q1 T1) as (B' & SRC' & Q' & T' & C' & O' & TT & TF); try assumption.
    + intros b. apply (cinv_grows g); [exact G1|now rewrite C1|apply C].
    + now apply (ordered_grows g).
    + eexists. split; [reflexivity|]. cbv zeta in *. constructor; try assumption.
      intros q RN TN. destruct (in_dec Nat.eq_dec q (qs (c k))) as [Hq|Hq]; [now rewrite (TT q Hq) in TN|].
      destruct (TF q Hq) as [TE RE]. rewrite TE in TN. rewrite RE in RN. destruct (S1 q (or_intror Hq)) as [(_ & RE1 & _ & _) TE1]. rewrite TE1 in TN. rewrite RE1 in RN.
      destruct (AL q RN TN) as (i & Hi & Ai & Qi & NO). exists i. split; [lia|]. split; [exact Ai|]. split; [exact Qi|]. intros j Lj1 Lj2.
      destruct (Nat.eq_dec j k) as [->|]; [exact Hq|]. apply NO; lia.
Qed.

Lemma inv_empty : inv empty_dag 0.
Proof.
  constructor; cbn.
  - split; [constructor|]. intros u q x H. cbn in H. lia.
  - reflexivity.
  - intros q i H. lia.
  - intros q K. exfalso. apply K. reflexivity.
  - intros b i H. lia.
  - intros q K. exfalso. apply K. reflexivity.
  - intros i j _ H. lia.
Qed.
End build.

(** ** from the graph to the emitted order *)
Lemma reuse_at circ : reuse_ok is_alloc qs circ -> forall k, k < length circ -> is_alloc (at_ circ k) = true -> wf_instr (at_ circ k) ->
  forall i, i < k -> is_alloc (at_ circ i) = true -> qs (at_ circ i) = qs (at_ circ k) -> exists j, i < j /\ j < k /\ is_alloc (at_ circ j) = false /\ incl (qs (at_ circ k)) (qs (at_ circ j)).
Proof.
  intros RO k Lk Ak [_ W] i Hi Ai Eq. unfold is_alloc in Ak. destruct (ikind (at_ circ k)) eqn:K; try discriminate. destruct W as ((q & E) & _).
  assert (S1 : exists l1 l2 l3, circ = l1 ++ at_ circ i :: l2 ++ at_ circ k :: l3 /\ length l1 = i /\ length l2 = k - i - 1).
  { destruct (nth_split circ default_instr Lk) as (a & b & E1 & L1). destruct (nth_split a default_instr (n := i)) as (a1 & a2 & E2 & L2); [lia|].
    exists a1, a2, b. unfold at_. split; [|split; [exact L2|]].
    - rewrite E1 at 1. rewrite E2 at 1. rewrite <- app_assoc. cbn. do 2 f_equal. rewrite E1. rewrite app_nth1 by lia. reflexivity.
    - apply (f_equal (@length _)) in E2. rewrite app_length in E2. cbn in E2. lia. }
  destruct S1 as (l1 & l2 & l3 & E1 & L1 & L2).
  destruct (RO _ _ _ _ _ q E1) as (x & Hx & Ax & Qx); [exact Ai|unfold is_alloc; now rewrite K|congruence|exact E|].
  apply (In_nth _ _ default_instr) in Hx. destruct Hx as (m & Lm & Em). exists (i + S m).
  assert (EX : at_ circ (i + S m) = x).
  { unfold at_. rewrite E1, app_nth2 by lia. replace (i + S m - length l1) with (S m) by lia. cbn [nth]. rewrite app_nth1 by lia. exact Em. }
  rewrite EX. split; [lia|]. split; [lia|]. split; [exact Ax|]. rewrite E. intros y [<-|[]]. exact Qx.
Qed.

Lemma dag_from_qc_inv circ : wf_circ circ -> reuse_ok is_alloc qs circ -> exists g, dag_from_qc circ = Some g /\ inv circ g (length circ).
Proof.
  intros WF RO. unfold dag_from_qc.
  assert (H : forall m k g, k + m = length circ -> inv circ g k ->
    exists g', fold_left process (combine (seq k m) (skipn k circ)) (Some g) = Some g' /\ inv circ g' (length circ)).
  { induction m as [|m IH]; intros k g L I.
    - exists g. split; [reflexivity|]. now replace (length circ) with k by lia.
    - assert (SK : skipn k circ = at_ circ k :: skipn (S k) circ).
      { assert (Lk : k < length circ) by lia. clear - Lk. unfold at_. revert k Lk. induction circ as [|a l IHl]; intros k Lk; cbn in Lk; [lia|]. destruct k; [reflexivity|]. cbn. apply IHl. lia. }
      rewrite SK. cbn [seq combine fold_left].
      destruct (process_correct circ g k I) as (g' & E & I').
      + unfold wf_circ in WF. rewrite Forall_forall in WF. apply WF. apply nth_In. lia.
      + intros A i Hi Ai Eq. destruct (reuse_at circ RO k ltac:(lia) A) with (i := i) as (j & A1 & A2 & _ & A3); try assumption; [|exists j; now repeat split].
        unfold wf_circ in WF. rewrite Forall_forall in WF. apply WF. apply nth_In. lia.
      + rewrite E. apply (IH (S k) g'); [lia|exact I']. }
  specialize (H (length circ) 0 empty_dag eq_refl (inv_empty circ)). exact H.
Qed.

(** positions in the node list *)
Lemma index_of_nth : forall l x, In x l -> nth (index_of l x) l 0 = x /\ index_of l x < length l.
Proof.
  induction l as [|y l IH]; intros x H; [destruct H|]. cbn. destruct H as [H|H].
  - subst. rewrite Nat.eqb_refl. split; [reflexivity|lia].
  - destruct (Nat.eqb_spec x y) as [->|_]; [split; [reflexivity|lia]|]. destruct (IH x H) as [A B]. split; [exact A|lia].
Qed.
Lemma nth_index_of : forall l k, NoDup l -> k < length l -> index_of l (nth k l 0) = k.
Proof.
  intros l k ND L. destruct (index_of_nth l (nth k l 0) (nth_In l 0 L)) as [A B]. apply (proj1 (NoDup_nth l 0) ND); [exact B|exact L|exact A].
Qed.

(** facts about [before] *)
Lemma before_trans (l : list nat) u v w : NoDup l -> before l u v -> before l v w -> before l u w.
Proof.
  intros ND (a & b & d & E) (a' & b' & d' & E').
  assert (K : a' = a ++ u :: b /\ b' ++ w :: d' = d).
  { rewrite E in E'. rewrite app_comm_cons, app_assoc in E'. assert (ND' : NoDup ((a ++ u :: b) ++ v :: d)) by (rewrite <- app_assoc; cbn; now rewrite <- E).
    clear E. revert E' ND'. generalize (a ++ u :: b) as p. intros p. revert a'. induction p as [|x p IH]; intros [|y a'] E' ND'; cbn in *.
    - injection E' as E'. now split.
    - injection E' as -> E'. inversion_clear ND' as [|? ? NI _]. exfalso. apply NI. rewrite E'. apply in_elt.
    - injection E' as -> E'. inversion_clear ND' as [|? ? NI _]. exfalso. apply NI. apply in_elt.
    - injection E' as -> E'. inversion_clear ND' as [|? ? _ ND1]. destruct (IH a' E' ND1) as [-> ->]. now split. }
  destruct K as [-> <-]. exists a, (b ++ v :: b'), d'. rewrite E, <- app_assoc. reflexivity.
Qed.
Lemma before_in_l {A} (l : list A) u v : before l u v -> In u l /\ In v l.
Proof. intros (a & b & d & ->). split; [apply in_elt|]. rewrite app_comm_cons, app_assoc. apply in_elt. Qed.
Lemma before_seq k i j : before (seq 0 k) i j -> i < j.
Proof.
  intros (a & b & d & E).
  assert (A : forall m s n, m < n -> nth m (seq s n) 0 = s + m) by (intros; now apply seq_nth).
  assert (L : length (seq 0 k) = length a + S (length b + S (length d))) by (rewrite E, app_length; cbn; now rewrite app_length).
  rewrite seq_length in L.
  assert (I1 : nth (length a) (seq 0 k) 0 = i) by (rewrite E, app_nth2, Nat.sub_diag by lia; reflexivity).
  assert (I2 : nth (length a + S (length b)) (seq 0 k) 0 = j).
  { rewrite E, app_nth2 by lia. replace (length a + S (length b) - length a) with (S (length b)) by lia. cbn. rewrite app_nth2, Nat.sub_diag by lia. reflexivity. }
  rewrite A in I1, I2 by lia. lia.
Qed.
Lemma before_filter {A} (f : A -> bool) l u v : f u = true -> f v = true -> before l u v -> before (filter f l) u v.
Proof.
  intros Fu Fv (a & b & d & ->). exists (filter f a), (filter f b), (filter f d). rewrite filter_app. cbn. rewrite Fu, filter_app. cbn. now rewrite Fv.
Qed.
Lemma before_unfilter {A} (f : A -> bool) : forall l u v, before (filter f l) u v -> before l u v.
Proof.
  induction l as [|x l IH]; intros u v (a & b & d & E); cbn in E; [destruct a; discriminate|]. destruct (f x) eqn:F.
  - destruct a as [|y a]; cbn in E; injection E as -> E.
    + assert (H : In v l) by (apply (filter_In f v l); rewrite E; apply in_elt). now apply before_head.
    + apply before_cons. apply IH. exists a, b, d. exact E.
  - apply before_cons. apply IH. exists a, b, d. exact E.
Qed.
Lemma before_flat_map {A B} (f : A -> list B) l x y u v : f x = [u] -> f y = [v] -> before l x y -> before (flat_map f l) u v.
Proof.
  intros Ex Ey (a & b & d & ->). exists (flat_map f a), (flat_map f b), (flat_map f d). rewrite flat_map_app. cbn. rewrite Ex. cbn. rewrite flat_map_app. cbn. now rewrite Ey.
Qed.
Lemma before_nth {A} (l : list A) (d : A) i j : i < j -> j < length l -> before l (nth i l d) (nth j l d).
Proof.
  intros H L. destruct (nth_split l d L) as (a & b & E & La). destruct (nth_split a d (n := i)) as (a1 & a2 & E2 & La2); [lia|]. exists a1, a2, b.
  assert (K : nth i l d = nth i a d) by (rewrite E; apply app_nth1; lia). rewrite K. rewrite E at 1. rewrite E2 at 1. now rewrite <- app_assoc.
Qed.
Lemma reach_before G l a b : topological_order G l -> reach G a b -> a = b \/ before l a b.
Proof.
  intros [P O] H. assert (ND : NoDup l) by (apply (Permutation_NoDup P), seq_NoDup). induction H as [|a v w H IH E]; [now left|]. right.
  destruct IH as [->|IH]; [now apply O|]. apply (before_trans l a v w ND IH). now apply O.
Qed.

Lemma map_nth_seq {A} (l : list A) d : map (fun k => nth k l d) (seq 0 (length l)) = l.
Proof.
  apply (nth_ext _ _ d d); [now rewrite map_length, seq_length|]. intros n Hn. rewrite map_length, seq_length in Hn.
  rewrite (nth_indep _ d (nth 0 l d)) by now rewrite map_length, seq_length. rewrite (map_nth (fun k => nth k l d)). now rewrite seq_nth.
Qed.
Lemma flat_map_map' {A B C} (f : A -> B) (h : B -> list C) l : flat_map h (map f l) = flat_map (fun x => h (f x)) l.
Proof. induction l as [|x l IH]; [reflexivity|]. cbn. now rewrite IH. Qed.

(** the linearised graph *)
Section linear.
Context (circ : list instr) (g : dag) (INV : inv circ g (length circ)).
Notation L := (node_list g).
Notation G := (csr g).
Notation N := (nodes g).
Lemma L_nodup : NoDup L.
Proof. apply NoDup_filter, seq_NoDup. Qed.
Lemma L_in u : In u L <-> u < length N /\ artificial (nth_node N u) = false.
Proof. unfold node_list. rewrite filter_In, in_seq, negb_true_iff. change (node_at g u) with (nth_node N u). intuition lia. Qed.
Lemma csr_length : length G = length L.
Proof. unfold csr. apply map_length. Qed.
Lemma csr_edge a b : edge G a b <-> a < length L /\ exists v, step g (nth a L 0) v /\ In v L /\ b = index_of L v.
Proof.
  unfold edge. rewrite csr_length. split; intros [La H]; (split; [exact La|]).
  - unfold succ, csr in H. rewrite (nth_indep _ [] (nodup Nat.eq_dec (map (fun '(_, v, _) => index_of L v) (filter (fun '(u', v, _) => Nat.eqb 0 u' && existsb (Nat.eqb v) L) (edges g))))) in H by (rewrite map_length; exact La).
    rewrite (map_nth (fun u => nodup Nat.eq_dec (map (fun '(_, v, _) => index_of L v) (filter (fun '(u', v, _) => Nat.eqb u u' && existsb (Nat.eqb v) L) (edges g)))) L 0) in H.
    apply nodup_In, in_map_iff in H. destruct H as ([[u v] o] & E & H). apply filter_In in H. destruct H as [H K]. apply andb_true_iff in K. destruct K as [K1 K2].
    apply Nat.eqb_eq in K1. exists v. split; [exists o; now rewrite K1|]. split; [now apply mem_In|now symmetry].
  - destruct H as (v & [o S] & Iv & ->). unfold succ, csr. rewrite (nth_indep _ [] (nodup Nat.eq_dec (map (fun '(_, v, _) => index_of L v) (filter (fun '(u', v, _) => Nat.eqb 0 u' && existsb (Nat.eqb v) L) (edges g))))) by (rewrite map_length; exact La).
    rewrite (map_nth (fun u => nodup Nat.eq_dec (map (fun '(_, v, _) => index_of L v) (filter (fun '(u', v, _) => Nat.eqb u u' && existsb (Nat.eqb v) L) (edges g)))) L 0).
    apply nodup_In, in_map_iff. exists (nth a L 0, v, o). split; [reflexivity|]. apply filter_In. split; [exact S|]. rewrite Nat.eqb_refl. now apply mem_In.
Qed.
Lemma csr_wf : wf_graph G.
Proof. intros a b H. apply csr_edge in H. destruct H as (_ & v & _ & Iv & ->). rewrite csr_length. now apply index_of_nth. Qed.
Lemma csr_acyclic : acyclic G.
Proof.
  exists (fun a => rank N (nth a L 0)). intros a b H. apply csr_edge in H. destruct H as (_ & v & [o S] & Iv & ->). rewrite (proj1 (index_of_nth L v Iv)).
  apply (base_src g _ _ _ (inv_base _ _ _ INV) S).
Qed.
Lemma path_csr n m : In n L -> path g n m -> In m L /\ reach G (index_of L n) (index_of L m).
Proof.
  intros In_ H. induction H as [u|u v w H IH S]; [split; [exact In_|constructor]|]. destruct (IH In_) as [Iv R]. pose proof S as S'. destruct S as [o S].
  pose proof (inv_base _ _ _ INV) as [B _]. rewrite Forall_forall in B. specialize (B _ S). cbn in B. destruct B as (_ & Lw & _ & NA).
  assert (Iw : In w L). { apply L_in. split; [exact Lw|]. destruct (nth_node N w) as [q [s|]| |] eqn:E; try reflexivity. exfalso. exact (NA q None eq_refl). }
  split; [exact Iw|]. eapply reach_step; [exact R|]. apply csr_edge. destruct (index_of_nth L v Iv) as [E L1]. split; [exact L1|]. exists w. rewrite E. now repeat split.
Qed.
Lemma node_in n i : node_of N n i -> In n L.
Proof. intros [Ln E]. apply L_in. split; [exact Ln|]. destruct (nth_node N n) as [q [s|]| |]; try reflexivity. discriminate. Qed.
Lemma node_lt n m i j : node_of N n i -> node_of N m j -> i < j -> n < m.
Proof.
  intros [Ln En] [Lm Em] H. destruct (Nat.lt_trichotomy n m) as [K|[->|K]]; [exact K| |].
  - rewrite En in Em. injection Em as ->. lia.
  - exfalso. pose proof (before_nth N (NOp 0) m n K Ln) as B. apply (before_flat_map src N _ _ j i Em En) in B. rewrite (inv_src _ _ _ INV) in B. apply before_seq in B. lia.
Qed.
Lemma L_mono u v : In u L -> In v L -> u < v -> index_of L u < index_of L v.
Proof.
  intros Iu Iv H. pose proof (before_filter_seq (length N) (fun u => negb (artificial (node_at g u))) u v H Iu Iv) as B. fold L in B.
  destruct (index_of_nth L u Iu) as [Eu Lu], (index_of_nth L v Iv) as [Ev Lv].
  destruct (Nat.lt_trichotomy (index_of L u) (index_of L v)) as [K|[K|K]]; [exact K|rewrite K in Eu; lia|].
  exfalso. pose proof (before_nth L 0 _ _ K Lu) as B'. rewrite Eu, Ev in B'. exact (before_irrefl_two nat L u v L_nodup B B').
Qed.
Definition rel (a b : nat) : Prop := exists n m i j, node_of N n i /\ node_of N m j /\ i < j /\ path g n m /\ a = index_of L n /\ b = index_of L m.
Lemma rel_ok a b : rel a b -> a < b /\ b < length G /\ reach G a b.
Proof.
  intros (n & m & i & j & Nn & Nm & H & P & -> & ->). pose proof (node_in _ _ Nn) as In_. destruct (path_csr n m In_ P) as [Im R]. rewrite csr_length.
  split; [apply L_mono; [exact In_|exact Im|now apply (node_lt n m i j)]|]. split; [now apply index_of_nth|exact R].
Qed.
Lemma emit_all : emit g (seq 0 (length L)) = seq 0 (length circ).
Proof.
  unfold emit. rewrite <- (inv_src _ _ _ INV).
  assert (E1 : flat_map (fun k => src (node_at g (nth k L 0))) (seq 0 (length L)) = flat_map (fun u => src (node_at g u)) L).
  { transitivity (flat_map (fun u => src (node_at g u)) (map (fun k => nth k L 0) (seq 0 (length L)))); [now rewrite flat_map_map'|now rewrite map_nth_seq]. }
  rewrite E1. unfold node_list.
  assert (E2 : forall l, flat_map (fun u => src (node_at g u)) (filter (fun u => negb (artificial (node_at g u))) l) = flat_map (fun u => src (node_at g u)) l).
  { induction l as [|u l IH]; [reflexivity|]. cbn. destruct (node_at g u) as [q [s|]| |] eqn:E; cbn; rewrite ?E, IH; reflexivity. }
  rewrite E2. transitivity (flat_map src (map (fun k => nth k N (NOp 0)) (seq 0 (length N)))); [now rewrite flat_map_map'|now rewrite map_nth_seq].
Qed.
Lemma emit_perm out : Permutation (seq 0 (length G)) out -> Permutation (seq 0 (length circ)) (emit g out).
Proof. intros P. rewrite <- emit_all. apply flat_map_perm. now rewrite <- csr_length. Qed.
Lemma emit_before out i j : (forall a b, rel a b -> before out a b) -> i < j -> j < length circ -> conflict (at_ circ i) (at_ circ j) -> before (emit g out) i j.
Proof.
  intros R H Lj C. destruct (inv_ord _ _ _ INV i j H Lj C) as (n & m & Nn & Nm & P).
  destruct (index_of_nth L n (node_in _ _ Nn)) as [En _], (index_of_nth L m (node_in _ _ Nm)) as [Em _].
  apply (before_flat_map _ out (index_of L n) (index_of L m)).
  - rewrite En. apply Nn.
  - rewrite Em. apply Nm.
  - apply R. exists n, m, i, j. exact (conj Nn (conj Nm (conj H (conj P (conj eq_refl eq_refl))))).
Qed.
End linear.

Lemma parallelize_correct circ nq ind cost : wf_circ circ -> reuse_ok is_alloc qs circ ->
  exists out, parallelize circ nq ind cost = Some out /\ valid_reordering circ out.
Proof.
  intros WF RO. unfold parallelize. destruct (Nat.leb_spec (length circ) 1) as [H|H].
  - exists (seq 0 (length circ)). split; [reflexivity|]. split; [reflexivity|]. intros i j Hij Hj. lia.
  - destruct (dag_from_qc_inv circ WF RO) as (g & -> & INV).
    destruct (depth_sort_correct (csr g) (fun k => node_qubits circ (node_at g (nth k (node_list g) 0))) ind cost nq (csr_wf g) (csr_acyclic circ g INV)) as (l & E & T).
    rewrite E. cbn. eexists. split; [reflexivity|]. split; [apply (emit_perm circ g INV), T|]. intros i j Hij Hj C.
    apply (emit_before circ g INV); try assumption. intros a b R. destruct (rel_ok circ g INV a b R) as (Lab & _ & RE). destruct (reach_before _ _ a b T RE) as [->|B]; [lia|exact B].
Qed.

(** delaying the allocations keeps a reordering valid *)
Lemma in_nth_at circ x : In x circ -> exists k, k < length circ /\ at_ circ k = x.
Proof. intros H. apply (In_nth _ _ default_instr) in H. destruct H as (k & L & E). exists k. now split. Qed.
Lemma alloc_conflict circ i j q : wf_circ circ -> i < length circ -> is_alloc (at_ circ i) = true -> In q (qs (at_ circ i)) -> In q (qs (at_ circ j)) ->
  conflict (at_ circ i) (at_ circ j) /\ conflict (at_ circ j) (at_ circ i).
Proof.
  intros WF Li A Qi Qj. unfold wf_circ in WF. rewrite Forall_forall in WF. destruct (WF (at_ circ i)) as [_ W]; [now apply nth_In|].
  assert (E : etype (at_ circ i) q = PN). { unfold etype, is_alloc in *. destruct (ikind (at_ circ i)); try discriminate. destruct W as ((q' & Eq) & _ & Ep). rewrite Eq, Ep. cbn. now destruct (Nat.eqb q q'). }
  split; right; exists q; (split; [assumption|]); (split; [assumption|]); intros [K1 K2]; congruence.
Qed.
Lemma reorder_reuse circ out : wf_circ circ -> reuse_ok is_alloc qs circ -> valid_reordering circ out ->
  reuse_ok (fun i => is_alloc (at_ circ i)) (fun i => qs (at_ circ i)) out.
Proof.
  intros WF RO [P O] l1 i l2 j l3 q E Ai Aj Qi Qj.
  assert (ND : NoDup out) by (apply (Permutation_NoDup P), seq_NoDup).
  assert (IN : forall x, In x out -> x < length circ) by (intros x H; apply (Permutation_in _ (Permutation_sym P)) in H; apply in_seq in H; lia).
  assert (BF : before out i j) by (exists l1, l2, l3; exact E). destruct (before_in_l _ _ _ BF) as [Ii Ij].
  assert (Ci : In q (qs (at_ circ i))) by (rewrite Qi; now left). assert (Cj : In q (qs (at_ circ j))) by (rewrite Qj; now left).
  assert (H : i < j).
  { destruct (Nat.lt_trichotomy i j) as [K|[->|K]]; [exact K| |].
    - exfalso. rewrite E in ND. apply NoDup_remove_2 in ND. apply ND. rewrite in_app_iff. right. apply in_elt.
    - exfalso. apply (before_irrefl_two nat out i j ND BF). apply O; [exact K|now apply IN|]. now apply (alloc_conflict circ i j q WF (IN i Ii) Ai). }
  unfold wf_circ in WF. pose proof WF as WF'. rewrite Forall_forall in WF'.
  destruct (reuse_at circ RO j (IN j Ij) Aj) with (i := i) as (k & K1 & K2 & Ak & Qk); try assumption; [apply WF', nth_In, IN, Ij|congruence|].
  assert (Ck : In q (qs (at_ circ k))) by (apply Qk; rewrite Qj; now left).
  pose proof (O i k K1 ltac:(specialize (IN j Ij); lia) (proj1 (alloc_conflict circ i k q WF (IN i Ii) Ai Ci Ck))) as B1.
  pose proof (O k j K2 (IN j Ij) (proj2 (alloc_conflict circ j k q WF (IN j Ij) Aj Cj Ck))) as B2.
  exists k. split; [|split; [exact Ak|exact Ck]].
  (* k lies between i and j *)
  destruct (before_in_l _ _ _ B1) as [_ Ik]. rewrite E in Ik. rewrite in_app_iff in Ik. cbn in Ik. rewrite in_app_iff in Ik. cbn in Ik.
  destruct Ik as [Ik|[->|[Ik|[->|Ik]]]]; [|lia|exact Ik|lia|].
  - exfalso. apply (before_irrefl_two nat out i k ND B1). rewrite E. apply before_app_lr; [exact Ik|now left].
  - exfalso. apply (before_irrefl_two nat out k j ND B2). rewrite E. replace (l1 ++ i :: l2 ++ j :: l3) with ((l1 ++ i :: l2 ++ [j]) ++ l3) by (rewrite <- app_assoc; cbn; now rewrite <- app_assoc).
    apply before_app_lr; [|exact Ik]. rewrite in_app_iff. right. right. rewrite in_app_iff. right. now left.
Qed.
Lemma optimize_correct circ dense order_qb : wf_circ circ -> reuse_ok is_alloc qs circ -> (forall l, Permutation l (order_qb l)) ->
  exists out, optimize_allocations circ dense order_qb = Some out /\ valid_reordering circ out.
Proof.
  intros WF RO ORD. unfold optimize_allocations. destruct (dag_from_qc_inv circ WF RO) as (g & -> & INV). cbv zeta.
  match goal with |- context [topological_sort dense (csr g) ?a ?b] =>
    destruct (topological_sort_rel dense (csr g) a b (rel g) (csr_wf g) (csr_acyclic circ g INV) (rel_ok circ g INV)) as (l & E & P & R) end.
  rewrite E. cbn [option_map]. eexists. split; [reflexivity|].
  assert (V : valid_reordering circ (emit g l)).
  { split; [now apply (emit_perm circ g INV)|]. intros i j Hij Hj C. now apply (emit_before circ g INV). }
  pose proof (reorder_reuse circ (emit g l) WF RO V) as RU. destruct V as [VP VO].
  set (data := emit g l) in *.
  assert (IN : forall x, In x data -> x < length circ) by (intros x H; apply (Permutation_in _ (Permutation_sym VP)) in H; apply in_seq in H; lia).
  unfold wf_circ in WF. rewrite Forall_forall in WF.
  destruct (delay_allocs_correct (fun i => is_alloc (at_ circ i)) (fun i => qs (at_ circ i)) order_qb ORD data) as [PD TL].
  { intros x Hx A. destruct (WF (at_ circ x)) as [_ W]; [apply nth_In, IN, Hx|]. unfold is_alloc in A. destruct (ikind (at_ circ x)); try discriminate. apply W. }
  { exact RU. }
  pose proof (delay_allocs_others (fun i => is_alloc (at_ circ i)) (fun i => qs (at_ circ i)) order_qb data) as OT.
  change (nth ?i circ (Instr KGate [] [] [])) with (at_ circ i).
  split; [etransitivity; [exact VP|exact PD]|]. intros i j Hij Hj C. pose proof (VO i j Hij Hj C) as B. destruct C as [(b & Hi & Hj')|(q & Hi & Hj' & _)].
  - assert (NA : forall x, x < length circ -> In b (cs (at_ circ x)) -> is_alloc (at_ circ x) = false).
    { intros x Lx Hx. destruct (WF (at_ circ x)) as [_ W]; [now apply nth_In|]. unfold is_alloc. destruct (ikind (at_ circ x)); try reflexivity. destruct W as (_ & W & _). rewrite W in Hx. destruct Hx. }
    apply (before_unfilter (na (fun i => is_alloc (at_ circ i)))). rewrite OT. apply before_filter; [unfold na; rewrite NA; [reflexivity|lia|assumption]|unfold na; rewrite NA; [reflexivity|lia|assumption]|exact B].
  - apply (before_unfilter (on (fun i => qs (at_ circ i)) q)). rewrite TL. apply before_filter; [unfold on; now apply mem_In|unfold on; now apply mem_In|exact B].
Qed.
