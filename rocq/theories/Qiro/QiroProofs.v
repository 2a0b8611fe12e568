(** Recursions: correlations, the invariant of the reduced problem. *)
From Coq Require Import List Arith Bool ZArith Reals Lia.
Import ListNotations.
From Verif.Inverse Require Import InvSpec InvProofs.
From Verif.Mixers Require Import MixModel MixSpec.
From Verif.Qiro Require Import QiroModel QiroSpec.

Lemma member_in i l : member i l = true <-> In i l.
Proof. unfold member. rewrite existsb_exists. split; [intros (j & J & E); apply Nat.eqb_eq in E; subst; exact J|intros H; exists i; split; [exact H|apply Nat.eqb_refl]]. Qed.
Lemma member_out i l : member i l = false <-> ~ In i l.
Proof. rewrite <- member_in. destruct (member i l); split; congruence. Qed.
Lemma negb_member i l : negb (member i l) = true <-> ~ In i l. Proof. rewrite negb_true_iff. apply member_out. Qed.
Lemma corr2_total res a b : corr2 res a b = correlation res (Pair a b).
Proof.
  unfold corr2, correlation. assert (H : forall s, fold_left (fun s '(key, val) => (s + val * spin key a * spin key b)%Z) res s = (s + total (fun x => (plus_minus (getbit x a) * plus_minus (getbit x b))%Z) res)%Z).
  { induction res as [|[x v] res IH]; intros s; cbn [fold_left total fold_right]; [lia|]. rewrite IH. unfold total, spin, plus_minus. lia. }
  rewrite H. lia.
Qed.
Lemma corr1_total res v : corr1 res v = correlation res (Single v).
Proof.
  unfold corr1, correlation. assert (H : forall s, fold_left (fun s '(key, val) => (s + val * spin key v)%Z) res s = (s + total (fun x => plus_minus (getbit x v)) res)%Z).
  { induction res as [|[x w] res IH]; intros s; cbn [fold_left total fold_right]; [lia|]. rewrite IH. unfold total, spin, plus_minus. lia. }
  rewrite H. lia.
Qed.
(** the state of the search after the candidates in P *)
Definition found (res : result) (P : item -> Prop) (st : Z * option (item * Z)) : Prop :=
  (st = (0%Z, None) /\ forall i, P i -> correlation res i = 0%Z) \/
  exists i, P i /\ st = (correlation res i, Some (i, Z.sgn (correlation res i))) /\ correlation res i <> 0%Z /\ forall j, P j -> (Z.abs (correlation res j) <= Z.abs (correlation res i))%Z.
Lemma found_better res (P : item -> Prop) st i : found res P st -> found res (fun j => P j \/ j = i) (better st (correlation res i) i).
Proof.
  unfold better. intros [[-> H]|(k & K & -> & N & M)]; cbn [fst].
  - destruct (Z.ltb_spec (Z.abs 0) (Z.abs (correlation res i))).
    + right. exists i. repeat split; [right; reflexivity|lia|]. intros j [J| ->]; [rewrite (H j J); lia|lia].
    + left. split; [reflexivity|]. intros j [J| ->]; [exact (H j J)|lia].
  - destruct (Z.ltb_spec (Z.abs (correlation res k)) (Z.abs (correlation res i))) as [L|L].
    + right. exists i. repeat split; [right; reflexivity|lia|]. intros j [J| ->]; [specialize (M j J); lia|lia].
    + right. exists k. repeat split; [left; exact K|exact N|]. intros j [J| ->]; [exact (M j J)|lia].
Qed.
Lemma found_ext res (P Q : item -> Prop) st : (forall i, P i <-> Q i) -> found res P st -> found res Q st.
Proof. intros E [[-> H]|(k & K & -> & N & M)]; [left; split; [reflexivity|]; intros i I; apply H, E, I|right; exists k; repeat split; [apply E, K|exact N|intros j J; apply M, E, J]]. Qed.
Lemma find_max_found singles doubles res sol :
  let P i := match i with Single v => In v singles /\ ~ In v sol | Pair a b => In (a, b) doubles /\ a <> b end in
  exists st, found res P st /\ find_max singles doubles res sol = snd st.
Proof.
  intros P. unfold find_max.
  assert (A : forall l Q st, found res Q st -> found res (fun i => Q i \/ exists a b, i = Pair a b /\ In (a, b) l /\ a <> b) (fold_left (fun st '(a, b) => if (a =? b)%nat then st else better st (corr2 res a b) (Pair a b)) l st)).
  { induction l as [|[a b] l IH]; intros Q st H; cbn [fold_left].
    - eapply found_ext; [|exact H]. intros i. split; [tauto|intros [I|(x & y & _ & [] & _)]; exact I].
    - destruct (Nat.eqb_spec a b) as [E|E].
      + eapply found_ext; [|apply IH, H]. intros i. split; (intros [I|(x & y & -> & I & D)]; [left; exact I|right; exists x, y; repeat split; try assumption]); [right; exact I|]. destruct I as [I|I]; [congruence|exact I].
      + eapply found_ext; [|apply IH; rewrite corr2_total; apply found_better, H]. intros i. split.
        * intros [[I| ->]|(x & y & -> & I & D)]; [left; exact I|right; exists a, b; repeat split; [left; reflexivity|exact E]|right; exists x, y; repeat split; [right; exact I|exact D]].
        * intros [I|(x & y & -> & [I|I] & D)]; [left; left; exact I|left; right; congruence|right; exists x, y; repeat split; assumption]. }
  assert (B : forall l Q st, found res Q st -> found res (fun i => Q i \/ exists v, i = Single v /\ In v l /\ ~ In v sol) (fold_left (fun st v => if member v sol then st else better st (corr1 res v) (Single v)) l st)).
  { induction l as [|v l IH]; intros Q st H; cbn [fold_left].
    - eapply found_ext; [|exact H]. intros i. split; [tauto|intros [I|(x & _ & [] & _)]; exact I].
    - destruct (member v sol) eqn:E.
      + apply member_in in E. eapply found_ext; [|apply IH, H]. intros i. split; (intros [I|(x & -> & I & D)]; [left; exact I|right; exists x; repeat split; try assumption]); [right; exact I|]. destruct I as [I|I]; [subst; contradiction|exact I].
      + apply member_out in E. eapply found_ext; [|apply IH; rewrite corr1_total; apply found_better, H]. intros i. split.
        * intros [[I| ->]|(x & -> & I & D)]; [left; exact I|right; exists v; repeat split; [left; reflexivity|exact E]|right; exists x; repeat split; [right; exact I|exact D]].
        * intros [I|(x & -> & [I|I] & D)]; [left; left; exact I|left; right; congruence|right; exists x; repeat split; assumption]. }
  eexists. split; [|reflexivity]. eapply found_ext; [|apply B, (A doubles (fun _ => False) (0%Z, None))].
  - intros i. split.
    + intros [[[]|(a & b & -> & I & D)]|(v & -> & I & D)]; split; assumption.
    + destruct i as [v|a b]; intros [I D]; [right; exists v; repeat split; assumption|left; right; exists a, b; repeat split; assumption].
  - left. split; [reflexivity|intros i []].
Qed.
Lemma max_none g res sol : find_max (nodes g) (edges g) res sol = None -> forall i, candidate g sol i -> correlation res i = 0%Z.
Proof. intros H. destruct (find_max_found (nodes g) (edges g) res sol) as (st & [[-> Z]|(k & K & -> & _)] & E); [exact Z|]. rewrite E in H. discriminate. Qed.
Lemma max_some g res sol i s : find_max (nodes g) (edges g) res sol = Some (i, s) ->
  candidate g sol i /\ s = Z.sgn (correlation res i) /\ correlation res i <> 0%Z /\ forall j, candidate g sol j -> (Z.abs (correlation res j) <= Z.abs (correlation res i))%Z.
Proof.
  intros H. destruct (find_max_found (nodes g) (edges g) res sol) as (st & [[-> Z]|(k & K & -> & N & M)] & E); rewrite E in H; [discriminate|]. cbn in H. injection H as <- <-. repeat split; assumption.
Qed.

(** * Graphs *)
Lemma adj_in g i j : In j (adj g i) <-> adjacent g i j.
Proof.
  unfold adj, adjacent. rewrite in_flat_map. split.
  - intros ((a & b) & E & H). apply in_app_iff in H. destruct H as [H|H]; [destruct (Nat.eqb_spec a i)|destruct (Nat.eqb_spec b i)]; try destruct H as [H|[]]; try destruct H; subst; [left|right]; exact E.
  - intros [H|H]; [exists (i, j)|exists (j, i)]; (split; [exact H|]); rewrite Nat.eqb_refl; apply in_app_iff; [left|right]; left; reflexivity.
Qed.
Lemma remove_node g l i : In i (nodes (remove_nodes g l)) <-> In i (nodes g) /\ ~ In i l.
Proof. cbn [remove_nodes nodes]. rewrite filter_In, negb_member. tauto. Qed.
Lemma remove_edge g l a b : In (a, b) (edges (remove_nodes g l)) <-> In (a, b) (edges g) /\ ~ In a l /\ ~ In b l.
Proof. cbn [remove_nodes edges]. rewrite filter_In, andb_true_iff, !negb_member. tauto. Qed.
Lemma remove_adjacent g l a b : adjacent (remove_nodes g l) a b <-> adjacent g a b /\ ~ In a l /\ ~ In b l.
Proof. unfold adjacent. rewrite !remove_edge. tauto. Qed.

(** * The invariant *)
Definition reduced (n : nat) (G : graph) (p : progress graph) : Prop :=
  let '(g, sol, exc) := p in
  (forall i, In i (nodes g) <-> i < n /\ ~ In i exc) /\
  (forall a b, In (a, b) (edges g) <-> In (a, b) (edges G) /\ ~ In a exc /\ ~ In b exc).
Lemma reduced_start n G : simple n G -> reduced n G (G, [], []).
Proof. intros [A B]. split; [intros i; rewrite A; cbn; tauto|intros a b; cbn; tauto]. Qed.
Lemma reduced_remove n G g sol sol' exc l : reduced n G (g, sol, exc) -> reduced n G (remove_nodes g l, sol', exc ++ l).
Proof.
  intros [A B]. split.
  - intros i. rewrite remove_node, A, in_app_iff. tauto.
  - intros a b. rewrite remove_edge, B, !in_app_iff. tauto.
Qed.
Definition indep_inv (n : nat) (G : graph) (p : progress graph) : Prop :=
  reduced n G p /\ let '(g, sol, exc) := p in forall s, In s sol -> In s (nodes g) /\ forall j, ~ adjacent g s j.
Lemma loops n G g sol exc a b : simple n G -> reduced n G (g, sol, exc) -> adjacent g a b -> a <> b /\ In a (nodes g) /\ In b (nodes g).
Proof. intros [_ S] [A B] [H|H]; apply B in H; destruct H as (H & X & Y); destruct (S _ _ H) as (L1 & L2 & D); (split; [congruence|]); rewrite !A; tauto. Qed.
Lemma indep_keep n G g sol exc l : indep_inv n G (g, sol, exc) -> (forall s, In s sol -> ~ In s l) -> indep_inv n G (remove_nodes g l, sol, exc ++ l).
Proof.
  intros [R I] N. split; [apply (reduced_remove n G g sol); exact R|]. intros s S. destruct (I s S) as [A B]. split; [apply remove_node; split; [exact A|apply N, S]|]. intros j J. apply remove_adjacent in J. apply (B j), J.
Qed.
Lemma indep_step n G res p : simple n G -> indep_inv n G p -> indep_inv n G (indep_replace res p).
Proof.
  intros Sm I. destruct p as [[g sol] exc]. unfold indep_replace. destruct (find_max (nodes g) (edges g) res sol) as [[[v|a b] s]|] eqn:F; [| |exact I].
  - apply max_some in F. destruct F as ([V W] & _). destruct I as [R I]. destruct (s <? 0)%Z.
    + split; [apply (reduced_remove n G g sol); exact R|]. intros u U. apply in_app_iff in U. destruct U as [U|[<-|[]]].
      * destruct (I u U) as [A B]. split; [|intros j J; apply remove_adjacent in J; apply (B j), J]. apply remove_node. split; [exact A|]. intros C. apply adj_in in C. apply (B v). unfold adjacent in *. tauto.
      * split; [apply remove_node; split; [exact V|]; intros C; apply adj_in in C; apply (loops n G g sol exc v v Sm R) in C; tauto|]. intros j J. apply remove_adjacent in J. destruct J as (J & _ & N). apply N, adj_in, J.
    + apply indep_keep; [split; assumption|]. intros u U [<-|[]]. contradiction.
  - apply max_some in F. destruct F as ([E D] & _). assert (AB : adjacent g a b) by (left; exact E). destruct I as [R I]. destruct (0 <? s)%Z.
    + apply indep_keep; [split; assumption|]. intros u U [<-|[<-|[]]]; destruct (I _ U) as [_ N]; [apply (N b); exact AB|apply (N a); right; exact E].
    + apply indep_keep; [split; assumption|]. intros u U C. apply nodup_In, adj_in in C. destruct (I u U) as [_ N]. apply (N a). unfold adjacent in *. tauto.
Qed.
Lemma indep_rounds n G results : simple n G -> indep_inv n G (rounds indep_replace G results).
Proof.
  intros Sm. unfold rounds. assert (H : indep_inv n G (G, [], [])) by (split; [apply reduced_start, Sm|intros s []]). revert H. generalize (G, @nil nat, @nil nat). induction results as [|res l IH]; intros p H; [exact H|]. apply IH, indep_step; assumption.
Qed.

(** * Progress *)
Lemma filter_shorter {A} (f g : A -> bool) l x : (forall y, In y l -> f y = true -> g y = true) -> In x l -> g x = true -> f x = false -> length (filter f l) < length (filter g l).
Proof.
  intros H X Gx Fx. assert (M : forall k, (forall y, In y k -> f y = true -> g y = true) -> length (filter f k) <= length (filter g k)).
  { induction k as [|y k IH]; intros K; [reflexivity|]. cbn [filter]. specialize (IH (fun z Z => K z (or_intror Z))). specialize (K y (or_introl eq_refl)). destruct (f y); [rewrite K by reflexivity; cbn [length]; lia|destruct (g y); cbn [length]; lia]. }
  induction l as [|y l IH]; [destruct X|]. cbn [filter]. destruct X as [->|X].
  - rewrite Fx, Gx. cbn [length]. specialize (M l (fun z Z => H z (or_intror Z))). lia.
  - specialize (IH (fun z Z => H z (or_intror Z)) X). specialize (H y (or_introl eq_refl)). destruct (f y); [rewrite H by reflexivity; cbn [length]; lia|destruct (g y); cbn [length]; lia].
Qed.
Lemma undecided_less n (g g' : graph) sol exc sol' exc' x : (forall i, In i sol -> In i sol') -> (forall i, In i exc -> In i exc') -> x < n -> ~ In x sol -> ~ In x exc -> In x sol' \/ In x exc' ->
  length (undecided n (g', sol', exc')) < length (undecided n (g, sol, exc)).
Proof.
  intros A B X N1 N2 Y. unfold undecided. apply (filter_shorter _ _ _ x).
  - intros y _ H. rewrite andb_true_iff, !negb_member in *. split; intros C; [apply A in C|apply B in C]; tauto.
  - apply in_seq. lia.
  - rewrite andb_true_iff, !negb_member. tauto.
  - apply not_true_iff_false. rewrite andb_true_iff, !negb_member. tauto.
Qed.
Lemma indep_progress n G res g sol exc : simple n G -> indep_inv n G (g, sol, exc) ->
  (indep_replace res (g, sol, exc) = (g, sol, exc) /\ forall i, candidate g sol i -> correlation res i = 0%Z) \/ length (undecided n (indep_replace res (g, sol, exc))) < length (undecided n (g, sol, exc)).
Proof.
  intros Sm [R I]. unfold indep_replace. destruct (find_max (nodes g) (edges g) res sol) as [[[v|a b] s]|] eqn:F; [| |left; split; [reflexivity|apply max_none, F]]; right; apply max_some in F.
  - destruct F as ([V W] & _). destruct R as [RA RB]. apply RA in V. destruct (s <? 0)%Z; apply (undecided_less _ _ _ _ _ _ _ v); try tauto; try (intros i H; apply in_app_iff; tauto); [left|right]; apply in_app_iff; right; left; reflexivity.
  - destruct F as ([E D] & _). assert (AB : adjacent g a b) by (left; exact E). destruct (loops n G g sol exc a b Sm R AB) as (_ & NA & NB). destruct R as [RA RB]. apply RA in NA, NB.
    assert (SB : ~ In b sol) by (intros C; destruct (I b C) as [_ N]; apply (N a); right; exact E). 
    destruct (0 <? s)%Z; apply (undecided_less _ _ _ _ _ _ _ b); try tauto; try (intros i H; apply in_app_iff; tauto); right; apply in_app_iff; right; [right; left; reflexivity|]. apply nodup_In, adj_in, AB.
Qed.
