(** C93: QIRO, recursive optimisation. *)
From Coq Require Import List Arith Bool ZArith Reals Lia Lra.
Import ListNotations.
From Verif.Inverse Require Import InvSpec.
From Verif.CtrlOps Require Import CtrlComplex.
From Verif.StatePrep Require Import PrepModel PrepSpec.
From Verif.Mixers Require Import MixModel MixSpec MixProofs MixProofs2 MixProofs3.
From Verif.Qiro Require Import QiroModel QiroSpec QiroProofs QiroCircuits.

(** ** The item that is fixed has the largest correlation; none is fixed if there is no correlation *)
Theorem C93_max g res sol : match find_max (nodes g) (edges g) res sol with
  | None => forall i, candidate g sol i -> correlation res i = 0%Z
  | Some (i, sign) => candidate g sol i /\ sign = Z.sgn (correlation res i) /\ correlation res i <> 0%Z /\ forall j, candidate g sol j -> (Z.abs (correlation res j) <= Z.abs (correlation res i))%Z
  end.
Proof. destruct (find_max (nodes g) (edges g) res sol) as [[i s]|] eqn:F; [apply max_some, F|apply max_none, F]. Qed.
Print Assumptions C93_max.

(** ** What a recursion decides about independent sets: a node that is mostly measured as 1 is accepted and its neighbours are excluded, one that is mostly 0 is excluded, and so are both ends of an edge that are mostly equal *)
Theorem C93_decision res g sol exc : let '(g', sol', exc') := indep_replace res (g, sol, exc) in
  ((g', sol', exc') = (g, sol, exc) /\ forall i, candidate g sol i -> correlation res i = 0%Z) \/
  exists i new, candidate g sol i /\ correlation res i <> 0%Z /\ (forall j, candidate g sol j -> (Z.abs (correlation res j) <= Z.abs (correlation res i))%Z) /\
    exc' = exc ++ new /\ (forall j, In j (nodes g') <-> In j (nodes g) /\ ~ In j new) /\ (forall a b, In (a, b) (edges g') <-> In (a, b) (edges g) /\ ~ In a new /\ ~ In b new) /\
    match i with
    | Single v => if (correlation res i <? 0)%Z then sol' = sol ++ [v] /\ forall j, In j new <-> adjacent g v j else sol' = sol /\ new = [v]
    | Pair a b => sol' = sol /\ if (0 <? correlation res i)%Z then new = [a; b] else forall j, In j new <-> adjacent g a j
    end.
Proof.
  unfold indep_replace. destruct (find_max (nodes g) (edges g) res sol) as [[i s]|] eqn:F; [|left; split; [reflexivity|apply (max_none g res sol), F]].
  apply max_some in F. destruct F as (C & -> & N & M).
  assert (R : forall l, (forall j, In j (nodes (remove_nodes g l)) <-> In j (nodes g) /\ ~ In j l) /\ (forall a b, In (a, b) (edges (remove_nodes g l)) <-> In (a, b) (edges g) /\ ~ In a l /\ ~ In b l)).
  { intros l. cbn [remove_nodes nodes edges]. split; [intros j; rewrite filter_In, negb_true_iff, member_out; reflexivity|]. intros a b. rewrite filter_In, andb_true_iff, !negb_true_iff, !member_out. reflexivity. }
  destruct i as [v|a b].
  - destruct (Z.ltb_spec (Z.sgn (correlation res (Single v))) 0) as [D|D]; right; eexists (Single v), _; repeat (split; [assumption|]); (split; [reflexivity|]); (split; [apply R|]); (split; [apply R|]).
    + destruct (Z.ltb_spec (correlation res (Single v)) 0); [|lia]. split; [reflexivity|]. intros j. apply adj_in.
    + destruct (Z.ltb_spec (correlation res (Single v)) 0); [lia|]. split; reflexivity.
  - destruct (Z.ltb_spec 0 (Z.sgn (correlation res (Pair a b)))) as [D|D]; right; eexists (Pair a b), _; repeat (split; [assumption|]); (split; [reflexivity|]); (split; [apply R|]); (split; [apply R|]); (split; [reflexivity|]).
    + destruct (Z.ltb_spec 0 (correlation res (Pair a b))); [|lia]. reflexivity.
    + destruct (Z.ltb_spec 0 (correlation res (Pair a b))); [lia|]. intros j. rewrite nodup_In. apply adj_in.
Qed.
Print Assumptions C93_decision.
(** ** Maximum independent sets: whatever was measured in the recursions before, only independent sets of the given graph are measured, and they respect all decisions *)
Theorem C93_independent n G results angles s a : simple n G -> length s = n ->
  let p := rounds indep_replace G results in let '(_, sol, exc) := p in
  mrun (indep_circuit n p angles) (zero_state (S n)) (s ++ [a]) <> c0 ->
  a = false /\ independent_set G s /\ (forall i, In i sol -> getbit s i = true) /\ (forall i, In i exc -> getbit s i = false).
Proof.
  intros Sm Ls p. pose proof (indep_rounds n G results Sm) as I. fold p in I. destruct p as [[g sol] exc]. intros A. exact (mis_measured n G Sm g sol exc I angles s a Ls A).
Qed.
Print Assumptions C93_independent.
(** The mixer finds the neighbours of every node that it mixes *)
Theorem C93_neighbours n G results : simple n G -> let '(g, sol, exc) := rounds indep_replace G results in forall i, i < n -> ~ In i (sol ++ exc) -> In i (nodes g) /\ forall j, ~ In j exc -> (adjacent g i j <-> adjacent G i j).
Proof.
  intros Sm. pose proof (indep_rounds n G results Sm) as I. destruct (rounds indep_replace G results) as [[g sol] exc]. destruct I as [[A B] _]. intros i L N. rewrite in_app_iff in N. split; [apply A; tauto|]. intros j J. unfold adjacent. rewrite !B. tauto.
Qed.
Print Assumptions C93_neighbours.
(** Each recursion decides a node unless nothing correlates *)
Theorem C93_progress n G results res : simple n G -> let p := rounds indep_replace G results in let '(g, sol, exc) := p in
  length (undecided n (rounds indep_replace G (results ++ [res]))) < length (undecided n p) \/
  (rounds indep_replace G (results ++ [res]) = p /\ forall i, candidate g sol i -> correlation res i = 0%Z).
Proof.
  intros Sm p. pose proof (indep_rounds n G results Sm) as I. fold p in I. assert (E : rounds indep_replace G (results ++ [res]) = indep_replace res p) by (unfold rounds; rewrite fold_left_app; reflexivity). rewrite E.
  destruct p as [[g sol] exc]. destruct (indep_progress n G res g sol exc Sm I); tauto.
Qed.
Print Assumptions C93_progress.
(** Set packing: the graph that is used has the packings as independent sets *)
Theorem C93_packing sets s : length s = length sets -> simple (length sets) (set_packing_graph sets) /\ (independent_set (set_packing_graph sets) s <-> packing sets s).
Proof.
  intros Ls. assert (E : forall i j, In (i, j) (edges (set_packing_graph sets)) <-> i < length sets /\ j < length sets /\ i < j /\ exists e, In e (nth i sets []) /\ In e (nth j sets [])).
  { intros i j. unfold set_packing_graph. cbn [edges]. rewrite in_flat_map. split.
    - intros (i' & I & H). apply in_seq in I. apply in_map_iff in H. destruct H as (j' & J & H). injection J as -> ->. apply filter_In in H. destruct H as [J H]. apply in_seq in J. apply andb_true_iff in H. destruct H as [H1 H2]. apply Nat.ltb_lt in H1.
      unfold intersects in H2. apply existsb_exists in H2. destruct H2 as (e & H2 & H3). apply existsb_exists in H3. destruct H3 as (e' & H3 & H4). apply Nat.eqb_eq in H4. subst e'. repeat split; try lia. exists e. split; assumption.
    - intros (I & J & D & e & H1 & H2). exists i. split; [apply in_seq; lia|]. apply in_map_iff. exists j. split; [reflexivity|]. apply filter_In. split; [apply in_seq; lia|]. apply andb_true_iff. split; [apply Nat.ltb_lt, D|].
      unfold intersects. apply existsb_exists. exists e. split; [exact H1|]. apply existsb_exists. exists e. split; [exact H2|apply Nat.eqb_refl]. }
  split.
  - split; [intros i; cbn [set_packing_graph nodes]; rewrite in_seq; lia|]. intros a b H. apply E in H. lia.
  - split.
    + intros H i j e Gi Gj D Ei Ej. apply (H i j Gi Gj). assert (L : forall q, getbit s q = true -> q < length sets) by (intros q Q; destruct (le_lt_dec (length s) q); [unfold getbit in Q; rewrite nth_overflow in Q by lia; discriminate|lia]).
      apply L in Gi, Gj. unfold adjacent. rewrite !E. destruct (lt_eq_lt_dec i j) as [[C|C]|C]; [left|contradiction|right]; repeat split; try assumption; exists e; split; assumption.
    + intros H i j Gi Gj [A|A]; apply E in A; destruct A as (_ & _ & D & e & Ei & Ej); [apply (H i j e Gi Gj); [lia|assumption|assumption]|apply (H j i e Gj Gi); [lia|assumption|assumption]].
Qed.
Print Assumptions C93_packing.
(** The rule for the edge with a negative correlation is to remove the nodes connected to both of its ends. All neighbours of the first end are removed instead,
    and with them the best solution, even if nothing else was measured: in a star with the centre 0 only the centre is left. *)
Definition star : graph := {| nodes := [0; 1; 2]; edges := [(0, 1); (0, 2)] |}.
Lemma star_simple : simple 3 star.
Proof. split; [intros i; cbn; lia|]. intros a b [E|[E|[]]]; injection E as <- <-; lia. Qed.
Theorem C93_optimum_refuted : exists n G res best, simple n G /\ length best = n /\ independent_set G best /\ res = [(best, 1%Z)] /\
  forall angles s a, length s = n -> mrun (indep_circuit n (rounds indep_replace G [res]) angles) (zero_state (S n)) (s ++ [a]) <> c0 -> weight s < weight best.
Proof.
  exists 3, star, [([false; true; true], 1%Z)], [false; true; true]. split; [exact star_simple|]. split; [reflexivity|]. split; [|split; [reflexivity|]].
  - intros i j Gi Gj [[E|[E|[]]]|[E|[E|[]]]]; injection E as <- <-; discriminate.
  - intros angles s a Ls H. pose proof (C93_independent 3 star [[([false; true; true], 1%Z)]] angles s a star_simple Ls) as T. cbn in T. destruct (T H) as (_ & _ & _ & X). pose proof (X 1 ltac:(cbn; tauto)) as X1. pose proof (X 2 ltac:(cbn; tauto)) as X2.
    destruct s as [|b0 [|b1 [|b2 [|? ?]]]]; try discriminate. cbn in X1, X2. subst b1 b2. destruct b0; cbn; lia.
Qed.
Print Assumptions C93_optimum_refuted.

(** The phase of every selection: for each edge that is left, and for each node that is left and not accepted +1 if it is chosen and -1 otherwise *)
Theorem C93_cost n G results gamma psi x : simple n G -> length x = S n -> let p := rounds indep_replace G results in let '(g, sol, exc) := p in
  mrun (indep_cost p gamma) psi x = cmul (turn (gamma / 2 * IZR (zsum (edge_value x) (edges g) + zsum (fun i => if getbit x i then 1 else -1) (filter (fun i => negb (existsb (Nat.eqb i) sol)) (nodes g)))%Z)) (psi x).
Proof.
  intros Sm Lx p. pose proof (indep_rounds n G results Sm) as I. fold p in I. destruct p as [[g sol] exc]. destruct I as [R _].
  assert (H : forall a b, In (a, b) (edges g) -> a <> b /\ b < S n) by (intros a b E; destruct (loops n G g sol exc a b Sm R (or_introl E)) as (D & _ & N); split; [exact D|]; destruct R as [RA _]; apply RA in N; lia).
  rewrite (diag_indep_cost (S n) g sol exc gamma H psi x Lx).
  rewrite zsum_signs. reflexivity.
Qed.
Print Assumptions C93_cost.

(** ** What a recursion decides about cliques *)
Theorem C93_clique_decision res g sol exc : let '(g', sol', exc') := clique_replace res (g, sol, exc) in
  ((g', sol', exc') = (g, sol, exc) /\ forall i, candidate g sol i -> correlation res i = 0%Z) \/
  exists i, candidate g sol i /\ correlation res i <> 0%Z /\ (forall j, candidate g sol j -> (Z.abs (correlation res j) <= Z.abs (correlation res i))%Z) /\
    (forall j, In j exc' <-> In j exc \/ In j (nodes g) /\ ~ In j (nodes g')) /\
    match i with
    | Single v => if (correlation res i <? 0)%Z then sol' = sol ++ [v] /\ forall j, In j (nodes g') <-> In j (nodes g) /\ (j = v \/ adjacent g v j) else sol' = sol /\ forall j, In j (nodes g') <-> In j (nodes g) /\ j <> v
    | Pair a b => if (0 <? correlation res i)%Z then sol' = sol ++ [a; b] /\ forall j, In j (nodes g') <-> In j (nodes g) /\ (j = a \/ j = b \/ adjacent g a j)
                  else sol' = sol /\ forall j, In j (nodes g') <-> In j (nodes g) /\ (j = a \/ j = b \/ adjacent g a j \/ adjacent g b j)
    end.
Proof.
  unfold clique_replace. destruct (find_max (nodes g) (edges g) res sol) as [[i s]|] eqn:F; [|left; split; [reflexivity|apply (max_none g res sol), F]].
  apply max_some in F. destruct F as (C & -> & N & M).
  assert (O : forall l j, In j (filter (fun i => negb (member i l)) (nodes g)) <-> In j (nodes g) /\ ~ In j l) by (intros l j; rewrite filter_In, negb_true_iff, member_out; reflexivity).
  assert (R : forall l j, In j (nodes (remove_nodes g (filter (fun i => negb (member i l)) (nodes g)))) <-> In j (nodes g) /\ In j l).
  { intros l j. cbn [remove_nodes nodes]. rewrite filter_In, negb_true_iff, member_out, O. destruct (in_dec Nat.eq_dec j l), (in_dec Nat.eq_dec j (nodes g)); tauto. }
  assert (X : forall l j, In j (exc ++ filter (fun i => negb (member i l)) (nodes g)) <-> In j exc \/ In j (nodes g) /\ ~ In j (nodes (remove_nodes g (filter (fun i => negb (member i l)) (nodes g))))) by (intros l j; rewrite in_app_iff, O, R; destruct (in_dec Nat.eq_dec j (nodes g)); tauto).
  destruct i as [v|a b].
  - destruct (Z.ltb_spec (Z.sgn (correlation res (Single v))) 0) as [D|D]; right; exists (Single v); repeat (split; [assumption|]); (split; [try apply X|]).
    + destruct (Z.ltb_spec (correlation res (Single v)) 0); [|lia]. split; [reflexivity|]. intros j. rewrite R, in_app_iff, adj_in. cbn [In]. intuition congruence.
    + intros j. cbn [remove_nodes nodes]. rewrite in_app_iff, filter_In, negb_true_iff, member_out. cbn [In]. destruct C as [C _]. destruct (Nat.eq_dec v j) as [->|E]; [tauto|]. destruct (in_dec Nat.eq_dec j (nodes g)); tauto.
    + destruct (Z.ltb_spec (correlation res (Single v)) 0); [lia|]. split; [reflexivity|]. intros j. cbn [remove_nodes nodes]. rewrite filter_In, negb_true_iff, member_out. cbn [In]. intuition congruence.
  - destruct (Z.ltb_spec 0 (Z.sgn (correlation res (Pair a b)))) as [D|D]; right; exists (Pair a b); repeat (split; [assumption|]); (split; [apply X|]).
    + destruct (Z.ltb_spec 0 (correlation res (Pair a b))); [|lia]. split; [reflexivity|]. intros j. rewrite R, in_app_iff, adj_in. cbn [In]. intuition congruence.
    + destruct (Z.ltb_spec 0 (correlation res (Pair a b))); [lia|]. split; [reflexivity|]. intros j. rewrite R, !in_app_iff, !adj_in. cbn [In]. intuition congruence.
Qed.
Print Assumptions C93_clique_decision.
(** ** Maximum cliques: what was decided is measured, with the number of times a node is a solution counted modulo 2 *)
Theorem C93_clique_fixed n g sol exc angles s i : (forall i, In i (nodes g) -> i < n) -> (forall i, In i sol -> i < n) -> length s = n -> mrun (clique_circuit n (g, sol, exc) angles) (zero_state n) s <> c0 ->
  In i (sol ++ exc) -> getbit s i = Nat.odd (count_occ Nat.eq_dec sol i).
Proof.
  intros HN HS Ls A I. destruct (Bool.bool_dec (getbit s i) (Nat.odd (count_occ Nat.eq_dec sol i))) as [E|E]; [exact E|]. exfalso. apply A. apply (fixed_run n g sol exc HN HS angles s Ls). intros F. apply E, F, I.
Qed.
Print Assumptions C93_clique_fixed.
(** If nodes have larger correlations than edges in all recursions, the solutions form a clique in the given graph, everything that is measured contains them and avoids the exclusions, and all nodes that are left are adjacent to them *)
Theorem C93_clique_partial n G results angles s : simple n G -> nodes_first results (G, [], []) -> length s = n ->
  let p := rounds clique_replace G results in let '(g, sol, exc) := p in
  (forall i j, In i sol -> In j sol -> i <> j -> adjacent G i j) /\ (forall i j, In i sol -> j < n -> ~ In j exc -> i <> j -> adjacent G i j) /\
  (mrun (clique_circuit n p angles) (zero_state n) s <> c0 -> (forall i, In i sol -> getbit s i = true) /\ (forall i, In i exc -> getbit s i = false)).
Proof.
  intros Sm N Ls p. assert (I : clique_inv n G p) by (apply clique_rounds; [exact N|split; [apply reduced_start, Sm|split; [constructor|intros i []]]]). destruct p as [[g sol] exc]. destruct I as [[RA RB] [ND I]].
  assert (B : forall i j, In i sol -> j < n -> ~ In j exc -> i <> j -> adjacent G i j).
  { intros i j Ii Lj Xj D. destruct (I i Ii) as [_ A]. assert (H : adjacent g j i) by (apply A; [apply RA; tauto|congruence]). unfold adjacent in *. rewrite !RB in H. tauto. }
  assert (Sn : forall i, In i sol -> i < n /\ ~ In i exc) by (intros i Ii; apply RA, I, Ii).
  split; [intros i j Ii Ij D; apply B; try assumption; apply Sn, Ij|]. split; [exact B|]. intros A.
  assert (F := fun i => C93_clique_fixed n g sol exc angles s i (fun i H => proj1 (proj1 (RA i) H)) (fun i H => proj1 (Sn i H)) Ls A). split; intros i Ii.
  - rewrite F by (apply in_app_iff; left; exact Ii). rewrite (proj1 (NoDup_count_occ' Nat.eq_dec sol) ND i Ii). reflexivity.
  - rewrite F by (apply in_app_iff; right; exact Ii). rewrite (proj1 (count_occ_not_In Nat.eq_dec sol i)); [reflexivity|]. intros C. apply Sn in C. tauto.
Qed.
Print Assumptions C93_clique_partial.
(** The phases: as for independent sets of the complement *)
Theorem C93_clique_cost n g sol exc gamma psi x : (forall i, In i (nodes g) -> i < n) -> length x = n ->
  mrun (clique_cost (g, sol, exc) gamma) psi x = cmul (turn (gamma / 2 * IZR (zsum (edge_value x) (filter (fun '(a, b) => (a <? b)%nat && negb (existsb (Nat.eqb b) (adj g a))) (list_prod (nodes g) (nodes g))) + zsum (fun i => if getbit x i then 1 else -1) (filter (fun i => negb (existsb (Nat.eqb i) sol)) (nodes g)))%Z)) (psi x).
Proof.
  intros H Lx. rewrite (diag_clique_cost n g sol exc gamma H psi x Lx). rewrite zsum_signs. reflexivity.
Qed.
Print Assumptions C93_clique_cost.
(** An edge with a positive correlation keeps the neighbours of its first end only, so the solutions need not be a clique: nodes 1 and 2 are not adjacent *)
Definition path : graph := {| nodes := [0; 1; 2]; edges := [(0, 2); (0, 1)] |}.
Theorem C93_clique_refuted : exists n G results, simple n G /\ let '(_, sol, _) := rounds clique_replace G results in exists i j, In i sol /\ In j sol /\ i <> j /\ ~ adjacent G i j.
Proof.
  exists 3, path, [[([true; true; false], 1%Z); ([true; true; true], 1%Z)]; [([true; true; true], 1%Z)]]. split.
  - split; [intros i; cbn; lia|]. intros a b [E|[E|[]]]; injection E as <- <-; lia.
  - cbn. exists 1, 2. repeat split; try lia. intros [[E|[E|[]]]|[E|[E|[]]]]; discriminate.
Qed.
Print Assumptions C93_clique_refuted.
(** A solution that is found again is deselected: two adjacent nodes. The first recursion finds both; afterwards nothing else is measured; after the second recursion neither is measured. *)
Definition edge : graph := {| nodes := [0; 1]; edges := [(0, 1)] |}.
Theorem C93_clique_again_refuted : exists n G best, simple n G /\ length best = n /\ weight best = n /\ (forall i j, i < n -> j < n -> i <> j -> adjacent G i j) /\
  (forall angles s, length s = n -> mrun (clique_circuit n (rounds clique_replace G [[(best, 1%Z)]]) angles) (zero_state n) s <> c0 -> s = best) /\
  (forall angles s, length s = n -> mrun (clique_circuit n (rounds clique_replace G [[(best, 1%Z)]; [(best, 1%Z)]]) angles) (zero_state n) s <> c0 -> s = repeat false n).
Proof.
  exists 2, edge, [true; true]. split; [|split; [reflexivity|split; [reflexivity|split; [|split]]]].
  - split; [intros i; cbn; lia|]. intros a b [E|[]]; injection E as <- <-; lia.
  - intros i j Li Lj D. destruct i as [|[|i]], j as [|[|j]]; try lia; [left|right]; left; reflexivity.
  - intros angles s Ls H. change (rounds clique_replace edge [[([true; true], 1%Z)]]) with (edge, [0; 1], @nil nat) in H.
    pose proof (fun i => C93_clique_fixed 2 edge [0; 1] [] angles s i ltac:(cbn; intros ? ?; lia) ltac:(cbn; intros ? ?; lia) Ls H) as F.
    pose proof (F 0 ltac:(cbn; tauto)) as F0. pose proof (F 1 ltac:(cbn; tauto)) as F1. destruct s as [|b0 [|b1 [|? ?]]]; try discriminate. cbn in F0, F1. subst. reflexivity.
  - intros angles s Ls H. change (rounds clique_replace edge [[([true; true], 1%Z)]; [([true; true], 1%Z)]]) with (edge, [0; 1; 0; 1], @nil nat) in H.
    pose proof (fun i => C93_clique_fixed 2 edge [0; 1; 0; 1] [] angles s i ltac:(cbn; intros ? ?; lia) ltac:(cbn; intros ? ?; lia) Ls H) as F.
    pose proof (F 0 ltac:(cbn; tauto)) as F0. pose proof (F 1 ltac:(cbn; tauto)) as F1. destruct s as [|b0 [|b1 [|? ?]]]; try discriminate. cbn in F0, F1. subst. reflexivity.
Qed.
Print Assumptions C93_clique_again_refuted.

(** ** Satisfiability: a recursion keeps the numbers of satisfied clauses of the assignments that agree with the correlation, up to a constant. Variable v + 1 is on qubit v. *)
Theorem C93_sat res vars cs sol exc : let '((vars', cs'), sol', exc') := sat_replace res ((vars, cs), sol, exc) in
  (((vars', cs'), sol', exc') = ((vars, cs), sol, exc) /\
   (forall v, (v < vars)%nat -> ~ In (S v) exc -> ~ In v sol -> correlation res (Single v) = 0%Z) /\ (forall a b, a < b < vars -> ~ In (S a) exc -> ~ In (S b) exc -> correlation res (Pair a b) = 0%Z)) \/
  (exists v k, (v < vars)%nat /\ correlation res (Single v) <> 0%Z /\ forall t, t (S v) = (correlation res (Single v) <? 0)%Z -> count_satisfied t cs = k + count_satisfied t cs') \/
  (exists a b, (a < vars)%nat /\ (b < vars)%nat /\ a <> b /\ correlation res (Pair a b) <> 0%Z /\
     (forall t, t (S b) = (if (0 <? correlation res (Pair a b))%Z then t (S a) else negb (t (S a))) -> count_satisfied t cs = count_satisfied t cs') /\
     ((forall c, In c cs -> NoDup c) -> forall c, In c cs' -> ~ In (Z.of_nat (S b)) c /\ ~ In (- Z.of_nat (S b))%Z c)).
Proof.
  unfold sat_replace. set (free := map (fun i => i - 1) (filter (fun i => negb (member i exc)) (seq 1 vars))).
  assert (Fr : forall v, In v free -> v < vars) by (intros v V; unfold free in V; apply in_map_iff in V; destruct V as (w & <- & V); apply filter_In in V; destruct V as [V _]; apply in_seq in V; lia).
  assert (Fi : forall v, v < vars -> ~ In (S v) exc -> In v free) by (intros v V X; apply in_map_iff; exists (S v); split; [lia|]; apply filter_In; split; [apply in_seq; lia|apply negb_true_iff, member_out, X]).
  assert (Pi : forall a b, a < b -> b < vars -> ~ In (S a) exc -> ~ In (S b) exc -> In (a, b) (pairs free)).
  { intros a b D V Xa Xb. assert (H : forall m k, k <= a -> b < k + m -> In (a, b) (pairs (map (fun i => i - 1) (filter (fun i => negb (member i exc)) (seq (S k) m))))).
    { induction m as [|m IH]; intros k K M; [lia|]. cbn [seq filter]. destruct (Nat.eq_dec k a) as [->|E].
      - replace (member (S a) exc) with false by (symmetry; apply member_out, Xa). cbn [negb map pairs]. rewrite Nat.sub_succ, Nat.sub_0_r. apply in_app_iff. left. apply in_map. apply in_map_iff. exists (S b). split; [lia|]. apply filter_In. split; [apply in_seq; lia|apply negb_true_iff, member_out, Xb].
      - assert (IH' := IH (S k) ltac:(lia) ltac:(lia)). destruct (negb (member (S k) exc)); [cbn [map pairs]; apply in_app_iff; right|]; exact IH'. }
    apply (H vars 0); lia. }
  assert (Pr : forall l a b, In (a, b) (pairs l) -> In a l /\ In b l).
  { induction l as [|c l IH]; intros a b H; [destruct H|]. cbn [pairs] in H. apply in_app_iff in H. destruct H as [H|H]; [apply in_map_iff in H; destruct H as (d & E & H); injection E as <- <-; split; [left; reflexivity|right; exact H]|]. apply IH in H. split; right; apply H. }
  assert (Ho : forall t v, holds t (Z.of_nat (v + 1)) = t (S v)).
  { intros t v. unfold holds. destruct (Z.ltb_spec 0 (Z.of_nat (v + 1))); [|lia]. f_equal. lia. }
  destruct (find_max_found free (pairs free) res sol) as (st & F & E). rewrite E. destruct F as [[-> Z0]|(i & P & -> & N & _)].
  { left. cbn [snd]. split; [reflexivity|]. split; [intros v V X Sv; apply (Z0 (Single v)); split; [apply Fi; assumption|exact Sv]|]. intros a b [D V] Xa Xb. apply (Z0 (Pair a b)). split; [|lia]. apply Pi; try assumption; lia. } cbn [snd]. destruct i as [v|a b].
  - destruct P as [V _].
    set (lit := if (Z.sgn (correlation res (Single v)) <? 0)%Z then Z.of_nat (v + 1) else (- Z.of_nat (v + 1))%Z).
    assert (L0 : lit <> 0%Z) by (unfold lit; destruct (_ <? 0)%Z; lia).
    destruct (loop_ok lit L0 (length cs) 0 cs) as (k & K). destruct (sat_loop (length cs) lit 0 cs) as [cs' m] eqn:Es. right. left. exists v, k. split; [apply Fr, V|]. split; [exact N|]. intros t T. apply K. unfold lit.
    destruct (Z.ltb_spec (Z.sgn (correlation res (Single v))) 0) as [C|C]; destruct (Z.ltb_spec (correlation res (Single v)) 0) as [D|D]; try lia; [rewrite Ho; exact T|]. rewrite holds_opp, Ho, T by lia. reflexivity.
  - right. right. destruct P as [P D]. apply Pr in P. exists a, b. split; [apply Fr, P|]. split; [apply Fr, P|]. split; [exact D|]. split; [exact N|]. split.
    + intros t T. symmetry. apply count_map. intros c. apply subst_ok; [lia|lia|]. rewrite !Ho, T.
      destruct (Z.ltb_spec 0 (correlation res (Pair a b))), (Z.ltb_spec 0 (Z.sgn (correlation res (Pair a b)))); try lia; reflexivity.
    + intros ND c' C. apply in_map_iff in C. destruct C as (c & <- & C). replace (S b) with (b + 1) by lia. apply subst_gone; [lia|lia|lia|apply ND, C].
Qed.
Print Assumptions C93_sat.
(** But variables are counted from 1 and qubits from 0: variable 1 is always measured true and is to be fixed; instead qubit 1, variable 2, is fixed, and the assignments that were measured are lost *)
Theorem C93_sat_refuted : exists res, (forall x v, In (x, v) res -> getbit x 0 = true) /\ In ([true; false], 1%Z) res /\
  let '(_, sol, exc) := sat_replace res ((2, [[1%Z; 2%Z]]), [], []) in
  sol = [1] /\ exc = [1] /\ mrun (qiro_init 2 sol exc) (zero_state 2) [true; false] = c0 /\ mrun (qiro_init 2 sol exc) (zero_state 2) [false; true] <> c0.
Proof.
  exists [([true; false], 1%Z); ([true; true], 1%Z)]. split; [intros x v [E|[E|[]]]; injection E as <- <-; reflexivity|]. split; [left; reflexivity|]. split; [reflexivity|]. split; [reflexivity|]. split.
  - apply (fixed_start 2 [1] [1]); [cbn; intros ? ?; lia|reflexivity|]. intros F. specialize (F 1 ltac:(cbn; tauto)). discriminate.
  - change (mrun (map (fun q => Std (U (mk_u (PI / 2) 0 PI 0) q)) (seq 0 1)) (zero_state 2) (zeros 2) <> c0). rewrite (proj2 (start_zeros 2 1 ltac:(lia))). intros E. injection E as E. rewrite cos_PI4 in E. assert (0 < / sqrt 2)%R by (apply Rinv_0_lt_compat, sqrt_lt_R0; lra). lra.
Qed.
Print Assumptions C93_sat_refuted.
(** and a variable is entered once for each clause, so that with two clauses its qubit is flipped twice *)
Theorem C93_sat_again_refuted : let '(_, sol, exc) := sat_replace [([true; false], 1%Z); ([true; true], 1%Z)] ((2, [[1%Z; 2%Z]; [1%Z; (-2)%Z]]), [], []) in
  sol = [1; 1] /\ forall s, length s = 2 -> mrun (qiro_init 2 sol exc) (zero_state 2) s <> c0 -> getbit s 1 = false.
Proof.
  split; [reflexivity|]. intros s Ls A. destruct (getbit s 1) eqn:E; [|reflexivity]. exfalso. apply A. apply (fixed_start 2 [1; 1] [1; 1]); [cbn; intros ? ?; lia|exact Ls|]. intros F. specialize (F 1 ltac:(cbn; tauto)). cbn in F. congruence.
Qed.
Print Assumptions C93_sat_again_refuted.

(** ** The hypotheses can be met: a path with four nodes, of which the second is found first and then, by an edge, the two last ones are excluded *)
Definition line : graph := {| nodes := [0; 1; 2; 3]; edges := [(0, 1); (1, 2); (2, 3)] |}.
Example line_simple : simple 4 line. Proof. split; [intros i; cbn; lia|]. intros a b [E|[E|[E|[]]]]; injection E as <- <-; lia. Qed.
Example line_rounds : let '(g, sol, exc) := rounds indep_replace line [[([false; true; false; false], 3%Z); ([false; true; false; true], 1%Z); ([true; true; true; true], 1%Z)]] in sol = [1] /\ exc = [0; 2] /\ nodes g = [1; 3].
Proof. repeat split. Qed.
Example line_measured : mrun (indep_circuit 4 (line, [], []) []) (zero_state 5) (repeat false 4 ++ [false]) <> c0. Proof. cbn. unfold zero_state, basis_state. cbn. intros E. injection E as E. lra. Qed.
Example node_first_star : nodes_first [[([true; false; false], 3%Z); ([true; true; false], 1%Z); ([true; false; true], 1%Z); ([true; true; true], 1%Z)]] (star, [], []).
Proof. split; [|exact I]. intros a b [[E|[E|[]]] _]; injection E as <- <-; exists 0; (split; [split; [cbn; tauto|intros []]|]); cbn; lia. Qed.
