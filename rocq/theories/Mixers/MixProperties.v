(** C90: the mixers of QAOA keep the constraints. *)
From Coq Require Import List Arith Bool Reals Lia Lra Ring Permutation.
Import ListNotations.
From Verif.Inverse Require Import InvSpec InvProofs.
From Verif.CtrlOps Require Import CtrlComplex.
From Verif.StatePrep Require Import PrepModel PrepSpec PrepNum XxyyProofs WProofs DickeProofs.
From Verif.Mixers Require Import MixModel MixSpec MixProofs MixProofs2 MixProofs3.
Local Open Scope R_scope.
Add Ring cring4 : complex_ring.

(** XY_mixer keeps the number of ones: if only basis states with w ones have an amplitude, that is so afterwards *)
Theorem C90_xy_weight : forall n beta psi w, (2 <= n)%nat -> (forall x, length x = n -> weight x <> w -> psi x = c0) ->
  forall x, length x = n -> weight x <> w -> mrun (XY_mixer 0 n beta) psi x = c0.
Proof.
  intros n beta psi w N H. assert (K : keeps n (fun x => weight x = w) (XY_mixer 0 n beta)); [|apply K; exact H]. apply keeps_xy; [exact N|lia|]. intros x a b Lx A B D E. rewrite <- E.
  assert (W : forall y, length y = n -> weight y = ones y (seq 0 n)) by (intros y Ly; rewrite <- weight_ones by lia; cbn [skipn]; rewrite <- Ly, firstn_all; reflexivity).
  rewrite !W by (rewrite ?exchange_length; exact Lx). symmetry. apply ones_exchange; try lia; [apply seq_NoDup| |]; apply in_seq; lia.
Qed.
Print Assumptions C90_xy_weight.
(** and each qubit interacts with its successor in the ring exactly once *)
Theorem C90_xy_ring : forall n beta, (2 <= n)%nat -> exists pairs, Permutation pairs (map (fun i => (i, (i + 1) mod n)) (seq 0 n)) /\
  forall off, XY_mixer off n beta = flat_map (fun '(a, b) => map Std (xxyy (4 * beta) 0 (off + a) (off + b))) pairs.
Proof.
  intros n beta N. exists (xy_pairs n). split; [|reflexivity]. symmetry.
  assert (D := Nat.div_mod n 2 ltac:(lia)). assert (M := Nat.mod_upper_bound n 2 ltac:(lia)). assert (D' := Nat.div_mod (n - 2 + n mod 2) 2 ltac:(lia)). assert (M' := Nat.mod_upper_bound (n - 2 + n mod 2) 2 ltac:(lia)).
  assert (V : ((n - 2 + n mod 2) mod 2 = 0)%nat).
  { destruct (Nat.eq_dec (n mod 2) 0) as [E|E]; [replace (n - 2 + n mod 2)%nat with ((n / 2 - 1) * 2)%nat by lia|replace (n - 2 + n mod 2)%nat with (n / 2 * 2)%nat by lia]; apply Nat.mod_mul; lia. }
  apply NoDup_Permutation_bis.
  - apply FinFun.Injective_map_NoDup; [intros a b E; injection E as E; exact E|apply seq_NoDup].
  - unfold xy_pairs. rewrite !app_length, !map_length, !seq_length. cbn [length]. lia.
  - intros [a b] I. apply in_map_iff in I. destruct I as (i & E & I). injection E as <- <-. apply in_seq in I. unfold xy_pairs. rewrite !in_app_iff, !in_map_iff. destruct (Nat.eq_dec i (n - 1)) as [->|Di].
    + right. right. left. replace (n - 1 + 1)%nat with n by lia. rewrite Nat.mod_same by lia. reflexivity.
    + rewrite (Nat.mod_small (i + 1)) by lia. assert (Q := Nat.div_mod i 2 ltac:(lia)). assert (Q' := Nat.mod_upper_bound i 2 ltac:(lia)). destruct (Nat.eq_dec (i mod 2) 0) as [Z|Z].
      * left. exists (i / 2)%nat. split; [f_equal; lia|apply in_seq; lia].
      * right. left. exists (i / 2)%nat. split; [f_equal; lia|apply in_seq; lia].
Qed.
Print Assumptions C90_xy_ring.
Example C90_xy_ex : xy_pairs 5 = [(0, 1); (2, 3); (1, 2); (3, 4); (4, 0)]%nat /\ weight [true; false; true; false; false] = 2%nat.
Proof. split; reflexivity. Qed.

(** The mixer of max_indep_set_problem: node i is exchanged with amplitude -i sin(beta / 2), kept with cos(beta / 2), if no neighbour is chosen and else stays, for i = 0, ..., n - 1 in turn *)
Lemma mix_ok pred allowed n z beta : (forall i, (i < n)%nat -> Forall (plain i) (pred i)) ->
  (forall i s, (i < n)%nat -> length s = n -> getbit (forth (pred i) (s ++ z)) n = allowed s i) ->
  forall psi s, length s = n -> mrun (controlled_RX_mixer pred n beta) psi (s ++ z) = mix_all allowed beta n (fun s => psi (s ++ z)) s.
Proof.
  intros Pl Al psi s Ls. unfold controlled_RX_mixer, mix_all. assert (H : forall i, In i (seq 0 n) -> (i < n)%nat) by (intros i I; apply in_seq in I; lia).
  assert (G : forall l, (forall i, In i l -> (i < n)%nat) -> forall psi phi, (forall s, length s = n -> psi (s ++ z) = phi s) -> forall s, length s = n -> mrun (flat_map (mixer_step pred n beta) l) psi (s ++ z) = fold_left (mix_one allowed beta) l phi s).
  { clear psi s Ls. induction l as [|i l IH]; intros Hl psi phi E s Ls; [apply E; exact Ls|]. cbn [flat_map fold_left]. rewrite mrun_app. assert (I := Hl i (or_introl eq_refl)). apply IH; [intros j J; apply Hl; right; exact J| |exact Ls].
    intros t Lt. rewrite step_run by (apply Pl; exact I). rewrite Al by assumption. unfold mix_one. rewrite flip_app by lia. rewrite !E by (rewrite ?flip_length; exact Lt). reflexivity. }
  apply G; [exact H|reflexivity|exact Ls].
Qed.
Theorem C90_indep_mixer : forall n adj beta psi s, simple_graph n adj -> length s = n ->
  mrun (max_indep_set_mixer adj n beta) psi (s ++ [false]) = mix_all (no_neighbour adj) beta n (fun s => psi (s ++ [false])) s.
Proof.
  intros n adj beta psi s G Ls. apply mix_ok; [intros i I; apply indep_plain; assumption| |exact Ls]. intros i t I Lt. rewrite indep_eval; [|exact I|rewrite app_length; cbn; lia|rewrite get_app, Lt, Nat.ltb_irrefl, Nat.sub_diag; reflexivity].
  apply forallb_ext_in. intros j J. destruct (G i I j J) as (Lj & _). rewrite get_app. replace (j <? length t)%nat with true by (symmetry; apply Nat.ltb_lt; lia). reflexivity.
Qed.
Print Assumptions C90_indep_mixer.
(** QAOA for max_indep_set_problem, with any number of layers and any angles: only independent sets have an amplitude (the last bit is the qubit of the predicate) *)
Theorem C90_independent_sets : forall n adj angles s a, simple_graph n adj -> length s = n ->
  mrun (max_indep_set n adj angles) (zero_state (S n)) (s ++ [a]) <> c0 -> a = false /\ independent adj s.
Proof. intros n adj angles s a G. apply indep_run. exact G. Qed.
Print Assumptions C90_independent_sets.
(** and a single mixer reaches all of them *)
Theorem C90_independent_sets_reached : forall n adj beta s, simple_graph n adj -> length s = n -> cos (beta / 2) <> 0 -> sin (beta / 2) <> 0 -> independent adj s ->
  mrun (max_indep_set_mixer adj n beta) (zero_state (S n)) (s ++ [false]) <> c0.
Proof.
  intros n adj beta s G Ls C S I. apply (reach n adj G beta C S n); [lia|exact Ls|exact I|]. intros j J. unfold getbit. apply nth_overflow. lia.
Qed.
Print Assumptions C90_independent_sets_reached.
(** a path with three nodes and an isolated node *)
Example C90_independent_ex : let adj i := match i with 0 => [1] | 1 => [0; 2] | 2 => [1] | _ => [] end%nat in simple_graph 4 adj /\ independent adj [true; false; true; true] /\ ~ independent adj [true; true; false; false].
Proof.
  cbn zeta. split; [|split].
  - intros i I j J. destruct i as [|[|[|[|i]]]]; cbn in J; repeat match goal with H : _ \/ _ |- _ => destruct H | H : False |- _ => destruct H end; subst; cbn; repeat split; try lia; auto.
  - intros i j Gi Gj A. destruct i as [|[|[|[|i]]]]; cbn in A; try discriminate Gi; repeat match goal with H : _ \/ _ |- _ => destruct H | H : False |- _ => destruct H end; subst; discriminate Gj.
  - intros H. apply (H 0%nat 1%nat); [reflexivity|reflexivity|left; reflexivity].
Qed.
(** max_clique_problem measures cliques *)
Theorem C90_cliques : forall n edge angles s a, (forall i j, edge i j = edge j i) -> length s = n -> mrun (max_clique n edge angles) (zero_state (S n)) (s ++ [a]) <> c0 -> a = false /\ clique edge s.
Proof.
  intros n edge angles s a Sy Ls N. apply C90_independent_sets in N; [|intros i I j J|exact Ls].
  - destruct N as [A N]. split; [exact A|]. intros i j Gi Gj D. assert (Lt : forall q, getbit s q = true -> (q < n)%nat) by (intros q Q; destruct (le_lt_dec n q); [unfold getbit in Q; rewrite nth_overflow in Q by lia; discriminate|assumption]).
    destruct (edge i j) eqn:E; [reflexivity|]. exfalso. apply (N i j Gi Gj). apply filter_In. split; [apply in_seq; specialize (Lt j Gj); lia|]. rewrite E. replace (j =? i)%nat with false by (symmetry; apply Nat.eqb_neq; congruence). reflexivity.
  - unfold complement in *. rewrite filter_In, in_seq in *. destruct J as [J E]. apply andb_true_iff in E. destruct E as [E1 E2]. apply negb_true_iff, Nat.eqb_neq in E1. repeat split; try lia; try congruence. rewrite Sy, E2. replace (i =? j)%nat with false by (symmetry; apply Nat.eqb_neq; congruence). reflexivity.
Qed.
Print Assumptions C90_cliques.
Example C90_cliques_ex : clique (fun i j => negb (i =? j)%nat) [true; true; false] /\ ~ clique (fun i j => false) [true; true; false].
Proof. split; [intros i j _ _ D; apply negb_true_iff, Nat.eqb_neq; exact D|intros H; specialize (H 0%nat 1%nat eq_refl eq_refl ltac:(lia)); discriminate]. Qed.
(** max_set_packing_problem measures packings *)
Lemma intersects_ok s t : intersects s t = true <-> exists e, In e s /\ In e t.
Proof.
  unfold intersects. rewrite existsb_exists. split.
  - intros (e & A & B). apply existsb_exists in B. destruct B as (f & B & E). apply Nat.eqb_eq in E. subst f. exists e. split; assumption.
  - intros (e & A & B). exists e. split; [exact A|]. apply existsb_exists. exists e. split; [exact B|apply Nat.eqb_refl].
Qed.
Lemma packing_adj sets i j : In j (packing_graph sets i) <-> (j < length sets)%nat /\ i <> j /\ exists e, In e (nth i sets []) /\ In e (nth j sets []).
Proof.
  unfold packing_graph. rewrite filter_In, in_seq, orb_true_iff, !andb_true_iff, !Nat.ltb_lt, !intersects_ok. split.
  - intros [A [[B (e & C)]|[B (e & C)]]]; repeat split; try lia; exists e; tauto.
  - intros (A & B & e & C & D). split; [lia|]. destruct (Nat.lt_total i j) as [H|[H|H]]; [left|contradiction|right]; (split; [exact H|]); exists e; tauto.
Qed.
Theorem C90_packings : forall sets angles s a, length s = length sets -> mrun (max_set_packing sets angles) (zero_state (S (length sets))) (s ++ [a]) <> c0 -> a = false /\ packing sets s.
Proof.
  intros sets angles s a Ls N. apply C90_independent_sets in N; [|intros i I j J|exact Ls].
  - destruct N as [A N]. split; [exact A|]. intros i j e Gi Gj D Ei Ej. apply (N i j Gi Gj). apply packing_adj. repeat split; [|exact D|exists e; split; assumption]. destruct (le_lt_dec (length sets) j); [rewrite nth_overflow in Ej by lia; destruct Ej|assumption].
  - apply packing_adj in J. destruct J as (A & B & e & C & D). repeat split; try assumption; try congruence. apply packing_adj. repeat split; try lia. exists e. split; assumption.
Qed.
Print Assumptions C90_packings.
Example C90_packings_ex : packing [[1; 2]; [2; 3]; [4]]%nat [true; false; true] /\ ~ packing [[1; 2]; [2; 3]; [4]]%nat [true; true; false].
Proof.
  split; [|intros H; apply (H 0%nat 1%nat 2%nat); try reflexivity; try lia; cbn; auto]. intros i j e Gi Gj D A B. destruct i as [|[|[|i]]]; try discriminate Gi; destruct j as [|[|[|j]]]; try discriminate Gj; try lia; cbn in A, B; lia || (destruct i; discriminate Gi) || (destruct j; discriminate Gj).
Qed.

(** min_set_cover_problem, if every element is in at least two sets: only covers have an amplitude. m: the number of auxiliary qubits. *)
Theorem C90_covers : forall sets m angles s z, (forall i, (length (nth i sets []) <= m)%nat) -> (forall i e, In e (nth i sets []) -> exists j, j <> i /\ In e (nth j sets [])) ->
  length s = length sets -> length z = S m -> z <> repeat false (S m) \/ ~ covers sets s -> mrun (min_set_cover sets angles) (zero_state (S (length sets) + m)) (s ++ z) = c0.
Proof.
  intros sets m angles s z Hm H2 Ls Lz N. apply cover_run; [exact Hm|exact H2|rewrite app_length; lia|]. intros [C V]. destruct N as [N|N].
  - apply N. apply bits_ext; [rewrite repeat_length; exact Lz|]. intros p P. rewrite get_repeat_false. specialize (C (length sets + p)%nat ltac:(lia)). rewrite get_app, Ls in C. replace (length sets + p <? length sets)%nat with false in C by (symmetry; apply Nat.ltb_ge; lia).
    replace (length sets + p - length sets)%nat with p in C by lia. exact C.
  - apply N. replace s with (firstn (length sets) (s ++ z)) by (rewrite <- Ls, firstn_app, Nat.sub_diag, firstn_all; cbn; rewrite app_nil_r; reflexivity). exact V.
Qed.
Print Assumptions C90_covers.
(** the mixer exchanges set i if the other chosen sets contain its elements *)
Theorem C90_cover_mixer : forall sets m beta psi s, (forall i, (length (nth i sets []) <= m)%nat) -> (forall i e, In e (nth i sets []) -> exists j, j <> i /\ In e (nth j sets [])) -> length s = length sets ->
  mrun (min_set_cover_mixer sets beta) psi (s ++ repeat false (S m)) = mix_all (dispensable sets) beta (length sets) (fun s => psi (s ++ repeat false (S m))) s.
Proof.
  intros sets m beta psi s Hm H2 Ls. apply mix_ok; [intros i I; apply cover_plain; exact I| |exact Ls]. intros i t I Lt. rewrite cover_eval.
  - unfold dispensable. f_equal. apply forallb_ext_in. intros e E. unfold replaceable. destruct (H2 i e E) as (j0 & D0 & E0). assert (O : In j0 (others sets i e)) by (apply others_in; repeat split; try assumption; apply (set_in _ _ e); exact E0).
    destruct (others sets i e) as [|o l] eqn:Eo; [destruct O|]. rewrite <- Eo. apply eq_true_iff_eq. rewrite !existsb_exists. split.
    + intros (j & J & G). apply others_in in J. destruct J as (A & B & D). exists j. split; [apply in_seq; lia|]. rewrite get_app, Lt in G. apply Nat.ltb_lt in A. rewrite A in G. rewrite G. apply Nat.eqb_neq in D. rewrite D. cbn [andb negb]. apply existsb_exists. exists e. split; [exact B|apply Nat.eqb_refl].
    + intros (j & J & G). apply in_seq in J. apply andb_true_iff in G. destruct G as [G B]. apply andb_true_iff in G. destruct G as [G D]. apply negb_true_iff, Nat.eqb_neq in D. apply existsb_exists in B. destruct B as (f & B & F). apply Nat.eqb_eq in F. subst f.
      exists j. split; [apply others_in; repeat split; try assumption; lia|]. rewrite get_app, Lt. replace (j <? length sets)%nat with true by (symmetry; apply Nat.ltb_lt; lia). exact G.
  - rewrite app_length, repeat_length. specialize (Hm i). lia.
  - intros q Q. rewrite get_app, Lt. replace (q <? length sets)%nat with false by (symmetry; apply Nat.ltb_ge; lia). apply get_repeat_false.
Qed.
Print Assumptions C90_cover_mixer.
Example C90_covers_ex : let sets := [[1; 2]; [2; 3]; [1; 3]]%nat in (forall i e, In e (nth i sets []) -> exists j, j <> i /\ In e (nth j sets [])) /\ covers sets [true; true; false] /\ ~ covers sets [true; false; false].
Proof.
  cbn zeta. split; [|split].
  - intros i e E. destruct i as [|[|[|i]]]; cbn in E; repeat match goal with H : _ \/ _ |- _ => destruct H | H : False |- _ => destruct H end; subst; first [exists 0%nat; split; [lia|cbn; tauto] | exists 1%nat; split; [lia|cbn; tauto] | exists 2%nat; split; [lia|cbn; tauto] | destruct i; destruct E].
  - intros i e E. destruct i as [|[|[|i]]]; cbn in E; repeat match goal with H : _ \/ _ |- _ => destruct H | H : False |- _ => destruct H end; subst; first [exists 0%nat; split; [reflexivity|cbn; tauto] | exists 1%nat; split; [reflexivity|cbn; tauto] | destruct i; destruct E].
  - intros H. destruct (H 1%nat 3%nat) as (j & G & E); [cbn; tauto|]. destruct j as [|[|[|j]]]; try discriminate G; [cbn in E; lia|destruct j; discriminate G].
Qed.
(** An element of a single set: the mixer does not see that the set is needed, and a selection that is not a cover has an amplitude. *)
Theorem C90_covers_refuted : exists sets s, length s = length sets /\ covers sets (repeat true (length sets)) /\ ~ covers sets s /\
  forall gamma beta, cos (beta / 2) <> 0 -> sin (beta / 2) <> 0 -> mrun (min_set_cover sets [(gamma, beta)]) (zero_state 5) (s ++ repeat false 3) <> c0.
Proof.
  exists [[1]; [1; 2]]%nat, [true; false]. split; [reflexivity|]. split; [|split].
  - intros i e E. exists i. split; [|exact E]. destruct i as [|[|i]]; [reflexivity|reflexivity|destruct i; destruct E].
  - intros H. destruct (H 1%nat 2%nat) as (j & G & E); [cbn; tauto|]. destruct j as [|[|j]]; [cbn in E; lia|discriminate G|destruct j; discriminate G].
  - intros g b C S. unfold min_set_cover, layers. cbn [flat_map]. rewrite app_nil_r, !mrun_app. set (st := mrun (map (fun q => Std (Not q)) _) _). set (phi := mrun (RZ_mixer _ g) st). unfold min_set_cover_mixer, controlled_RX_mixer. cbn [length seq flat_map]. rewrite app_nil_r, mrun_app.
    assert (Pl : forall i, (i < 2)%nat -> Forall (plain i) (cover_predicate [[1]; [1; 2]]%nat i)) by (intros i I; apply cover_plain; exact I).
    rewrite step_run by (apply Pl; lia). match goal with |- (if ?b then _ else _) <> _ => replace b with true by (vm_compute; reflexivity) end. cbn [app repeat flip setbit getbit nth negb].
    rewrite !step_run by (apply Pl; lia). repeat match goal with |- context [getbit (forth ?c ?x) ?q] => let v := eval vm_compute in (getbit (forth c x) q) in change (getbit (forth c x) q) with v end. cbv iota. cbn [flip setbit getbit nth negb].
    assert (E : forall x, phi x = cmul (turn (if getbit x 1 then - g / 2 else - - g / 2)) (cmul (turn (if getbit x 0 then - g / 2 else - - g / 2)) (st x))).
    { intros x. unfold phi, RZ_mixer. clearbody st. unfold mrun. cbn [length seq map]. cbn [fold_left]. unfold mapply at 1, apply at 1. rewrite act_rz. unfold mapply at 1, apply at 1. rewrite act_rz. reflexivity. }
    rewrite !E. unfold st, mrun. cbn [length seq map fold_left mapply apply setbit getbit nth negb zero_state basis_state repeat bits_eqb Bool.eqb andb].
    assert (T : forall a z, z <> c0 -> cmul (turn a) z <> c0). { intros a z Z F. apply Z. replace z with (cmul (turn (- a)) (cmul (turn a) z)); [rewrite F; apply c_mul_0|]. replace (cmul (turn (- a)) (cmul (turn a) z)) with (cmul (cmul (turn (- a)) (turn a)) z) by ring. rewrite <- turn_add. replace (- a + a) with 0 by ring. rewrite turn_0. ring. }
    assert (O : c1 <> c0) by (intros F; apply (f_equal fst) in F; cbn in F; lra).
    match goal with |- cadd ?A (cmul (copp ci) (scale ?s (cadd (scale ?c ?B) ?D))) <> c0 => assert (HA : A = c0); [rewrite ?scale_mul; ring|assert (HD : D = c0); [rewrite ?scale_mul; ring|rewrite HA, HD; replace (cadd (scale c B) c0) with (scale c B) by ring; replace (cadd c0 (cmul (copp ci) (scale s (scale c B)))) with (cmul (copp ci) (scale s (scale c B))) by ring]] end.
    apply rot_nz, scale_nz; [exact S|]. apply scale_nz; [exact C|]. apply T, T, O.
Qed.
Print Assumptions C90_covers_refuted.
(** The classical cost: the expected number of sets if only covers are measured. *)
Theorem C90_cover_cost : forall sets universe res, (forall s p, In (s, p) res -> is_cover sets universe s = true) ->
  cover_cost sets universe res = fold_right (fun '(s, p) c => INR (weight s) * p + c) 0 res.
Proof.
  intros sets universe res H. unfold cover_cost. assert (W : forall s, length (chosen s) = weight s).
  { intros s. transitivity (ones s (seq 0 (length s))); [reflexivity|]. rewrite <- weight_ones by lia. cbn [skipn]. rewrite firstn_all. reflexivity. }
  assert (G : forall c, fold_left (fun cost '(s, prob) => if is_cover sets universe s then cost + INR (length (chosen s)) * prob else cost + INR (length sets)) res c = c + fold_right (fun '(s, p) c => INR (weight s) * p + c) 0 res); [|rewrite G; ring].
  induction res as [|[s p] res IH]; intros c; [cbn; ring|]. cbn [fold_left fold_right]. rewrite (H s p) by (left; reflexivity). rewrite IH by (intros t q I; apply (H t q); right; exact I). rewrite W. ring.
Qed.
Print Assumptions C90_cover_cost.
Example C90_cover_cost_ex : is_cover [[1; 2]; [2; 3]; [1; 3]]%nat [1; 2; 3]%nat [true; true; false] = true. Proof. reflexivity. Qed.
(** With other outcomes it is not an expected value: each of two outcomes alone costs 2, both with probability 1/2 cost 4. *)
Theorem C90_cover_cost_refuted : exists sets universe s t, cover_cost sets universe [(s, 1)] = 2 /\ cover_cost sets universe [(t, 1)] = 2 /\ cover_cost sets universe [(s, / 2); (t, / 2)] = 4.
Proof. exists [[1]; [2]]%nat, [1; 2]%nat, [true; false], [false; true]. unfold cover_cost. cbn. repeat split; lra. Qed.
Print Assumptions C90_cover_cost_refuted.

(** apply_XY_mixer and the cost operator of graph_coloring_problem with one-hot encoding, k colours: if at first every node has exactly one colour in each basis state with an amplitude, that is so afterwards *)
Theorem C90_coloring : forall m k edges angles psi, (2 <= k)%nat -> let coloured x := forall r, (r < m)%nat -> weight (register k r x) = 1%nat in
  (forall x, length x = (m * k)%nat -> ~ coloured x -> psi x = c0) -> forall x, length x = (m * k)%nat -> ~ coloured x -> mrun (graph_coloring m k edges angles) psi x = c0.
Proof. intros m k edges angles psi K coloured H. apply (keeps_coloring m k edges (fun _ => 1%nat) angles K psi). exact H. Qed.
Print Assumptions C90_coloring.
Example C90_coloring_ex : let x := [true; false; false; false; true; false] in weight (register 3 0 x) = 1%nat /\ weight (register 3 1 x) = 1%nat /\ register 3 1 x = [false; true; false].
Proof. repeat split. Qed.
(** But the problem has no init_function and the default start is a superposition of all basis states: with any angles the outcome in which no node has a colour has an amplitude. *)
Theorem C90_coloring_start_refuted : forall m k edges angles, (1 <= m)%nat -> (2 <= k)%nat -> let x := repeat false (m * k) in
  weight (register k 0 x) = 0%nat /\ mrun (default_start (m * k) ++ graph_coloring m k edges angles) (zero_state (m * k)) x <> c0.
Proof.
  intros m k edges angles M K x. split.
  - unfold register, x. rewrite Nat.mul_0_l. cbn [skipn]. unfold weight. assert (F : forall a b, filter (fun b => b) (firstn a (repeat false b)) = []) by (induction a as [|a IH]; intros [|b]; cbn; auto). rewrite F. reflexivity.
  - rewrite mrun_app. change x with (zeros (m * k)). rewrite fixes_coloring by exact K. destruct (start_zeros (m * k) (m * k) (le_n _)) as [_ E]. unfold default_start. rewrite E. intros F. apply (f_equal fst) in F. cbn in F. revert F. apply pow_nonzero. rewrite cos_PI4. apply Rgt_not_eq. apply Rdiv_lt_0_compat; [lra|]. apply sqrt_lt_R0. lra.
Qed.
Print Assumptions C90_coloring_start_refuted.

(** portfolio_mixer keeps the number of ones of both registers *)
Theorem C90_portfolio : forall half beta psi w0 w1, let ok x := weight (register half 0 x) = w0 /\ weight (register half 1 x) = w1 in
  (forall x, length x = (2 * half)%nat -> ~ ok x -> psi x = c0) -> forall x, length x = (2 * half)%nat -> ~ ok x -> mrun (portfolio_mixer half beta) psi x = c0.
Proof.
  intros half beta psi w0 w1 ok H. assert (K : keeps (2 * half) ok (portfolio_mixer half beta)); [|apply K; exact H]. unfold portfolio_mixer.
  assert (E : forall x v a b, length x = (2 * half)%nat -> (v < 2)%nat -> (v * half <= a < v * half + half)%nat -> (v * half <= b < v * half + half)%nat -> a <> b -> ok (exchange x a b) -> ok x).
  { intros x v a b Lx V A B D [O0 O1]. rewrite (register_exchange half 0 2 x a b v) in O0 by (try assumption; lia). rewrite (register_exchange half 1 2 x a b v) in O1 by (try assumption; lia). split; assumption. }
  apply keeps_app; apply keeps_portfolio_register; try lia; intros x a b Lx A B D; [apply (E x 0%nat)|apply (E x 1%nat)]; try assumption; lia.
Qed.
Print Assumptions C90_portfolio.
Example C90_portfolio_ex : weight (register 4 0 [false; false; true; true; true; false; false; false]) = 2%nat /\ dicke_state 4 4 <> [].
Proof. split; [reflexivity|discriminate]. Qed.
