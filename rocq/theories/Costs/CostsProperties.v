(** C50: cost functions. C62: phase separators. *)
From Coq Require Import ZArith QArith List Bool Lia.
From Verif.Costs Require Import CostsModel CostsSpec CostsProofs.
Import ListNotations.
Local Open Scope Q_scope.

(** MaxCut, at most 32 nodes: the weighted mean of minus the number of cut edges *)
Theorem C50_maxcut_partial : forall edges c, c <> [] -> edges <> [] -> (forall x w, In (x, w) c -> (length x <= 32)%nat) ->
  exists q, maxcut_cost edges c = Some q /\ q == expectation (fun x => inject_Z (- cut x edges)) c.
Proof. exact maxcut_cost_ok. Qed.
Print Assumptions C50_maxcut_partial.
Example C50_maxcut_ex : exists q, maxcut_cost [(0, 1); (1, 2); (0, 2)]%nat [([true; false; false], 3 # 4); ([true; true; true], 1 # 4)] = Some q /\ q == - (3 # 2).
Proof. vm_compute. eexists; split; reflexivity. Qed.

(** a graph with 33 nodes whose cost function raises *)
Theorem C50_maxcut_refuted : exists edges c, c <> [] /\ edges <> [] /\ (forall x w, In (x, w) c -> length x = 33%nat /\ w == 1) /\ maxcut_cost edges c = None.
Proof.
  exists [(0, 32)]%nat, [(repeat false 32 ++ [true], 1)]. split; [discriminate|]. split; [discriminate|]. split; [|vm_compute; reflexivity].
  intros x w [E|[]]. injection E as <- <-. split; reflexivity.
Qed.
Print Assumptions C50_maxcut_refuted.

(** MaxSat: the weighted mean of minus the number of satisfied clauses *)
Theorem C50_maxsat : forall clauses c (sat : state -> Z), literals_ok clauses -> (forall x, nsat x clauses (sat x)) ->
  maxsat_cost clauses c == expectation (fun x => inject_Z (- sat x)) c.
Proof. exact maxsat_cost_ok. Qed.
Print Assumptions C50_maxsat.
Theorem C50_maxsat_defined : forall x clauses, literals_ok clauses -> exists n, nsat x clauses n.
Proof. exact nsat_exists. Qed.
Print Assumptions C50_maxsat_defined.
Example C50_maxsat_ex : maxsat_cost [[1; -2]; [2; 3]; [-1; -3]]%Z [([true; true; false], 1 # 2); ([true; false; true], 1 # 2)] == - (5 # 2).
Proof. reflexivity. Qed.

(** QUBO: the weighted mean of x^T Q x *)
Theorem C50_qubo : forall m c, qubo_cost m c == expectation (quadratic m) c.
Proof. exact qubo_cost_ok. Qed.
Print Assumptions C50_qubo.
Example C50_qubo_ex : qubo_cost [[1; 2]; [3; 4]] [([true; true], 1 # 2); ([false; true], 1 # 2)] == 7.
Proof. reflexivity. Qed.

(** E3Lin2: the weighted mean of minus the number of satisfied equations *)
Theorem C50_e3lin2 : forall clauses c, e3lin2_cost clauses c == expectation (fun x => inject_Z (- nlin x clauses)) c.
Proof. exact e3lin2_cost_ok. Qed.
Print Assumptions C50_e3lin2.
Example C50_e3lin2_ex : e3lin2_cost [(0, 1, 2, true); (0, 1, 3, false)]%nat [([true; false; false; false], 1 # 3); ([true; true; true; false], 2 # 3)] == - (5 # 3).
Proof. reflexivity. Qed.

(** independent sets, cliques, packings: minus the size of the set if it is feasible, 0 otherwise *)
Theorem C50_independent_set : forall edges c obj, (forall x, reward (independent edges x) (inject_Z (- size x)) 0 (obj x)) ->
  indep_cost edges c == expectation obj c.
Proof. exact indep_cost_ok. Qed.
Print Assumptions C50_independent_set.
Theorem C50_clique : forall edges c obj, (forall x, reward (clique edges x) (inject_Z (- size x)) 0 (obj x)) ->
  clique_cost edges c == expectation obj c.
Proof. exact clique_cost_ok. Qed.
Print Assumptions C50_clique.
(** the problem object of max clique: independent sets of the complement graph *)
Theorem C50_clique_problem : forall n edges c obj, (forall x w, In (x, w) c -> length x = n) ->
  (forall x, reward (clique edges x) (inject_Z (- size x)) 0 (obj x)) ->
  indep_cost (complement n edges) c == expectation obj c.
Proof. exact clique_complement_ok. Qed.
Print Assumptions C50_clique_problem.
Theorem C50_set_packing : forall sets c obj, (forall x, reward (packing sets x) (inject_Z (- size x)) 0 (obj x)) ->
  packing_cost sets c == expectation obj c.
Proof. exact packing_cost_ok. Qed.
Print Assumptions C50_set_packing.
Example C50_sets_ex :
  indep_cost [(0, 1); (1, 2)]%nat [([true; false; true], 1 # 2); ([true; true; false], 1 # 2)] == -1 /\
  clique_cost [(0, 1); (1, 2)]%nat [([true; false; true], 1 # 2); ([true; true; false], 1 # 2)] == -1 /\
  indep_cost (complement 3 [(0, 1); (1, 2)]%nat) [([true; false; true], 1 # 2); ([true; true; false], 1 # 2)] == -1 /\
  packing_cost [[1]; [1; 2]; [3]]%nat [([true; false; true], 1 # 2); ([true; true; false], 1 # 2)] == -1.
Proof. repeat split; reflexivity. Qed.
Example C50_objective_ex : forall edges x, reward (independent edges x) (inject_Z (- size x)) 0
  (if forallb (fun p => negb (has_edge edges p)) (combinations (indices x)) then inject_Z (- size x) else 0).
Proof. intros edges. apply (reward_dec (independent edges) _ (fun x => inject_Z (- size x)) (fun _ => 0) (indep_ok edges)). Qed.

(** set cover: the size of the cover, or the number of sets; missing: infeasible outcomes with weight other than 1 *)
Theorem C50_set_cover_partial : forall sets universe c obj, (forall x w, In (x, w) c -> cover sets universe x \/ w == 1) ->
  (forall x, reward (cover sets universe x) (inject_Z (size x)) (inject_Z (Z.of_nat (length sets))) (obj x)) ->
  cover_cost sets universe c == expectation obj c.
Proof. exact cover_cost_ok. Qed.
Print Assumptions C50_set_cover_partial.
Example C50_set_cover_ex : cover_cost [[1]; [2]; [1; 2]]%nat [1; 2]%nat [([true; true; false], 1 # 2); ([false; false; true], 1 # 2)] == 3 # 2.
Proof. reflexivity. Qed.
Theorem C50_set_cover_refuted : exists sets universe c obj,
  (forall x, reward (cover sets universe x) (inject_Z (size x)) (inject_Z (Z.of_nat (length sets))) (obj x)) /\
  total snd c == 1 /\ ~ cover_cost sets universe c == expectation obj c.
Proof.
  exists [[1]; [2]]%nat, [1; 2]%nat, [([true; false], 1 # 2); ([false; true], 1 # 2)],
    (fun x => if covers [[1]; [2]]%nat [1; 2]%nat x then inject_Z (size x) else inject_Z 2). repeat split.
  - apply (reward_dec (cover _ _) _ (fun x => inject_Z (size x)) (fun _ => inject_Z 2) (covers_ok _ _)).
  - vm_compute. discriminate.
Qed.
Print Assumptions C50_set_cover_refuted.

(** colouring: -4^(edges with different colours) *)
Theorem C50_coloring : forall edges c, coloring_cost edges c == expectation (fun col => inject_Z (- 4 ^ proper_edges col edges)) c.
Proof. exact coloring_cost_ok. Qed.
Print Assumptions C50_coloring.
Example C50_coloring_ex : coloring_cost [(0, 1); (1, 2)]%nat [([0; 1; 1]%nat, 1 # 2); ([0; 1; 0]%nat, 1 # 2)] == -10.
Proof. reflexivity. Qed.

(** * phase separators *)
(** MaxCut: gamma (2 cut - |E|) *)
Theorem C62_maxcut : forall edges gamma x, multiplies (maxcut_operator edges gamma) x (gamma * inject_Z (2 * cut x edges - Z.of_nat (length edges))).
Proof. exact maxcut_operator_ok. Qed.
Print Assumptions C62_maxcut.
(** QUBO: -gamma x^T Q x, with gamma after the rescaling *)
Theorem C62_qubo : forall m gamma x, multiplies (qubo_operator (length x) m gamma) x (- gamma * quadratic m x).
Proof. exact qubo_operator_ok. Qed.
Print Assumptions C62_qubo.
(** MaxSat: -gamma times the number of satisfied clauses *)
Theorem C62_maxsat : forall clauses gamma x n, literals_ok clauses -> nsat x clauses n ->
  multiplies (maxsat_operator clauses gamma) x (- gamma * inject_Z n).
Proof. exact maxsat_operator_ok. Qed.
Print Assumptions C62_maxsat.
(** E3Lin2: gamma / 2 (number of equations - 2 satisfied) *)
Theorem C62_e3lin2 : forall clauses gamma x, (forall i j k r, In (i, j, k, r) clauses -> i <> j /\ j <> k /\ i <> k) ->
  multiplies (e3lin2_operator clauses gamma) x (gamma / 2 * inject_Z (Z.of_nat (length clauses) - 2 * nlin x clauses)).
Proof. exact e3lin2_operator_ok. Qed.
Print Assumptions C62_e3lin2.
(** colouring, one-hot or binary: 2 gamma times the number of edges with equal colours *)
Theorem C62_coloring : forall onehot s edges gamma x col, encodes onehot s x col -> simple (length col) edges ->
  multiplies (coloring_operator onehot s edges gamma) x (2 * gamma * inject_Z (equal_edges col edges)).
Proof. exact coloring_operator_ok. Qed.
Print Assumptions C62_coloring.

Example C62_ex :
  snd (circuit_act (maxcut_operator [(0, 1); (1, 2)]%nat 5) (bit [true; false; false])) == 0 /\
  snd (circuit_act (qubo_operator 2 [[1; 2]; [3; 4]] 1) (bit [true; true])) == -10 /\
  snd (circuit_act (maxsat_operator [[1; -2]; [2; 1]]%Z 3) (bit [false; true])) == -3 /\
  snd (circuit_act (e3lin2_operator [(0, 1, 2, true)]%nat 3) (bit [true; true; true])) == - (3 # 2).
Proof. repeat split; reflexivity. Qed.
Example C62_coloring_ex : encodes true 2 [true; false; false; true; true; false] [0; 1; 0]%nat /\ encodes false 2 [true; false; true; true; true; false] [1; 3; 1]%nat
  /\ simple 3 [(0, 1); (0, 2)]%nat /\ equal_edges [0; 1; 0]%nat [(0, 1); (0, 2)]%nat = 1%Z /\
  snd (circuit_act (coloring_operator true 2 [(0, 1); (0, 2)]%nat 3) (bit [true; false; false; true; true; false])) == 6 /\
  snd (circuit_act (coloring_operator false 2 [(0, 1); (0, 2)]%nat 3) (bit [true; false; true; true; true; false])) == 6.
Proof.
  split; [|split; [|split; [|repeat split; reflexivity]]].
  - intros i Hi. do 3 (destruct i as [|i]; [split; [cbn; lia|intros k Hk; do 2 (destruct k as [|k]; [reflexivity|]); lia]|]). cbn in Hi; lia.
  - intros i Hi. do 3 (destruct i as [|i]; [split; [cbn; lia|intros k Hk; do 2 (destruct k as [|k]; [reflexivity|]); lia]|]). cbn in Hi; lia.
  - intros i j [E|[E|[]]]; injection E as <- <-; lia.
Qed.
