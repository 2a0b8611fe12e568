(** Graphs, sets of nodes, clauses. *)
From Coq Require Import List Arith Bool ZArith.
Import ListNotations.
From Verif.Inverse Require Import InvSpec.
From Verif.Qiro Require Import QiroModel.
(** an undirected graph on the nodes 0, ..., n - 1 without loops *)
Definition simple (n : nat) (g : graph) : Prop := (forall i, In i (nodes g) <-> i < n) /\ forall a b, In (a, b) (edges g) -> a < n /\ b < n /\ a <> b.
Definition adjacent (g : graph) (i j : nat) : Prop := In (i, j) (edges g) \/ In (j, i) (edges g).
(** bit i of s says whether node i is selected *)
Definition independent_set (g : graph) (s : list bool) : Prop := forall i j, getbit s i = true -> getbit s j = true -> ~ adjacent g i j.
(** the nodes that are not decided *)
Definition undecided {A} (n : nat) (p : progress A) : list nat := let '(_, sol, exc) := p in filter (fun i => negb (member i sol) && negb (member i exc)) (seq 0 n).
(** the correlation of a pair of nodes and the mean of a node, times the number of shots *)
Definition plus_minus (b : bool) : Z := if b then -1 else 1.
Definition total (f : list bool -> Z) (res : result) : Z := fold_right (fun '(x, v) t => (v * f x + t)%Z) 0%Z res.
Definition correlation (res : result) (i : item) : Z :=
  match i with
  | Single v => total (fun x => plus_minus (getbit x v)) res
  | Pair a b => total (fun x => (plus_minus (getbit x a) * plus_minus (getbit x b))%Z) res
  end.
(** what may be fixed in a round: nodes that are no solutions yet, and edges *)
Definition candidate (g : graph) (sol : list nat) (i : item) : Prop :=
  match i with Single v => In v (nodes g) /\ ~ In v sol | Pair a b => In (a, b) (edges g) /\ a <> b end.
(** rounds in which nodes have larger correlations than edges *)
Definition node_first (res : result) (p : progress graph) : Prop :=
  let '(g, sol, _) := p in forall a b, candidate g sol (Pair a b) -> exists v, candidate g sol (Single v) /\ (Z.abs (correlation res (Pair a b)) < Z.abs (correlation res (Single v)))%Z.
Fixpoint nodes_first (results : list result) (p : progress graph) : Prop := match results with [] => True | res :: l => node_first res p /\ nodes_first l (clique_replace res p) end.
(** the cost of a pair of nodes that should not both be chosen: 5 for both, -3 for one, 1 for none; here with the opposite sign *)
Definition edge_value (s : list bool) (e : nat * nat) : Z := let (a, b) := e in if getbit s a then if getbit s b then -5 else 3 else if getbit s b then 3 else -1.
Definition zsum {A} (f : A -> Z) (l : list A) : Z := fold_right (fun a s => (f a + s)%Z) 0%Z l.
(** assignments: the truth value of a literal, and the number of clauses that hold *)
Definition holds (t : nat -> bool) (l : Z) : bool := if (0 <? l)%Z then t (Z.to_nat l) else negb (t (Z.to_nat (- l))).
Definition satisfied (t : nat -> bool) (c : clause) : bool := existsb (holds t) c.
Definition count_satisfied (t : nat -> bool) (cs : list clause) : nat := length (filter (satisfied t) cs).
