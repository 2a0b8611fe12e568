(** Model of the constraint-preserving mixers of QAOA and of the problems that use them (/repo/src/qrisp/algorithms/qaoa/mixers.py, MX; qaoa_problem.py, QP; problems/maxIndepSet.py, IS;
    problems/maxClique.py, CL; problems/maxSetPacking.py, SP; problems/minSetCover.py, SC; problems/maxKColorableSubgraph.py, CO), over the real numbers. *)
From Coq Require Import List Arith Bool Reals.
Import ListNotations.
From Verif.StatePrep Require Import PrepModel.
Local Open Scope R_scope.

(** [MCX]: a Not on t if each control is in its state; [CRX]: rx under control of c; [MCP]: a phase if each qubit is in its state (p, cp, mcp).
    The circuits of these gates are modelled elsewhere (C39, C46). *)
Inductive mgate := Std (g : gate) | MCX (cs : list (nat * bool)) (t : nat) | CRX (c : nat) (a : R) (q : nat) | MCP (a : R) (cs : list (nat * bool)).
(** /repo/src/qrisp/core/gate_application_functions.py:504-511: without controls nothing happens *)
Definition mcx (cs : list (nat * bool)) (t : nat) : list mgate := match cs with [] => [] | _ => [MCX cs t] end.

(** * Mixers and cost operators *)
(** MX 113 *)
Definition RZ_mixer (n : nat) (gamma : R) : list mgate := map (fun q => Std (U (rz (- gamma)) q)) (seq 0 n).
(** MX 81-93 on the qubits off, ..., off + n - 1 for n >= 2 (with fewer the last gate raises an exception). jrange outside tracing is range. *)
Definition xy_pairs (n : nat) : list (nat * nat) :=
  map (fun i => (2 * i, 2 * i + 1)%nat) (seq 0 (n / 2)) ++ map (fun i => (2 * i + 1, 2 * i + 2)%nat) (seq 0 ((n - 2 + n mod 2) / 2)) ++ [((n - 1)%nat, 0%nat)].
Definition XY_mixer (off n : nat) (beta : R) : list mgate :=
  flat_map (fun '(a, b) => map Std (xxyy (4 * beta) 0 (off + a) (off + b))) (xy_pairs n).
(** MX 96-99: an array of m variables with k qubits each *)
Definition apply_XY_mixer (m k : nat) (beta : R) : list mgate := flat_map (fun r => XY_mixer (r * k) k beta) (seq 0 m).
(** MX 296-303. [pred i] computes the predicate of i on qubit n by Not and MCX gates. The uncomputation at the end of the function, which places the inverse gates before the controls
    are changed, is modelled as their execution in reverse order after the use; the gates are their own inverses. The qubits of the predicates are those with numbers from n on. *)
Definition mixer_step (pred : nat -> list mgate) (n : nat) (beta : R) (i : nat) : list mgate := pred i ++ [CRX n beta i] ++ rev (pred i).
Definition controlled_RX_mixer (pred : nat -> list mgate) (n : nat) (beta : R) : list mgate := flat_map (mixer_step pred n beta) (seq 0 n).
(** IS 43-53. [adj i]: the neighbours of i *)
Definition indep_predicate (adj : nat -> list nat) (n i : nat) : list mgate :=
  if (length (adj i) =? 0)%nat then [Std (Not n)] else mcx (map (fun j => (j, false)) (adj i)) n.
Definition max_indep_set_mixer (adj : nat -> list nat) (n : nat) (beta : R) : list mgate := controlled_RX_mixer (indep_predicate adj n) n beta.
(** SC 41: elements are numbers *)
Definition membership (sets : list (list nat)) (e : nat) : list nat := filter (fun i => existsb (Nat.eqb e) (nth i sets [])) (seq 0 (length sets)).
(** SC 43-55 *)
Definition cover_predicate (sets : list (list nat)) (i : nat) : list mgate :=
  let n := length sets in
  let s := nth i sets [] in
  let anc k := (S n + k)%nat in
  map (fun k => Std (Not (anc k))) (seq 0 (length s))
  ++ flat_map (fun '(k, e) => mcx (map (fun j => (j, false)) (filter (fun j => negb (j =? i)%nat) (membership sets e))) (anc k)) (combine (seq 0 (length s)) s)
  ++ mcx (map (fun k => (anc k, true)) (seq 0 (length s))) n.
Definition min_set_cover_mixer (sets : list (list nat)) (beta : R) : list mgate := controlled_RX_mixer (cover_predicate sets) (length sets) beta.
(** MX 350-381: dicke_state(qv, len(qv)) inverted, phases, dicke_state *)
Definition shift_gate (off : nat) (g : gate) : gate :=
  match g with
  | U u q => U u (off + q) | Not q => Not (off + q) | CNot c t => CNot (off + c) (off + t)
  | CRy cs a q => CRy (map (Nat.add off) cs) a (off + q) | Mux index f q => Mux (map (Nat.add off) index) f (off + q)
  end.
Definition inv_gate (g : gate) : gate :=
  match g with U u q => U (inv u) q | CRy cs a q => CRy cs (- a) q | Mux index f q => Mux index (fun i => inv (f i)) q | g => g end.
Definition portfolio_register (off half : nat) (beta : R) : list mgate :=
  let dicke := map (shift_gate off) (dicke_state half half) in
  map Std (rev (map inv_gate dicke))
  ++ map (fun i => MCP beta (map (fun j => ((off + j)%nat, (half - i - 1 <=? j)%nat)) (seq 0 half))) (seq 0 half)
  ++ map Std dicke.
Definition portfolio_mixer (half : nat) (beta : R) : list mgate := portfolio_register 0 half beta ++ portfolio_register half half beta.
(** CO 179-180, 206-208 with one-hot encoding: k colours, register v on the qubits v k, ..., v k + k - 1 *)
Definition coloring_operator (edges : list (nat * nat)) (k : nat) (gamma : R) : list mgate :=
  flat_map (fun '(v, w) => map (fun i => MCP (2 * gamma) [((v * k + i)%nat, true); ((w * k + i)%nat, true)]) (seq 0 k)) edges.

(** * QAOA *)
(** QP 267-270, 480-483, 624-627: layers of cost operator and mixer; [angles]: one (gamma, beta) for each layer *)
Definition layers (cost mixer : R -> list mgate) (angles : list (R * R)) : list mgate := flat_map (fun '(gamma, beta) => cost gamma ++ mixer beta) angles.
(** QP 265, 478, 622: the start without an init_function: h on all qubits (/repo/src/qrisp/circuit/standard_operations.py:190-200) *)
Definition default_start (n : nat) : list mgate := map (fun q => Std (U (mk_u (PI / 2) 0 PI 0) q)) (seq 0 n).
(** IS 105-127; the initial state is |0...0> *)
Definition max_indep_set (n : nat) (adj : nat -> list nat) (angles : list (R * R)) : list mgate := layers (RZ_mixer n) (max_indep_set_mixer adj n) angles.
(** CL 79-86. [edge]: the edges of the graph. The order of the neighbours is not modelled. *)
Definition complement (n : nat) (edge : nat -> nat -> bool) (i : nat) : list nat := filter (fun j => negb (j =? i)%nat && negb (edge i j)) (seq 0 n).
Definition max_clique (n : nat) (edge : nat -> nat -> bool) (angles : list (R * R)) : list mgate := max_indep_set n (complement n edge) angles.
(** SP 46-59 *)
Definition intersects (s t : list nat) : bool := existsb (fun e => existsb (Nat.eqb e) t) s.
Definition packing_graph (sets : list (list nat)) (i : nat) : list nat :=
  filter (fun j => ((i <? j) && intersects (nth i sets []) (nth j sets []) || (j <? i) && intersects (nth j sets []) (nth i sets []))%nat) (seq 0 (length sets)).
Definition max_set_packing (sets : list (list nat)) (angles : list (R * R)) : list mgate := max_indep_set (length sets) (packing_graph sets) angles.
(** SC 94-130: the initial state is |1...1> *)
Definition min_set_cover (sets : list (list nat)) (angles : list (R * R)) : list mgate :=
  map (fun q => Std (Not q)) (seq 0 (length sets)) ++ layers (RZ_mixer (length sets)) (min_set_cover_mixer sets) angles.
(** CO 260-277 for m nodes and k colours, after the initial state is prepared *)
Definition graph_coloring (m k : nat) (edges : list (nat * nat)) (angles : list (R * R)) : list mgate := layers (coloring_operator edges k) (apply_XY_mixer m k) angles.

(** * The classical cost of set covers *)
(** SC 79-89. A measurement result is a list of outcomes with probabilities *)
Definition chosen (s : list bool) : list nat := filter (fun i => nth i s false) (seq 0 (length s)).
Definition is_cover (sets : list (list nat)) (universe : list nat) (s : list bool) : bool :=
  negb (length (chosen s) =? 0)%nat && forallb (fun e => existsb (fun i => existsb (Nat.eqb e) (nth i sets [])) (chosen s)) universe.
Definition cover_cost (sets : list (list nat)) (universe : list nat) (res : list (list bool * R)) : R :=
  fold_left (fun cost '(s, prob) => if is_cover sets universe s then cost + INR (length (chosen s)) * prob else cost + INR (length sets)) res 0.
