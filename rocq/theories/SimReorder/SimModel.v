(** Model of reorder_circuit (/repo/src/qrisp/simulator/circuit_reordering.py, below [cr.py]). Qubits and
    classical bits are numbers; the result is the list of positions of the instructions in the input. *)
From Coq Require Import List Arith Bool.
Import ListNotations.
Local Open Scope nat_scope.

(** an instruction: qubits, classical bits, and whether its name is in preferential_gates *)
Record sinstr := SI { sq : list nat; sc : list nat; pref : bool }.
(** a node of the causal graph: instruction, and whether it is one of the appended final_op's *)
Definition node : Type := sinstr * bool.

(** cr.py:134-135: one final_op per qubit. (An instruction named "final_op" in the input is outside the model.) *)
Definition with_final (circ : list sinstr) (qubits : list nat) : list node :=
  map (fun a => (a, false)) circ ++ map (fun q => (SI [q] [] false, true)) qubits.

(** the dictionaries current_node_qubits and current_node_clbits *)
Definition dict := list (nat * nat).
Fixpoint dict_get (d : dict) (k : nat) : option nat :=
  match d with [] => None | (k', v) :: d => if k =? k' then Some v else dict_get d k end.
Definition dict_set (d : dict) (k v : nat) : dict := (k, v) :: d.

(** cr.py:87-96, 98-106: one qubit or classical bit of the new node *)
Definition touch (new : nat) (st : dict * list nat) (k : nat) : dict * list nat :=
  let '(d, nodes) := st in
  (dict_set d k new, match dict_get d k with Some v => nodes ++ [v] | None => nodes end).

(** cr.py:79-117: edges from every node to the previous node on each of its bits (inverted=True) *)
Definition add_node (st : dict * dict * list (list nat)) (nd : node) : dict * dict * list (list nat) :=
  let '(dq, dc, G) := st in
  let '(dq, nodes) := fold_left (touch (length G)) (sq (fst nd)) (dq, []) in
  let '(dc, nodes) := fold_left (touch (length G)) (sc (fst nd)) (dc, nodes) in
  (dq, dc, G ++ [nodup Nat.eq_dec nodes]).
Definition causal_graph (data : list node) : list (list nat) := snd (fold_left add_node data ([], [], [])).

Definition mem (x : nat) (l : list nat) : bool := existsb (Nat.eqb x) l.

(** networkx.descendants in the graph of the remaining nodes: closure under successors *)
Fixpoint grow (fuel : nat) (G : list (list nat)) (alive s : list nat) : list nat :=
  match fuel with
  | 0 => s
  | S fuel => grow fuel G alive (nodup Nat.eq_dec (s ++ flat_map (fun v => filter (fun w => mem w alive) (nth v G [])) s))
  end.
Definition descendants (G : list (list nat)) (alive : list nat) (x : nat) : list nat :=
  grow (length G) G alive (nodup Nat.eq_dec (filter (fun w => mem w alive) (nth x G []))).

(** cr.py:120-121, 150-155: the nodes to evaluate with their costs (None: infinity) *)
Definition node_costs (G : list (list nat)) (data : list node) : list (nat * option nat) :=
  flat_map (fun i => match nth_error data i with
                     | Some (a, true) => [(i, None)]
                     | Some (a, false) => if pref a then [(i, Some (length (descendants G (seq 0 (length G)) i)))] else []
                     | None => []
                     end) (seq 0 (length data)).

(** cr.py:157: list.sort is stable *)
Definition cost_lt (a b : option nat) : bool :=
  match a, b with Some x, Some y => x <? y | Some _, None => true | None, _ => false end.
Fixpoint insert (x : nat * option nat) (l : list (nat * option nat)) : list (nat * option nat) :=
  match l with [] => [x] | y :: l => if cost_lt (snd x) (snd y) then x :: y :: l else y :: insert x l end.
Definition sort (l : list (nat * option nat)) : list (nat * option nat) := fold_left (fun acc x => insert x acc) l [].

(** cr.py:179-189, 220-244: the descendants by decreasing position in the topological order [topo], then the
    node itself; all are removed from the graph. None: the node was removed before (NetworkXError). *)
Fixpoint evaluate (G : list (list nat)) (topo alive es : list nat) : option (list nat) :=
  match es with
  | [] => Some []
  | e :: es =>
      if mem e alive then
        let ds := descendants G alive e in
        let l := filter (fun x => mem x ds) (rev topo) ++ [e] in
        match evaluate G topo (filter (fun x => negb (mem x l)) alive) es with
        | Some out => Some (l ++ out)
        | None => None
        end
      else None
  end.

(** cr.py:131-257, 392-398. [topo]: networkx.topological_sort, any topological order *)
Definition reorder_circuit (circ : list sinstr) (qubits topo : list nat) : option (list nat) :=
  let data := with_final circ qubits in
  let G := causal_graph data in
  match evaluate G topo (seq 0 (length G)) (map fst (sort (node_costs G data))) with
  | Some out => Some (filter (fun x => x <? length circ) out)
  | None => None
  end.
