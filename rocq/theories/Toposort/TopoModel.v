(** Model of the topological sorts used by the compiler:
    src/qrisp/permeability/qc_transformations/qc_parallelization.py (qcp.py below) and
    src/qrisp/permeability/qc_transformations/memory_management.py (mm.py below).
    A graph is given by its successor lists: [succ] has one list per node, which is
    indices[indptr[i]:indptr[i+1]] of the CSR matrix. *)
From Coq Require Import ZArith List Bool.
Import ListNotations.

Definition graph := list (list nat).
Definition succ (G : graph) (u : nat) : list nat := nth u G [].

Fixpoint upd {A} (l : list A) (i : nat) (f : A -> A) : list A :=
  match l, i with
  | [], _ => []
  | x :: t, O => f x :: t
  | x :: t, S i => x :: upd t i f
  end.

(** qcp.py:157-165, mm.py:249-252, 277-281: in-degrees *)
Definition in_degrees (G : graph) : list Z :=
  fold_left (fun d i => fold_left (fun d j => upd d j (fun x => (x + 1)%Z)) (succ G i) d) (seq 0 (length G)) (repeat 0%Z (length G)).
(** qcp.py:169-173, mm.py:254, 283-286 *)
Definition roots (d : list Z) : list nat := filter (fun i => (nth i d 0 =? 0)%Z) (seq 0 (length d)).
(** qcp.py:233-236, mm.py:264-266, 306-308: one successor *)
Definition relax (st : list Z * list nat) (j : nat) : list Z * list nat :=
  let '(d, q) := st in
  let d := upd d j (fun x => (x - 1)%Z) in
  (d, if (nth j d 0 =? 0)%Z then q ++ [j] else q).
(** Python's [queue.pop(i)] *)
Fixpoint pop_at (q : list nat) (i : nat) : option (nat * list nat) :=
  match q, i with
  | [], _ => None
  | x :: t, O => Some (x, t)
  | x :: t, S i => match pop_at t i with Some (y, t') => Some (y, x :: t') | None => None end
  end.

(** The loop shared by the three sorts: [pick] selects the position in the queue, [visit] updates the
    data kept besides the in-degrees (depths, ancestor rows).  [None]: out of fuel, or a position
    outside the queue. *)
Section kahn.
Context {P : Type} (G : graph) (pick : P -> list nat -> nat) (visit : P -> nat -> P).
Fixpoint kahn (fuel : nat) (p : P) (d : list Z) (q out : list nat) : option (list nat * P) :=
  match q with
  | [] => Some (out, p)
  | _ =>
    match fuel with
    | O => None
    | S fuel =>
      match pop_at q (pick p q) with
      | None => None
      | Some (u, q) =>
        let '(d', q') := fold_left relax (succ G u) (d, q) in
        kahn fuel (visit p u) d' q' (out ++ [u])
      end
    end
  end.
Definition run_kahn (p : P) : option (list nat * P) :=
  let d := in_degrees G in kahn (length G) p d (roots d) [].
End kahn.

(** [np.argmin]: the first position with the least value *)
Fixpoint argmin_aux (l : list Z) (i best : nat) (m : Z) : nat :=
  match l with
  | [] => best
  | x :: t => if (x <? m)%Z then argmin_aux t (S i) i x else argmin_aux t (S i) best m
  end.
Definition argmin (l : list Z) : nat := match l with [] => 0 | x :: t => argmin_aux t 1 0 x end.

(** qcp.py:153-240 [depth_sensitive_topological_sort].  [qubits u] lists the qubits of node u (int_qc,
    see [split_integer] below), [ind] the depth indicators, and [cost l i] stands for the floating-point
    cost of lines 202-205 computed from the depths l of the qubits and the indicator i; it is a parameter,
    so that every rounding is covered.  The zero-initialised array of line 180 is filled from the
    front by the visited nodes; [None] if the loop does not visit all of them (cyclic graph), where
    Python leaves trailing zeros. *)
Section depth.
Context (G : graph) (qubits : nat -> list nat) (ind : nat -> Z) (cost : list Z -> Z -> Z).
Definition node_depths (depths : list Z) (u : nat) : list Z := map (fun j => nth j depths 0%Z) (qubits u).
Definition depth_pick (depths : list Z) (q : list nat) : nat :=
  argmin (map (fun u => cost (node_depths depths u) (ind u)) q).
(** qcp.py:221-230 *)
Definition depth_visit (depths : list Z) (u : nat) : list Z :=
  let max_depth := fold_left Z.max (node_depths depths u) 0%Z in
  fold_left (fun ds j => upd ds j (fun _ => (max_depth + ind u)%Z)) (qubits u) depths.
Definition depth_sort (num_qubits : nat) : option (list nat) :=
  match run_kahn G depth_pick depth_visit (repeat 0%Z num_qubits) with
  | Some (out, _) => if Nat.eqb (length out) (length G) then Some out else None
  | None => None
  end.
End depth.

(** mm.py:244-268 [compute_all_ancestors_dense]; row [v] of the matrix lists for every node whether it
    is an ancestor of v.  The successor loop updates the rows and the in-degrees independently, so
    the row updates are put in [visit]. *)
Definition or_row (r s : list bool) : list bool := map (fun '(a, b) => a || b) (combine r s).
Definition anc_visit (G : graph) (anc : list (list bool)) (u : nat) : list (list bool) :=
  let anc := upd anc u (fun r => upd r u (fun _ => true)) in
  fold_left (fun anc c => upd anc c (fun r => or_row r (nth u anc []))) (succ G u) anc.
Definition ancestors_dense (G : graph) : option (list (list bool)) :=
  option_map snd (run_kahn G (fun _ _ => 0%nat) (anc_visit G) (repeat (repeat false (length G)) (length G))).

(** mm.py:272-319 [compute_all_ancestors_sparse]; a row of length 1 (not yet needed, or deleted) is
    [None]. *)
Definition unit_row (n u : nat) : list bool := upd (repeat false n) u (fun _ => true).
Definition anc_visit_sparse (G : graph) (keep : nat -> bool) (anc : list (option (list bool))) (u : nat) : list (option (list bool)) :=
  let n := length G in
  let cur := nth u anc None in
  let anc := fold_left (fun anc c => upd anc c (fun r => match r with None => Some (unit_row n c) | Some r => Some r end)) (succ G u) anc in
  let anc := fold_left (fun anc c => upd anc c (fun r => match cur, r with Some a, Some b => Some (or_row a b) | _, _ => None end)) (succ G u) anc in
  if keep u then anc else upd anc u (fun _ => None).
Definition ancestors_sparse (G : graph) (preferred : list nat) : option (list (option (list bool))) :=
  let n := length G in
  let init := fold_left (fun anc i => upd anc i (fun _ => Some (unit_row n i))) (roots (in_degrees G)) (repeat None n) in
  option_map snd (run_kahn G (fun _ _ => 0%nat) (anc_visit_sparse G (fun u => existsb (Nat.eqb u) preferred)) init).

(** mm.py:202-234 and 351-383: one iteration of the loop over the preferred nodes; the state holds the
    dependency matrix (rows: preferred nodes, columns: delay nodes), the remaining nodes and the result *)
Section order.
Context (n : nat) (anc : nat -> nat -> bool) (preferred : list nat).
Definition pref_step (st : list (list Z) * list bool * list nat) (_ : nat) : list (list Z) * list bool * list nat :=
  let '(dep, remaining, res) := st in
  let required := map (fun r => fold_left Z.add r 0%Z) dep in
  let k := argmin required in
  let p := nth k preferred 0%nat in
  let block := filter (fun a => anc p a && nth a remaining false) (seq 0 n) in
  let row := nth k dep [] in
  let dep := map (fun r => map (fun '(x, y) => Z.min 1 (Z.max 0 (x - y)))%Z (combine r row)) dep in
  (upd dep k (fun r => map (fun _ => 1%Z) r), fold_left (fun rem a => upd rem a (fun _ => false)) block remaining, res ++ block).
(** mm.py:179-240 / 328-389 *)
Definition order (delay : list nat) : list nat :=
  let dep := map (fun p => map (fun a => if anc p a then 1%Z else 0%Z) delay) preferred in
  let '(_, remaining, res) :=
    if Nat.eqb (length delay) 0 then (dep, repeat true n, [])
    else fold_left pref_step (seq 0 (length preferred)) (dep, repeat true n, []) in
  res ++ filter (fun a => nth a remaining false) (seq 0 n).
End order.
(** mm.py:174-240 [toposort_helper_dense], mm.py:323-389 [toposort_helper_sparse] *)
Definition toposort_dense (G : graph) (delay preferred : list nat) : option (list nat) :=
  option_map (fun m => order (length G) (fun p a => nth a (nth p m []) false) preferred delay) (ancestors_dense G).
(** a read of a deleted row is out of range in the code: [None] *)
Definition toposort_sparse (G : graph) (delay preferred : list nat) : option (list nat) :=
  match ancestors_sparse G preferred with
  | None => None
  | Some m =>
    if forallb (fun p => match nth p m None with Some _ => true | None => false end) preferred
    then Some (order (length G) (fun p a => nth a (match nth p m None with Some r => r | None => [] end) false) preferred delay)
    else None
  end.
(** mm.py:102-159 [topological_sort]; the classification of the nodes by [prefer] and [delay] is given
    by the two predicates (a node with no instruction satisfies neither); [dense] is the memory test of
    mm.py:167 *)
Definition topological_sort (dense : bool) (G : graph) (prefer delay : nat -> bool) : option (list nat) :=
  let nodes := seq 0 (length G) in
  let preferred := filter prefer nodes in
  let delayed := filter (fun i => negb (prefer i) && delay i) nodes in
  if Nat.eqb (length preferred) 0 then Some nodes
  else if dense then toposort_dense G delayed preferred else toposort_sparse G delayed preferred.

(** mm.py:57-82: moving the allocations to the first use of their qubit.  The dictionary keeps
    insertion order; replacing the value of a key keeps its position.  [order_qb]: the order of line 72
    (by hash), an arbitrary permutation. *)
Section delay_alloc.
Context {I : Type} (is_alloc : I -> bool) (qubits : I -> list nat) (order_qb : list nat -> list nat).
Fixpoint dict_set (dic : list (nat * I)) (k : nat) (v : I) : list (nat * I) :=
  match dic with
  | [] => [(k, v)]
  | (k', v') :: t => if Nat.eqb k k' then (k, v) :: t else (k', v') :: dict_set t k v
  end.
Definition dict_get (dic : list (nat * I)) (k : nat) : list I := map snd (filter (fun '(k', _) => Nat.eqb k k') dic).
Definition alloc_step (st : list I * list (nat * I)) (instr : I) : list I * list (nat * I) :=
  let '(data, dic) := st in
  if is_alloc instr then (data, dict_set dic (nth 0 (qubits instr) 0%nat) instr)
  else
    let qbs := order_qb (filter (fun k => existsb (Nat.eqb k) (qubits instr)) (map fst dic)) in
    (data ++ flat_map (dict_get dic) qbs ++ [instr],
     filter (fun '(k, _) => negb (existsb (Nat.eqb k) qbs)) dic).
Definition delay_allocs (data : list I) : list I :=
  let '(out, dic) := fold_left alloc_step data ([], []) in out ++ map snd dic.
End delay_alloc.

(** qcp.py:51-67 [split_integer] and 77-88 [reverse_split]; words are 64-bit masks.  [None]: IndexError
    (a qubit index beyond the words) or ValueError (k = 0). *)
Fixpoint insert_nat (x : nat) (l : list nat) : list nat :=
  match l with [] => [x] | y :: t => if Nat.leb x y then x :: l else y :: insert_nat x t end.
Definition sort_nat (l : list nat) : list nat := fold_right insert_nat [] l.
Definition split_step (k : nat) (st : option (list Z * nat)) (d : nat) : option (list Z * nat) :=
  match st with
  | None => None
  | Some (result, i) =>
    let i := Nat.max i (d / 64) in  (* the loop of lines 61-62 raises i to d // 64 *)
    if Nat.ltb i k then Some (upd result i (fun w => Z.lor w (Z.shiftl 1 (Z.of_nat (d mod 64)))), i) else None
  end.
Definition split_integer (digits : list nat) (k : nat) : option (list Z) :=
  if Nat.eqb k 0 then None
  else option_map fst (fold_left (split_step k) (sort_nat digits) (Some (repeat 0%Z k, 0%nat))).
(** the words are popped from the front; [None]: IndexError (pop from an empty list) *)
Fixpoint reverse_loop (i fuel : nat) (words : list Z) (current : Z) : option (list nat) :=
  match fuel with
  | O => Some []
  | S fuel =>
    match (if Nat.eqb (i mod 64) 0 then match words with [] => None | w :: t => Some (w, t) end else Some (current, words)) with
    | None => None
    | Some (current, words) =>
      option_map (fun r => if Z.testbit current (Z.of_nat (i mod 64)) then i :: r else r) (reverse_loop (S i) fuel words current)
    end
  end.
Definition reverse_split (words : list Z) (num_qubits : nat) : option (list nat) := reverse_loop 0 num_qubits words 0%Z.
