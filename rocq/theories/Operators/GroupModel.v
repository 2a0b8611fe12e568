(** Model of the grouping of operator terms:
    /repo/src/qrisp/operators/hamiltonian_tools.py (HT below), rlf_coloring, dsatur_coloring,
    find_coloring, group_up_iterable; and commuting_groups of
    /repo/src/qrisp/operators/qubit/qubit_operator.py (QO below).
    Vertices are positions 0..n-1; a colouring is a map from vertices to colours, [None] being -1. *)
From Coq Require Export List Bool Arith Lia.
Export ListNotations.

Definition memb (x : nat) (l : list nat) : bool := existsb (Nat.eqb x) l.
Definition coloring := nat -> option nat.
Definition setc (c : coloring) (v k : nat) : coloring := fun u => if u =? v then Some k else c u.
(** np.argmax: first position of the maximum, as the element of [l] *)
Fixpoint argmax_from (f : nat -> nat) (best : nat) (l : list nat) : nat :=
  match l with
  | [] => best
  | v :: l => argmax_from f (if f best <? f v then v else best) l
  end.
Definition degree (n : nat) (adj : nat -> nat -> bool) (v : nat) : nat := length (filter (adj v) (seq 0 n)).

(** HT 92-118: rlf_coloring; [fuel] bounds the while loop, [None] if exhausted *)
Fixpoint rlf_loop (fuel n : nat) (adj : nat -> nat -> bool) (unc : list nat) (cur : nat) (c : coloring) : option coloring :=
  match unc with
  | [] => Some c
  | u :: rest =>
      match fuel with
      | O => None
      | S fuel =>
          let first := argmax_from (degree n adj) u rest in
          let s := fold_left (fun s v => if forallb (fun w => negb (adj v w)) s then s ++ [v] else s) unc [first] in
          let c' := fold_left (fun c v => setc c v cur) s c in
          rlf_loop fuel n adj (filter (fun v => negb (memb v s)) unc) (S cur) c'
      end
  end.
Definition rlf_coloring (n : nat) (adj : nat -> nat -> bool) : option coloring :=
  rlf_loop n n adj (seq 0 n) 0 (fun _ => None).

(** smallest colour not in [used] (HT 159-161) *)
Fixpoint least_free (fuel : nat) (used : list nat) (k : nat) : option nat :=
  if memb k used then match fuel with O => None | S fuel => least_free fuel used (S k) end else Some k.
Definition neighbour_colors (n : nat) (adj : nat -> nat -> bool) (c : coloring) (v : nat) : list nat :=
  nodup Nat.eq_dec (flat_map (fun u => if adj v u then match c u with Some k => [k] | None => [] end else []) (seq 0 n)).
(** HT 142-151: vertex of highest saturation, ties by degree *)
Fixpoint pick (sat deg : nat -> nat) (best : nat) (l : list nat) : nat :=
  match l with
  | [] => best
  | v :: l => pick sat deg (if sat best <? sat v then v else if (sat v =? sat best) && (deg best <? deg v) then v else best) l
  end.
(** HT 122-178: dsatur_coloring *)
Fixpoint dsatur_loop (fuel n : nat) (adj : nat -> nat -> bool) (unc : list nat) (sat : nat -> nat) (c : coloring) : option coloring :=
  match unc with
  | [] => Some c
  | u :: rest =>
      match fuel with
      | O => None
      | S fuel =>
          let v := pick sat (degree n adj) u rest in
          match least_free n (neighbour_colors n adj c v) 0 with
          | None => None
          | Some k =>
              let c' := setc c v k in
              let sat' := fun w => if memb w unc && adj v w then length (neighbour_colors n adj c' w) else sat w in
              dsatur_loop fuel n adj (filter (fun w => negb (w =? v)) unc) sat' c'
          end
      end
  end.
Definition dsatur_coloring (n : nat) (adj : nat -> nat -> bool) : option coloring :=
  if n =? 0 then Some (fun _ => None)
  else
    let v := argmax_from (degree n adj) 0 (seq 1 (n - 1)) in
    let c := setc (fun _ => None) v 0 in
    let sat := fun w => if adj v w then 1 else 0 in
    dsatur_loop n n adj (filter (fun w => negb (w =? v)) (seq 0 n)) sat c.
(** np.max over the colours of the first n vertices *)
Definition max_color (n : nat) (c : coloring) : nat := fold_left (fun m v => match c v with Some k => Nat.max m k | None => m end) (seq 0 n) 0.
(** HT 181-193 for a non-empty graph *)
Definition find_coloring (n : nat) (adj : nat -> nat -> bool) : option coloring :=
  match rlf_coloring n adj, dsatur_coloring n adj with
  | Some c1, Some c2 => Some (if max_color n c1 <? max_color n c2 then c1 else c2)
  | _, _ => None
  end.

(** HT 196-220: group_up_iterable.  networkx keeps nodes in insertion order: add_node(i), then
    add_edge(i, j) inserts j if it is new. *)
Definition add_node (l : list nat) (i : nat) : list nat := if memb i l then l else l ++ [i].
Section group_up.
Context {A : Type} (rel : A -> A -> bool) (items : list A) (d : A).
Definition item (i : nat) : A := nth i items d.
Definition conflict (i j : nat) : bool := negb (i =? j) && negb (rel (item i) (item j)).
Definition edge (i j : nat) : bool := conflict i j || conflict j i.
Definition node_list : list nat :=
  let n := length items in
  fold_left (fun l i => fold_left (fun l j => if conflict i j then add_node l j else l) (seq 0 n) (add_node l i)) (seq 0 n) [].
Definition node (p : nat) : nat := nth p node_list 0.
Definition group_up_iterable : option (list (list A)) :=
  let n := length items in
  match items with
  | [] => Some []
  | _ =>
      match find_coloring n (fun p q => edge (node p) (node q)) with
      | None => None
      | Some c => Some (map (fun k => map (fun p => item (node p)) (filter (fun p => match c p with Some k' => k' =? k | None => false end) (seq 0 n)))
                            (seq 0 (S (max_color n c))))
      end
  end.

(** QO 948-962: commuting_groups on the terms in their sorted order (any order); [rel] is commute.
    A new term joins the first group all of whose members it commutes with. *)
Fixpoint insert_group (t : A) (groups : list (list A)) : list (list A) :=
  match groups with
  | [] => [[t]]
  | g :: groups => if forallb (fun u => rel u t) g then (g ++ [t]) :: groups else g :: insert_group t groups
  end.
Definition commuting_groups (sorted : list A) : list (list A) := fold_left (fun gs t => insert_group t gs) sorted [].
End group_up.
