(** Model of permute_axes (/repo/src/qrisp/simulator/bi_array_helper.py:204-288, below [bh.py]): the bits of
    the flat indices of a tensor are moved so that the axes of the tensor appear in the requested order.
    Positions are natural numbers, flat indices integers. *)
From Coq Require Import ZArith List Lia.
Import ListNotations.
Local Open Scope nat_scope.

(** list.index; the length of the list stands for ValueError, which a permutation cannot cause *)
Fixpoint index_of (l : list nat) (x : nat) : nat :=
  match l with [] => 0 | a :: l => if a =? x then 0 else S (index_of l x) end.

(** bh.py:222-223 invert_perm, and bh.py:236 *)
Definition invert_perm (perm : list nat) : list nat := map (index_of perm) (seq 0 (length perm)).

(** bh.py:229-230: complemented and reversed; axis 0 is the most significant bit *)
Definition bit_order (p : list nat) : list nat := rev (map (fun x => length p - 1 - x) p).

(** list.pop(i) *)
Definition pop (i : nat) (l : list nat) : list nat := firstn i l ++ skipn (S i) l.
(** perm_shape[i] += 1 *)
Definition incr_at (i : nat) (l : list nat) : list nat := firstn i l ++ S (nth i l 0) :: skipn (S i) l.

(** bh.py:242-257: adjacent blocks that stay adjacent are merged. The fuel is the length of perm plus one. *)
Fixpoint merge (fuel i : nat) (perm shape : list nat) : option (list nat * list nat) :=
  match fuel with
  | 0 => None
  | S fuel =>
      if i <? length perm then
        if nth i perm 0 =? S (nth (i - 1) perm 0) then
          let perm := pop i perm in
          let shape := incr_at (i - 1) (pop i shape) in
          let pivot := nth (i - 1) perm 0 in
          merge fuel i (map (fun q => if pivot <? q then q - 1 else q) perm) shape
        else merge fuel (S i) perm shape
      else Some (perm, shape)
  end.

(** bh.py:266, 269: [sum(l[:i]) for i in range(len(l) + 1)] *)
Definition prefix_sums (l : list nat) : list nat :=
  map (fun i => fold_left Nat.add (firstn i l) 0) (seq 0 (S (length l))).

(** machine integers of [w] bits, or Python integers *)
Definition norm (w : option nat) (z : Z) : Z :=
  match w with
  | None => z
  | Some w => ((z + 2 ^ (Z.of_nat w - 1)) mod 2 ^ Z.of_nat w - 2 ^ (Z.of_nat w - 1))%Z
  end.

(** bh.py:198-201, 210-219: the mask, the shift to the right, the shift to the left, each in machine arithmetic *)
Definition move (w : option nat) (idx : Z) (from to_ width : nat) : Z :=
  let mask := norm w (norm w (norm w (Z.shiftl 1 (Z.of_nat width)) - 1) * 2 ^ Z.of_nat from) in
  norm w (Z.shiftl (norm w (Z.shiftr (norm w (Z.land idx mask)) (Z.of_nat from))) (Z.of_nat to_)).

(** bh.py:194-201, 205-219: one flat index; the loops over blocks and over flat indices commute, since every
    new_index[j] has its own accumulator (the compiled and the interpreted version are this function) *)
Definition permuter (w : option nat) (idx : Z) (bp pbp perm : list nat) : Z :=
  fold_left (fun acc i => norm w (Z.lor acc (move w idx (nth i bp 0) (nth (nth i perm 0) pbp 0) (nth (S i) bp 0 - nth i bp 0))))
    (seq 0 (length perm)) 0%Z.

(** bh.py:226-288 *)
Definition permute_axes (w : option nat) (index : list Z) (p : list nat) : option (list Z) :=
  let perm := invert_perm (bit_order p) in
  match merge (S (length perm)) 1 perm (repeat 1 (length p)) with
  | None => None
  | Some (perm, shape) =>
      let permuted := map (fun i => nth i shape 0) (invert_perm perm) in
      Some (map (fun idx => permuter w idx (prefix_sums shape) (prefix_sums permuted) perm) index)
  end.
