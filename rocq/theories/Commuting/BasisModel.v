(** Model of construct_change_of_basis, /repo/src/qrisp/operators/qubit/commutativity_tools.py (CT below), lines 158-280.
    S has 2n rows (Z component first) and t columns. *)
From Verif.Commuting Require Export Gf2Model.

Definition mem (i : nat) (l : list nat) : bool := existsb (Nat.eqb i) l.
(** perm[i] = v on a list *)
Fixpoint set_nth (l : list nat) (i v : nat) : list nat := match l, i with [], _ => [] | _ :: l, O => v :: l | x :: l, S i => x :: set_nth l i v end.
(** CT 212-215 *)
Definition perm_step (perm : list nat) (ii : nat * nat) : list nat :=
  let '(i1, i2) := ii in let curr := nth i1 perm 0 in set_nth (set_nth perm i1 i2) i2 curr.
(** (A @ B) % 2 with inner dimension k *)
Definition matmul (k : nat) (A B : mat) : mat := fun i j => fold_left (fun s u => xorb s (A i u && B u j)) (seq 0 k) false.
Record basis := { adj : mat; r_inv : mat; h_list : list nat; s_list : list nat; perm : list nat }.

(** CT 237-244: the blocks C, D, F are rows of S2 (lines 233-235); entries by row block, then column block *)
Definition extended (n k : nat) (S2 : mat) : mat := fun i j =>
  if i <? k then (if j <? k then S2 i j else S2 j i)
  else if i <? n then (if j <? k then S2 i j else false)
  else if i <? n + k then (if j <? k then eye (i - n) j else false)
  else (if j <? k then S2 i j else eye (i - (n + k)) (j - k)).
(** CT 266-271 *)
Definition q2 (n : nat) (S4 : mat) : mat := fun i j =>
  if i <? n then (if j <? n then eye i j else S4 i (j - n) && eye i (j - n)) else (if j <? n then false else eye (i - n) (j - n)).

(** CT 210-280, from the matrix S1 with independent X rows rows1 *)
Definition graph_basis (n k : nat) (S_reduced S1 : mat) (hl rows1 : list nat) : basis :=
  let pm := fold_left perm_step (enumerate rows1) (seq 0 n) in                                                 (* 211-215 *)
  let S1' : mat := fun i j => if i <? n then S1 (nth i pm 0) j else S1 (n + nth (i - n) pm 0) j in             (* 218 *)
  let R1_inv : mat := fun i j => S1' (n + i) j in                                                              (* 224 *)
  let S2 := matmul k S1' (inverse_mod2 k R1_inv) in                                                            (* 225-226 *)
  let S3 := if k <? n then extended n k S2 else S2 in                                                          (* 232-249 *)
  let R2_inv : mat := if k <? n then (fun i j => if i <? k then eye i j else false) else eye in
  let R3_inv : mat := fun i j => S3 (n + i) j in                                                               (* 255 *)
  let S4 := matmul n S3 (inverse_mod2 n R3_inv) in                                                             (* 256-258 *)
  let sl := filter (fun i => S4 i i) (seq 0 n) in                                                              (* 261-264 *)
  let S4' := matmul (2 * n) (q2 n S4) S4 in                                                                    (* 266-273 *)
  {| adj := S4'; r_inv := matmul k (matmul k (matmul n R3_inv R2_inv) R1_inv) S_reduced; h_list := hl; s_list := sl; perm := pm |}.
(** CT 158-208 *)
Definition construct_change_of_basis (n t : nat) (S : mat) : basis :=
  let '(S_reduced, independent_cols) := gaussian_elimination_mod2 (2 * n) t ByRow true S in                    (* 186 *)
  let k := length independent_cols in
  let S0 : mat := fun i j => S i (nth j independent_cols 0) in                                                 (* 189 *)
  let '(_, rows0) := gaussian_elimination_mod2 n k ByColumn false (fun i j => S0 (n + i) j) in                 (* 197 *)
  let hl := if length rows0 <? k then filter (fun i => negb (mem i rows0)) (seq 0 n) else [] in                (* 200-203 *)
  let S1 := fold_left (fun m i => swap_rows i (n + i) m) hl S0 in                                              (* 204-205 *)
  let '(_, rows1) := gaussian_elimination_mod2 n k ByColumn false (fun i j => S1 (n + i) j) in                 (* 208 *)
  graph_basis n k S_reduced S1 hl rows1.
