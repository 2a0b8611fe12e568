(** Model of the linear algebra over GF(2) in /repo/src/qrisp/operators/qubit/commutativity_tools.py (CT below).

    A binary numpy matrix is a function from row and column index to bool (0/1); its shape is passed separately where the
    code reads matrix.shape.  Entries outside the shape carry no meaning.  Simplification: the entries are 0 or 1, which is
    what all callers pass, so that (a + b) % 2 is exclusive or and "== 1" is the bit itself. *)
From Coq Require Export List Bool Arith Lia.
Export ListNotations.

Definition mat := nat -> nat -> bool.
(** np.eye *)
Definition eye : mat := fun i j => i =? j.
(** lo + np.argmax(f[lo:hi]): the first position holding the maximum *)
Definition argmax (f : nat -> bool) (lo hi : nat) : nat := match find f (seq lo (hi - lo)) with Some i => i | None => lo end.
(** matrix[[a, b]] = matrix[[b, a]] *)
Definition swap_rows (a b : nat) (m : mat) : mat := fun i => m (if i =? a then b else if i =? b then a else i).
(** matrix[j] = (matrix[j] + matrix[p]) % 2 *)
Definition add_row (j p : nat) (m : mat) : mat := fun i c => if i =? j then xorb (m j c) (m p c) else m i c.
(** matrix[:, [a, b]] = matrix[:, [b, a]] *)
Definition swap_cols (a b : nat) (m : mat) : mat := fun i c => m i (if c =? a then b else if c =? b then a else c).
(** matrix[:, j] = (matrix[:, j] + matrix[:, p]) % 2 *)
Definition add_col (j p : nat) (m : mat) : mat := fun i c => if c =? j then xorb (m i j) (m i p) else m i c.
(** range(a, b) *)
Definition range (a b : nat) : list nat := seq a (b - a).

(** CT 49-51 and 56-58: add row i to row j of both matrices if matrix[j, i] is 1 *)
Definition inv_elim (i : nat) (s : mat * mat) (j : nat) : mat * mat :=
  if fst s j i then (add_row j i (fst s), add_row j i (snd s)) else s.
(** CT 39-51: one round of the forward elimination *)
Definition inv_forward (n : nat) (s : mat * mat) (i : nat) : mat * mat :=
  let p := argmax (fun r => fst s r i) i n in
  fold_left (inv_elim i) (range (i + 1) n) (swap_rows i p (fst s), swap_rows i p (snd s)).
(** CT 54-58: range(i - 1, -1, -1) *)
Definition inv_backward (s : mat * mat) (i : nat) : mat * mat := fold_left (inv_elim i) (rev (seq 0 i)) s.
(** CT 21-60: inverse_mod2 for an n x n matrix (lines 32-34 raise for other shapes) *)
Definition inverse_mod2 (n : nat) (m : mat) : mat :=
  snd (fold_left inv_backward (rev (seq 0 n)) (fold_left (inv_forward n) (seq 0 n) (m, eye))).

(** CT 109-111 *)
Definition elim_row (col p : nat) (m : mat) (j : nat) : mat := if m j col then add_row j p m else m.
(** CT 95-114, type "row": state is (matrix, row_index, pivots).  Every iteration of the while loop increases column_index
    by one, so the loop runs through the columns and does nothing once row_index reaches the number of rows. *)
Definition gauss_row_step (rows : nat) (s : mat * nat * list nat) (col : nat) : mat * nat * list nat :=
  let '(m, r, piv) := s in
  if r <? rows then
    let p := argmax (fun i => m i col) r rows in
    if m p col then (fold_left (elim_row col r) (range (r + 1) rows) (swap_rows r p m), r + 1, piv ++ [col]) else s
  else s.
(** CT 118-121 *)
Definition reduce_row (m : mat) (rc : nat * nat) : mat := let '(row, col) := rc in fold_left (elim_row col row) (seq 0 row) m.
Definition enumerate (l : list nat) : list (nat * nat) := combine (seq 0 (length l)) l.
Definition gauss_row (rows cols : nat) (reduced : bool) (m : mat) : mat * list nat :=
  let '(m, _, piv) := fold_left (gauss_row_step rows) (seq 0 cols) (m, 0, []) in
  (if reduced then fold_left reduce_row (enumerate piv) m else m, piv).

(** CT 138-140 *)
Definition elim_col (row p : nat) (m : mat) (j : nat) : mat := if m row j then add_col j p m else m.
(** CT 124-143, type "column": state is (matrix, column_index, pivots) *)
Definition gauss_col_step (cols : nat) (s : mat * nat * list nat) (row : nat) : mat * nat * list nat :=
  let '(m, c, piv) := s in
  if c <? cols then
    let p := argmax (fun j => m row j) c cols in
    if m row p then (fold_left (elim_col row c) (range (c + 1) cols) (swap_cols c p m), c + 1, piv ++ [row]) else s
  else s.
(** CT 147-150 *)
Definition reduce_col (m : mat) (cr : nat * nat) : mat := let '(col, row) := cr in fold_left (elim_col row col) (seq 0 col) m.
Definition gauss_col (rows cols : nat) (reduced : bool) (m : mat) : mat * list nat :=
  let '(m, _, piv) := fold_left (gauss_col_step cols) (seq 0 rows) (m, 0, []) in
  (if reduced then fold_left reduce_col (enumerate piv) m else m, piv).

(** CT 63-155: gaussian_elimination_mod2, matrix and pivots (show_pivots only selects what is returned) *)
Inductive gtype := ByRow | ByColumn.
Definition gaussian_elimination_mod2 (rows cols : nat) (t : gtype) (reduced : bool) (m : mat) : mat * list nat :=
  match t with ByRow => gauss_row rows cols reduced m | ByColumn => gauss_col rows cols reduced m end.
