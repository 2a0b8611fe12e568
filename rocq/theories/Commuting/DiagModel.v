(** Model of QubitOperator.change_of_basis with method="commuting", /repo/src/qrisp/operators/qubit/qubit_operator.py (QO
    below), lines 1041-1324, and of QubitTerm.binary_representation, qubit_term.py (QT below), lines 120-133.
    Simplifications: the terms consist of Pauli letters only, so the loop over ladder operators and projectors (QO 1269-1319)
    changes nothing; sums that the code reduces modulo 2 are computed modulo 2. *)
From Verif.Operators Require Export PauliModel.
From Verif.Commuting Require Export BasisModel.
Local Open Scope nat_scope.

(** gates applied to the quantum argument *)
Inductive gate := GH (q : nat) | GS (q : nat) | GCZ (a b : nat).

(** QT 120-133 *)
Definition xbit (f : factor) : bool := match f with FX | FY => true | _ => false end.
Definition zbit (f : factor) : bool := match f with FZ | FY => true | _ => false end.
(** QO 1180-1185 *)
Definition x_matrix (ts : list term) : mat := fun q c => xbit (get (nth c ts []) q).
Definition z_matrix (ts : list term) : mat := fun q c => zbit (get (nth c ts []) q).
(** QO 1188-1191 *)
Definition qb_indices (n : nat) (ts : list term) : list nat :=
  filter (fun k => negb (forallb (fun c => negb (x_matrix ts k c)) (seq 0 (length ts)) && forallb (fun c => negb (z_matrix ts k c)) (seq 0 (length ts)))) (seq 0 n).
(** QO 1198 *)
Definition stacked (qb : list nat) (ts : list term) : mat :=
  fun i c => if i <? length qb then z_matrix ts (nth i qb 0) c else x_matrix ts (nth (i - length qb) qb 0) c.
(** QO 1203-1216 *)
Definition gates (qb : list nat) (B : basis) : list gate :=
  let m := length qb in let at_ i := nth (nth i (perm B) 0) qb 0 in
  map (fun i => GH (nth i qb 0)) (h_list B) ++ map (fun i => GS (at_ i)) (s_list B) ++
  flat_map (fun i => flat_map (fun j => if adj B i j then [GCZ (at_ i) (at_ j)] else []) (seq 0 i)) (seq 0 m) ++
  map GH qb.

Definition parity (m : nat) (f : nat -> bool) : bool := fold_left (fun s i => xorb s (f i)) (seq 0 m) false.
Definition minus1 (b : bool) : G := if b then gneg g1 else g1.
Fixpoint ipow (k : nat) : G := match k with O => g1 | S k => gmul gi (ipow k) end.
(** QO 1233-1238, column c *)
Definition sign_vector (qb : list nat) (ts : list term) (B : basis) (c : nat) : bool :=
  parity (length qb) (fun q => xorb (mem (nth q (perm B) 0) (s_list B)) (mem q (h_list B)) && (x_matrix ts (nth q qb 0) c && z_matrix ts (nth q qb 0) c)).
(** QO 1241, 1251 *)
Definition n1 (m : nat) (A : mat) (z : nat -> bool) : bool := parity m (fun j => parity m (fun i => z i && ((j <=? i) && A i j)) && z j).
(** QO 1258 *)
Definition n2 (m : nat) (A : mat) (z : nat -> bool) : nat := length (filter (fun j => parity m (fun i => z i && A i j) && z j) (seq 0 m)).
(** QO 1263; (-1) ** (n1 + n2 / 2) is (-1)^n1 * i^n2 *)
Definition prefactor (qb : list nat) (ts : list term) (B : basis) (c : nat) : G :=
  let z i := r_inv B i c in let m := length qb in
  gmul (minus1 (sign_vector qb ts B c)) (gmul (minus1 (n1 m (adj B) z)) (ipow (n2 m (adj B) z))).
(** QO 1260 *)
Definition new_factors (qb : list nat) (B : basis) (c : nat) : term :=
  flat_map (fun i => if r_inv B i c then [(nth (nth i (perm B) 0) qb 0, FZ)] else []) (seq 0 (length qb)).
(** QO 1322: new_terms_dict[new_term] = value *)
Fixpoint dict_set (d : op) (t : term) (v : G) : op :=
  match d with [] => [(t, v)] | (t', v') :: d => if teqb t t' then (t', v) :: d else (t', v') :: dict_set d t v end.

(** the gates applied and the terms and prefactors, in the order of the terms; QO 1176-1264 *)
Definition diagonalise (n : nat) (ts : list term) : list gate * list (term * G) :=
  let qb := qb_indices n ts in
  match length qb with
  | O => ([], map (fun _ => ([], g1)) ts)                                                              (* 1194-1196 *)
  | _ => let B := construct_change_of_basis (length qb) (length ts) (stacked qb ts) in                 (* 1198-1201 *)
         (gates qb B, map (fun c => (new_factors qb B c, prefactor qb ts B c)) (seq 0 (length ts)))
  end.
(** QO 1041-1324 *)
Definition change_of_basis (n : nat) (o : op) : list gate * op :=
  let '(gs, l) := diagonalise n (map fst o) in
  (gs, fold_left (fun d x => let '((t', p), (_, c)) := x in dict_set d t' (gmul p c)) (combine l o) []).
