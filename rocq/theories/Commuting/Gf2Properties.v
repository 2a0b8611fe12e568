(** C31. *)
From Verif.Commuting Require Import Gf2Model Gf2Spec Gf2Proofs.

(** Row elimination: same row space, row echelon form with the returned pivot columns, reduced if asked for. *)
Theorem C31_row_elimination (rows cols : nat) (reduced : bool) (A : mat) :
  let '(E, pivots) := gaussian_elimination_mod2 rows cols ByRow reduced A in
  (forall v, in_row_space rows cols A v <-> in_row_space rows cols E v) /\ echelon rows cols E pivots /\ (reduced = true -> reduced_at rows E pivots).
Proof. cbn [gaussian_elimination_mod2]. assert (X := gauss_row_ok rows cols reduced A). destruct (gauss_row rows cols reduced A) as [E pivots]. destruct X as (Q & R). split; [intros v; apply requiv_row_space; exact Q|exact R]. Qed.
Print Assumptions C31_row_elimination.
(** Column elimination: the same for the transposed matrices. *)
Theorem C31_column_elimination (rows cols : nat) (reduced : bool) (A : mat) :
  let '(E, pivots) := gaussian_elimination_mod2 rows cols ByColumn reduced A in
  (forall v, in_row_space cols rows (flip A) v <-> in_row_space cols rows (flip E) v) /\ echelon cols rows (flip E) pivots /\ (reduced = true -> reduced_at cols (flip E) pivots).
Proof. cbn [gaussian_elimination_mod2]. assert (X := gauss_col_ok rows cols reduced A). destruct (gauss_col rows cols reduced A) as [E pivots]. destruct X as (Q & R). split; [intros v; apply requiv_row_space; exact Q|exact R]. Qed.
Print Assumptions C31_column_elimination.
(** The inverse of an invertible matrix. *)
Theorem C31_inverse (n : nat) (A : mat) : (exists B, is_inverse n A B) -> is_inverse n A (inverse_mod2 n A).
Proof. intros [B H]. exact (inverse_ok n A B H). Qed.
Print Assumptions C31_inverse.
Definition of_list (l : list (list bool)) : mat := fun i j => nth j (nth i l []) false.
Definition to_list (r c : nat) (m : mat) : list (list bool) := map (fun i => map (m i) (seq 0 c)) (seq 0 r).
Notation "'O'" := false. Notation "'I'" := true.
Definition A1 := of_list [[O;I;I;O]; [O;I;I;I]; [O;O;O;I]].
Example C31_row_ex : let '(E, p) := gaussian_elimination_mod2 3 4 ByRow true A1 in to_list 3 4 E = [[O;I;I;O]; [O;O;O;I]; [O;O;O;O]] /\ p = [1; 3].
Proof. split; reflexivity. Qed.
Example C31_column_ex : let '(E, p) := gaussian_elimination_mod2 3 4 ByColumn false A1 in to_list 3 4 E = [[I;O;O;O]; [I;I;O;O]; [O;I;O;O]] /\ p = [0; 1].
Proof. split; reflexivity. Qed.
Definition A2 := of_list [[O;I;I]; [I;I;I]; [O;O;I]].
Definition B2 := of_list [[I;I;O]; [I;O;I]; [O;O;I]].
Example C31_inverse_ex : is_inverse 3 A2 B2 /\ to_list 3 3 (inverse_mod2 3 A2) = to_list 3 3 B2.
Proof. split; [|reflexivity]. split; intros i j Hi Hj; destruct i as [|[|[|i]]]; try lia; destruct j as [|[|[|j]]]; try lia; reflexivity. Qed.
