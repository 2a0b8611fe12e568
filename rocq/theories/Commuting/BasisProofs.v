From Verif.Commuting Require Import Gf2Model Gf2Spec Gf2Proofs BasisModel BasisSpec.
From Coq Require Import Permutation.

Lemma matmul_eq k A B i j : matmul k A B i j = mmul k A B i j.
Proof.
  unfold matmul, mmul. induction k as [|k IH]; [reflexivity|]. rewrite seq_S, fold_left_app. cbn [fold_left plus xsum]. rewrite IH. reflexivity.
Qed.
Lemma and_xor a b c : a && xorb b c = xorb (a && b) (a && c). Proof. destruct a, b, c; reflexivity. Qed.
(** sum over a list of distinct positions *)
Fixpoint lxsum (l : list nat) (f : nat -> bool) : bool := match l with [] => false | x :: l => xorb (f x) (lxsum l f) end.
Lemma lxsum_nth l f : lxsum l f = xsum (length l) (fun i => f (nth i l 0)).
Proof.
  rewrite <- (rev_involutive l). induction (rev l) as [|x r IH]; [reflexivity|]. cbn [rev]. rewrite app_length. cbn [length]. rewrite Nat.add_1_r. cbn [xsum].
  assert (X : forall a b, lxsum (a ++ b) f = xorb (lxsum a f) (lxsum b f)) by (induction a as [|y a IHa]; intros b; cbn; [destruct (lxsum b f); reflexivity|rewrite IHa; destruct (f y), (lxsum a f), (lxsum b f); reflexivity]).
  rewrite X. cbn [lxsum]. rewrite xorb_false_r, IH. f_equal.
  - apply xsum_ext. intros i Hi. rewrite app_nth1 by exact Hi. reflexivity.
  - rewrite app_nth2, Nat.sub_diag by lia. reflexivity.
Qed.
Lemma xsum_support n l f : NoDup l -> (forall i, In i l -> i < n) -> (forall q, q < n -> ~ In q l -> f q = false) -> xsum n f = lxsum l f.
Proof.
  revert f. induction l as [|x l IH]; intros f N H Z; cbn [lxsum]; [apply xsum_0; intros i Hi; apply Z; auto|]. inversion N; subst.
  assert (X : xsum n f = xorb (xsum n (fun q => (x =? q) && f q)) (xsum n (fun q => negb (x =? q) && f q))).
  { rewrite <- xsum_xor. apply xsum_ext. intros q _. destruct (x =? q), (f q); reflexivity. }
  rewrite X, xsum_delta by (apply H; left; reflexivity). f_equal. rewrite (IH (fun q => negb (x =? q) && f q)); auto.
  - clear - H2. induction l as [|y l IHl]; [reflexivity|]. cbn [lxsum]. rewrite IHl by (intros C; apply H2; right; exact C). destruct (Nat.eqb_spec x y) as [->|]; [exfalso; apply H2; left; reflexivity|]. reflexivity.
  - intros i Hi. apply H. right. exact Hi.
  - intros q Hq Nq. destruct (Nat.eqb_spec x q) as [->|Nx]; [reflexivity|]. cbn. apply Z; [exact Hq|]. intros [E|C]; [congruence|contradiction].
Qed.
Lemma mem_In i l : mem i l = true <-> In i l. Proof. exact (inb_In i l). Qed.
Lemma mem_false i l : mem i l = false <-> ~ In i l. Proof. rewrite <- mem_In. destruct (mem i l); split; congruence. Qed.
Lemma mv_swap (a b : nat) (m : mat) x y : xsum a (fun i => x i && mv b m y i) = xsum b (fun j => xsum a (fun i => x i && m i j) && y j).
Proof.
  unfold mv. transitivity (xsum a (fun i => xsum b (fun j => x i && m i j && y j))).
  - apply xsum_ext. intros i _. rewrite <- xsum_and. apply xsum_ext. intros j _. apply andb_assoc.
  - rewrite xsum_swap. apply xsum_ext. intros j _. rewrite xsum_and_r. reflexivity.
Qed.

(** ** the pivots of a row reduction *)
Section rref.
Variables (r t : nat) (S Sr : mat) (ic : list nat).
Hypothesis Q : requiv r t S Sr.
Hypothesis E : echelon r t Sr ic.
Hypothesis Rd : reduced_at r Sr ic.
Let k := length ic.
Lemma unit_pivot i j : i < r -> j < k -> Sr i (nth j ic 0) = (i =? j).
Proof. intros Hi Hj. destruct (Nat.eqb_spec i j) as [->|N]; [apply E, Hj|apply Rd; auto]. Qed.
Lemma piv_lt j : j < k -> nth j ic 0 < t. Proof. apply E. Qed.
(** every column of S is the combination of the pivot columns given by Sr *)
Lemma rref_combination i c : i < r -> c < t -> S i c = xsum k (fun j => S i (nth j ic 0) && Sr j c).
Proof.
  intros Hi Hc. set (y := fun u => xorb (u =? c) (xsum k (fun j => Sr j c && (u =? nth j ic 0)))).
  assert (MV : forall m i, mv t m y i = xorb (m i c) (xsum k (fun j => m i (nth j ic 0) && Sr j c))).
  { intros m i0. unfold mv, y. transitivity (xorb (xsum t (fun u => m i0 u && (u =? c))) (xsum t (fun u => xsum k (fun j => m i0 u && (u =? nth j ic 0) && Sr j c)))).
    - rewrite <- xsum_xor. apply xsum_ext. intros u _. rewrite and_xor. f_equal. rewrite <- xsum_and. apply xsum_ext. intros j _. destruct (m i0 u), (Sr j c), (u =? nth j ic 0); reflexivity.
    - rewrite xsum_delta_r by exact Hc. f_equal. rewrite xsum_swap. apply xsum_ext. intros j Hj. rewrite xsum_and_r. rewrite (xsum_delta_r t (nth j ic 0) (fun u => m i0 u)) by (apply piv_lt, Hj). reflexivity. }
  assert (K : ker r t S y).
  { apply (requiv_ker r t Sr S y (requiv_sym _ _ _ _ Q)). intros i0 Hi0. rewrite MV. destruct (Nat.lt_ge_cases i0 k) as [H|H].
    - transitivity (xorb (Sr i0 c) (xsum k (fun j => (i0 =? j) && Sr j c))); [f_equal; apply xsum_ext; intros j Hj; rewrite unit_pivot by assumption; reflexivity|]. rewrite xsum_delta by exact H. apply xorb_nilpotent.
    - assert (Z : forall j, j < t -> Sr i0 j = false) by (intros j Hj; apply E; [fold k; lia|exact Hj]). rewrite Z by exact Hc. rewrite xsum_0; [reflexivity|]. intros j Hj. rewrite Z by (apply piv_lt, Hj). reflexivity. }
  specialize (K i Hi). rewrite MV in K. apply xorb_eq in K. exact K.
Qed.
Lemma pivots_injective : injective r k (fun i j => S i (nth j ic 0)).
Proof.
  intros y K u Hu. set (y' := fun v => xsum k (fun j => y j && (v =? nth j ic 0))).
  assert (MV : forall m i, mv t m y' i = xsum k (fun j => m i (nth j ic 0) && y j)).
  { intros m i. unfold mv, y'. transitivity (xsum t (fun v => xsum k (fun j => m i v && (v =? nth j ic 0) && y j))).
    - apply xsum_ext. intros v _. rewrite <- xsum_and. apply xsum_ext. intros j _. destruct (m i v), (y j), (v =? nth j ic 0); reflexivity.
    - rewrite xsum_swap. apply xsum_ext. intros j Hj. rewrite xsum_and_r. rewrite (xsum_delta_r t (nth j ic 0) (fun v => m i v)) by (apply piv_lt, Hj). reflexivity. }
  assert (K' : ker r t S y') by (intros i Hi; rewrite MV; exact (K i Hi)).
  assert (L : u < r) by (destruct E as (E1 & _); fold k in E1; lia). assert (X := requiv_ker r t S Sr y' Q K' u L). rewrite MV in X. rewrite <- X. symmetry.
  transitivity (xsum k (fun j => (u =? j) && y j)); [apply xsum_ext; intros j Hj; rewrite unit_pivot by assumption; reflexivity|]. apply xsum_delta. exact Hu.
Qed.
End rref.

(** ** the pivots of a column elimination *)
Section colpiv.
Variables (n k : nat) (X F : mat) (ir : list nat).
Hypothesis Q : requiv k n (flip X) (flip F).
Hypothesis E : echelon k n (flip F) ir.
Let p := length ir.
Lemma F_diag i : i < p -> F (nth i ir 0) i = true. Proof. intros H. apply (proj1 (proj2 (proj2 (proj2 E))) i H). Qed.
Lemma F_upper i u : i < u -> u < k -> i < p -> F (nth i ir 0) u = false.
Proof.
  intros H Hu Hi. destruct E as (E1 & E2 & E3 & E4 & E5). destruct (Nat.lt_ge_cases u p) as [Hp|Hp].
  - apply (proj2 (E4 u Hp)). apply E3. fold p. lia.
  - apply (E5 u (nth i ir 0)); [fold p; lia|apply E2, Hi].
Qed.
Lemma F_zero q u : q < n -> p <= u < k -> F q u = false. Proof. intros Hq Hu. destruct E as (_ & _ & _ & _ & E5). exact (E5 u q Hu Hq). Qed.
Lemma row_lt i : i < p -> nth i ir 0 < n. Proof. apply E. Qed.
Lemma p_le : p <= k. Proof. apply E. Qed.
Lemma ir_NoDup : NoDup ir.
Proof.
  apply (NoDup_nth ir 0). intros i j Hi Hj Eq. destruct E as (_ & _ & E3 & _). destruct (Nat.lt_trichotomy i j) as [H|[H|H]]; [|exact H|].
  - specialize (E3 i j). lia.
  - specialize (E3 j i). lia.
Qed.
Lemma F_triangular w : (forall i, i < p -> mv k F w (nth i ir 0) = false) -> forall i, i < p -> w i = false.
Proof.
  intros H i. induction i as [i IH] using lt_wf_ind. intros Hi. assert (Pk := p_le). specialize (H i Hi). unfold mv in H. rewrite <- H. symmetry.
  rewrite (xsum_ext k _ (fun u => (i =? u) && w u)); [apply xsum_delta; lia|]. intros u Hu. destruct (Nat.eqb_spec i u) as [->|N]; [rewrite F_diag by exact Hi; reflexivity|].
  destruct (Nat.lt_ge_cases u i) as [L|L]; [rewrite (IH u L) by lia; apply andb_false_r|]. rewrite F_upper by lia. reflexivity.
Qed.
Lemma F_vanishes w : (forall i, i < p -> w i = false) -> forall q, q < n -> mv k F w q = false.
Proof. intros H q Hq. apply xsum_0. intros u Hu. destruct (Nat.lt_ge_cases u p) as [L|L]; [rewrite H by exact L; apply andb_false_r|]. rewrite F_zero by lia. reflexivity. Qed.
Lemma X_from_F : exists L L', is_inverse k L L' /\ (forall q c, q < n -> c < k -> F q c = xsum k (fun u => L c u && X q u)) /\ (forall q c, q < n -> c < k -> X q c = xsum k (fun u => L' c u && F q u)).
Proof.
  destruct Q as (L & L' & I & A & B). exists L, L'. split; [exact I|]. split; intros q c Hq Hc; symmetry; [exact (A c q Hc Hq)|exact (B c q Hc Hq)].
Qed.
Lemma combo (L : mat) (Y Z : mat) y : (forall q c, q < n -> c < k -> Y q c = xsum k (fun u => L c u && Z q u)) -> forall q, q < n -> mv k Y y q = mv k Z (fun u => xsum k (fun c => y c && L c u)) q.
Proof.
  intros H q Hq. unfold mv. transitivity (xsum k (fun c => xsum k (fun u => y c && L c u && Z q u))).
  - apply xsum_ext. intros c Hc. rewrite H by assumption. rewrite <- xsum_and_r. apply xsum_ext. intros u _. destruct (L c u), (Z q u), (y c); reflexivity.
  - rewrite xsum_swap. apply xsum_ext. intros u _. rewrite <- xsum_and. apply xsum_ext. intros c _. destruct (L c u), (Z q u), (y c); reflexivity.
Qed.
Lemma col_vanish y : (forall i, i < p -> mv k X y (nth i ir 0) = false) -> forall q, q < n -> mv k X y q = false.
Proof.
  destruct X_from_F as (L & L' & I & A & B). intros H q Hq. rewrite (combo L' X F y B q Hq). apply F_vanishes; [|exact Hq]. apply F_triangular. intros i Hi. rewrite <- (combo L' X F y B) by (apply row_lt, Hi). apply H, Hi.
Qed.
Lemma rows_independent w : (forall c, c < k -> xsum p (fun i => w i && X (nth i ir 0) c) = false) -> forall i, i < p -> w i = false.
Proof.
  destruct X_from_F as (L & L' & I & A & B). intros H. assert (HF : forall c, c < k -> xsum p (fun i => w i && F (nth i ir 0) c) = false).
  { intros c Hc. transitivity (xsum p (fun i => xsum k (fun u => L c u && (w i && X (nth i ir 0) u)))).
    - apply xsum_ext. intros i Hi. rewrite A by (try assumption; apply row_lt, Hi). rewrite <- xsum_and. apply xsum_ext. intros u _. destruct (w i), (L c u), (X (nth i ir 0) u); reflexivity.
    - rewrite xsum_swap. apply xsum_0. intros u Hu. rewrite xsum_and, H by exact Hu. apply andb_false_r. }
  assert (Pk := p_le). intros i Hi. remember (p - i) as d eqn:Ed. revert i Hi Ed. induction d as [d IH] using lt_wf_ind. intros i Hi Ed. rewrite <- (HF i) by lia. symmetry.
  rewrite (xsum_ext p _ (fun u => (i =? u) && w u)); [apply xsum_delta, Hi|]. intros u Hu. destruct (Nat.eqb_spec i u) as [->|N]; [rewrite F_diag by exact Hu; apply andb_true_r|].
  destruct (Nat.lt_ge_cases u i) as [Lt|Ge]; [rewrite F_upper by lia; apply andb_false_r|]. rewrite (IH (p - u)) by lia. reflexivity.
Qed.
Lemma injective_pivots : injective n k X -> p = k.
Proof.
  intros Inj. assert (Pk := p_le). destruct (Nat.eq_dec p k) as [H|H]; [exact H|exfalso]. destruct X_from_F as (L & L' & [I _] & A & B). assert (Hp : p < k) by lia.
  assert (Z : forall u, u < k -> L p u = false).
  { apply (Inj (L p)). intros q Hq. rewrite <- (F_zero q p Hq) by lia. rewrite A by assumption. apply xsum_ext. intros u _. apply andb_comm. }
  specialize (I p p Hp Hp). unfold mmul, eye in I. rewrite Nat.eqb_refl in I. rewrite xsum_0 in I; [discriminate|]. intros u Hu. rewrite Z by exact Hu. reflexivity.
Qed.
Lemma pivots_injective_col : p = k -> injective n k X.
Proof.
  intros Hp y K c Hc. destruct X_from_F as (L & L' & [_ I] & A & B). set (w := fun u => xsum k (fun c => y c && L' c u)).
  assert (W : forall u, u < k -> w u = false).
  { intros u Hu. apply (F_triangular w); [|lia]. intros i Hi. rewrite <- (combo L' X F y B) by (apply row_lt, Hi). apply K, row_lt, Hi. }
  transitivity (xsum k (fun u => w u && L u c)); [|apply xsum_0; intros u Hu; rewrite W by exact Hu; reflexivity].
  unfold w. transitivity (xsum k (fun u => xsum k (fun c0 => y c0 && (L' c0 u && L u c)))).
  - rewrite xsum_swap. rewrite <- (xsum_delta_r k c y Hc). apply xsum_ext. intros c0 Hc0. rewrite xsum_and. f_equal. symmetry. exact (I c0 c Hc0 Hc).
  - apply xsum_ext. intros u _. rewrite <- xsum_and_r. apply xsum_ext. intros c0 _. apply andb_assoc.
Qed.
End colpiv.

(** ** the permutation *)
Lemma set_nth_length l i v : length (set_nth l i v) = length l. Proof. revert i. induction l as [|x l IH]; intros [|i]; cbn; auto. Qed.
Lemma nth_set_nth l i v j : nth j (set_nth l i v) 0 = if (i =? j) && (j <? length l) then v else nth j l 0.
Proof.
  revert i j. induction l as [|x l IH]; intros [|i] [|j]; cbn [set_nth nth length]; try reflexivity; try (rewrite IH; reflexivity).
  change (S j <? 0) with false. rewrite andb_false_r. reflexivity.
Qed.
Definition is_perm (n : nat) (l : list nat) : Prop := length l = n /\ (forall i, i < n -> nth i l 0 < n) /\ (forall i j, i < n -> j < n -> nth i l 0 = nth j l 0 -> i = j).
Lemma is_perm_onto n l q : is_perm n l -> q < n -> exists i, i < n /\ nth i l 0 = q.
Proof.
  intros (L & B & I) Hq. assert (ND : NoDup l) by (apply (NoDup_nth l 0); intros i j Hi Hj; rewrite L in *; apply I; assumption).
  assert (Inc : incl l (seq 0 n)) by (intros x Hx; apply (In_nth _ _ 0) in Hx; destruct Hx as (i & Hi & <-); apply in_seq; rewrite L in Hi; specialize (B i Hi); lia).
  assert (Inc' : incl (seq 0 n) l) by (apply NoDup_length_incl; [exact ND|rewrite seq_length; lia|exact Inc]).
  destruct (In_nth l q 0) as (i & Hi & E); [apply Inc', in_seq; lia|]. exists i. rewrite L in Hi. auto.
Qed.
Lemma perm_fold n : forall rest done pm, let ir := done ++ rest in (forall i, i < length ir -> nth i ir 0 < n) -> (forall i j, i < j < length ir -> nth i ir 0 < nth j ir 0) ->
  is_perm n pm -> (forall j, j < length done -> nth j pm 0 = nth j ir 0) -> (forall j, j < n -> (forall i, i < length done -> nth i ir 0 < j) -> nth j pm 0 = j) ->
  let pm' := fold_left perm_step (combine (seq (length done) (length rest)) rest) pm in is_perm n pm' /\ forall j, j < length ir -> nth j pm' 0 = nth j ir 0.
Proof.
  induction rest as [|x rest IH]; intros done pm; cbn zeta; intros B In P F I; cbn [length seq combine fold_left].
  - rewrite app_nil_r in *. split; [exact P|exact F].
  - assert (Lir : length (done ++ x :: rest) = length done + S (length rest)) by (rewrite app_length; reflexivity).
    assert (Nx : nth (length done) (done ++ x :: rest) 0 = x) by (rewrite app_nth2, Nat.sub_diag by lia; reflexivity).
    assert (Ge : forall i, i < length (done ++ x :: rest) -> i <= nth i (done ++ x :: rest) 0).
    { induction i as [|i IHi]; intros Hi; [lia|]. specialize (In i (S i)). lia. }
    set (i := length done) in *. assert (Hi : i < length (done ++ x :: rest)) by lia. assert (Hx : x < n) by (rewrite <- Nx; apply B, Hi). assert (Hix : i <= x) by (rewrite <- Nx; apply Ge, Hi).
    assert (Px : nth x pm 0 = x) by (apply I; [exact Hx|]; intros j Hj; specialize (In j i); lia).
    destruct P as (PL & PB & PI). unfold perm_step at 2. set (pm1 := set_nth (set_nth pm i x) x (nth i pm 0)).
    assert (G : forall j, j < n -> nth j pm1 0 = if j =? x then nth i pm 0 else if j =? i then x else nth j pm 0).
    { intros j Hj. unfold pm1. rewrite !nth_set_nth, set_nth_length, PL. replace (j <? n) with true by (symmetry; apply Nat.ltb_lt; exact Hj). rewrite !andb_true_r, (Nat.eqb_sym x j), (Nat.eqb_sym i j). reflexivity. }
    assert (P1 : is_perm n pm1).
    { split; [unfold pm1; rewrite !set_nth_length; exact PL|]. split.
      - intros j Hj. rewrite G by exact Hj. destruct (j =? x); [apply PB; lia|]. destruct (j =? i); [exact Hx|apply PB, Hj].
      - intros a b Ha Hb. rewrite !G by assumption. rewrite <- Px at 2 4.
        destruct (Nat.eqb_spec a x) as [->|]; destruct (Nat.eqb_spec b x) as [->|]; try (intros; reflexivity).
        + destruct (Nat.eqb_spec b i) as [->|]; intros Eq; apply PI in Eq; lia.
        + destruct (Nat.eqb_spec a i) as [->|]; intros Eq; apply PI in Eq; lia.
        + destruct (Nat.eqb_spec a i) as [->|]; destruct (Nat.eqb_spec b i) as [->|]; intros Eq; try reflexivity; apply PI in Eq; lia. }
    assert (LA : length (done ++ [x]) = S i) by (rewrite app_length; cbn [length]; fold i; lia). assert (Y := IH (done ++ [x]) pm1). cbn zeta in Y. rewrite <- app_assoc in Y. cbn [app] in Y. rewrite LA in Y. apply Y; [exact B|exact In|exact P1| |].
    + intros j Hj. rewrite G by (specialize (B i Hi); lia). destruct (Nat.eqb_spec j x) as [->|]; [assert (x = i) by lia; subst x; rewrite Nx; exact Px|]. destruct (Nat.eqb_spec j i) as [->|]; [symmetry; exact Nx|]. apply F. lia.
    + intros j Hj H. rewrite G by exact Hj. assert (Hxj : x < j) by (specialize (H i); lia). destruct (Nat.eqb_spec j x); [lia|]. destruct (Nat.eqb_spec j i); [lia|]. apply I; [exact Hj|]. intros u Hu. apply H. lia.
Qed.
Lemma perm_ok n ir : (forall i, i < length ir -> nth i ir 0 < n) -> (forall i j, i < j < length ir -> nth i ir 0 < nth j ir 0) ->
  let pm := fold_left perm_step (enumerate ir) (seq 0 n) in is_perm n pm /\ forall j, j < length ir -> nth j pm 0 = nth j ir 0.
Proof.
  intros B In. apply (perm_fold n ir [] (seq 0 n)); cbn [app length]; try assumption; try (intros; lia).
  - split; [apply seq_length|]. split; [intros i Hi; rewrite seq_nth; lia|]. intros i j Hi Hj. rewrite !seq_nth by assumption. lia.
  - intros j Hj _. rewrite seq_nth; lia.
Qed.

(** ** the symplectic form *)
Lemma symplectic_mmul n k S R a b : symplectic n (mmul k S R) a b = xsum k (fun u => xsum k (fun v => R u a && R v b && symplectic n S u v)).
Proof.
  assert (X : forall (f g : nat -> nat -> bool), xsum n (fun q => xsum k (fun u => f q u && R u a) && xsum k (fun v => g q v && R v b)) = xsum k (fun u => xsum k (fun v => R u a && R v b && xsum n (fun q => f q u && g q v)))).
  { intros f g. transitivity (xsum n (fun q => xsum k (fun u => xsum k (fun v => R u a && R v b && (f q u && g q v))))).
    - apply xsum_ext. intros q _. rewrite <- xsum_and_r. apply xsum_ext. intros u _. rewrite <- xsum_and. apply xsum_ext. intros v _. destruct (f q u), (R u a), (g q v), (R v b); reflexivity.
    - rewrite xsum_swap. apply xsum_ext. intros u _. rewrite xsum_swap. apply xsum_ext. intros v _. apply xsum_and. }
  unfold symplectic at 1, mmul. rewrite xsum_xor, (X (fun q u => S q u) (fun q v => S (n + q) v)), (X (fun q u => S (n + q) u) (fun q v => S q v)), <- xsum_xor.
  apply xsum_ext. intros u _. rewrite <- xsum_xor. apply xsum_ext. intros v _. unfold symplectic. rewrite xsum_xor. destruct (R u a && R v b); reflexivity.
Qed.
Lemma isotropic_mmul n k l S R : isotropic n k S -> isotropic n l (mmul k S R).
Proof. intros H a b Ha Hb. rewrite symplectic_mmul. apply xsum_0. intros u Hu. apply xsum_0. intros v Hv. rewrite H by assumption. apply andb_false_r. Qed.
Lemma isotropic_ext n k S S' : eqm (2 * n) k S S' -> isotropic n k S -> isotropic n k S'.
Proof. intros E H a b Ha Hb. rewrite <- (H a b Ha Hb). apply xsum_ext. intros q Hq. rewrite !E by lia. reflexivity. Qed.

(** Hadamards *)
Lemma hfold n hl : NoDup hl -> (forall i, In i hl -> i < n) -> forall (S : mat) q c, q < n ->
  fold_left (fun m i => swap_rows i (n + i) m) hl S q c = (if mem q hl then S (n + q) c else S q c) /\ fold_left (fun m i => swap_rows i (n + i) m) hl S (n + q) c = (if mem q hl then S q c else S (n + q) c).
Proof.
  induction hl as [|h hl IH]; intros N B S q c Hq; [split; reflexivity|]. inversion N; subst. cbn [fold_left]. destruct (IH H2 (fun i Hi => B i (or_intror Hi)) (swap_rows h (n + h) S) q c Hq) as [I1 I2]. rewrite I1, I2.
  unfold mem at 2 4. cbn [existsb]. fold (mem q hl). assert (Hh : h < n) by (apply B; left; reflexivity). unfold swap_rows.
  destruct (Nat.eqb_spec q h) as [->|Nq].
  - replace (mem h hl) with false by (symmetry; apply mem_false; exact H1). cbn [orb]. destruct (Nat.eqb_spec (n + h) h); [lia|]. rewrite Nat.eqb_refl. split; reflexivity.
  - cbn [orb]. destruct (Nat.eqb_spec q (n + h)); [lia|]. destruct (Nat.eqb_spec (n + q) h); [lia|]. destruct (Nat.eqb_spec (n + q) (n + h)); [lia|]. split; reflexivity.
Qed.
Lemma xsum_perm n pm f : is_perm n pm -> xsum n (fun i => f (nth i pm 0)) = xsum n f.
Proof.
  intros P. assert (P' := P). destruct P as (L & B & I). rewrite <- L at 1. rewrite <- lxsum_nth. symmetry. apply xsum_support.
  - apply (NoDup_nth pm 0). intros i j Hi Hj. rewrite L in *. apply I; assumption.
  - intros q Hq. apply (In_nth _ _ 0) in Hq. destruct Hq as (i & Hi & <-). rewrite L in Hi. apply B, Hi.
  - intros q Hq Nq. exfalso. apply Nq. destruct (is_perm_onto n pm q P' Hq) as (i & Hi & <-). apply nth_In. lia.
Qed.
