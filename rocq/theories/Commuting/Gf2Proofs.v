From Verif.Commuting Require Import Gf2Model Gf2Spec.

(** ** sums *)
Lemma xsum_ext n f g : (forall i, i < n -> f i = g i) -> xsum n f = xsum n g.
Proof. induction n as [|n IH]; intros H; cbn; [reflexivity|]. rewrite IH by (intros i Hi; apply H; lia). rewrite H by lia. reflexivity. Qed.
Lemma xsum_0 n f : (forall i, i < n -> f i = false) -> xsum n f = false.
Proof. induction n as [|n IH]; intros H; cbn; [reflexivity|]. rewrite IH by (intros i Hi; apply H; lia). rewrite H by lia. reflexivity. Qed.
Lemma xsum_xor n f g : xsum n (fun i => xorb (f i) (g i)) = xorb (xsum n f) (xsum n g).
Proof. induction n as [|n IH]; cbn; [reflexivity|]. rewrite IH. destruct (xsum n f), (xsum n g), (f n), (g n); reflexivity. Qed.
Lemma xsum_and n b f : xsum n (fun i => b && f i) = b && xsum n f.
Proof. induction n as [|n IH]; cbn; [destruct b; reflexivity|]. rewrite IH. destruct b, (xsum n f), (f n); reflexivity. Qed.
Lemma xsum_and_r n b f : xsum n (fun i => f i && b) = xsum n f && b.
Proof. induction n as [|n IH]; cbn; [destruct b; reflexivity|]. rewrite IH. destruct b, (xsum n f), (f n); reflexivity. Qed.
Lemma xsum_swap n k f : xsum n (fun i => xsum k (fun j => f i j)) = xsum k (fun j => xsum n (fun i => f i j)).
Proof. induction n as [|n IH]; cbn; [symmetry; apply xsum_0; reflexivity|]. rewrite IH, <- xsum_xor. reflexivity. Qed.
Lemma xsum_delta n i f : i < n -> xsum n (fun t => (i =? t) && f t) = f i.
Proof.
  induction n as [|n IH]; intros H; cbn; [lia|]. destruct (Nat.eqb_spec i n) as [->|N].
  - rewrite xsum_0; [destruct (f n); reflexivity|]. intros t Ht. destruct (Nat.eqb_spec n t); [lia|reflexivity].
  - rewrite IH by lia. destruct (f i); reflexivity.
Qed.
Lemma xsum_delta_r n i f : i < n -> xsum n (fun t => f t && (t =? i)) = f i.
Proof. intros H. rewrite <- (xsum_delta n i f H). apply xsum_ext. intros t _. rewrite Nat.eqb_sym. apply andb_comm. Qed.
Lemma xsum_pos n f : xsum n f = true -> exists i, i < n /\ f i = true.
Proof. induction n as [|n IH]; cbn; [discriminate|]. destruct (f n) eqn:E; [exists n; split; [lia|exact E]|]. rewrite xorb_false_r. intros H. destruct (IH H) as (i & Hi & F). exists i. split; [lia|exact F]. Qed.

(** ** matrices *)
Lemma eqm_refl r c A : eqm r c A A. Proof. intros i j _ _. reflexivity. Qed.
Lemma eqm_sym r c A B : eqm r c A B -> eqm r c B A. Proof. intros H i j Hi Hj. symmetry. apply H; assumption. Qed.
Lemma eqm_trans r c A B C : eqm r c A B -> eqm r c B C -> eqm r c A C. Proof. intros H H' i j Hi Hj. rewrite H by assumption. apply H'; assumption. Qed.
Lemma mmul_ext r k c A A' B B' : eqm r k A A' -> eqm k c B B' -> eqm r c (mmul k A B) (mmul k A' B').
Proof. intros H H' i j Hi Hj. apply xsum_ext. intros t Ht. rewrite H, H' by assumption. reflexivity. Qed.
Lemma mmul_assoc k l A B C i j : mmul k A (mmul l B C) i j = mmul l (mmul k A B) C i j.
Proof.
  unfold mmul. transitivity (xsum k (fun t => xsum l (fun s => A i t && B t s && C s j))).
  - apply xsum_ext. intros t _. rewrite <- xsum_and. apply xsum_ext. intros s _. apply andb_assoc.
  - rewrite xsum_swap. apply xsum_ext. intros s _. rewrite xsum_and_r. reflexivity.
Qed.
Lemma mmul_eye_l r c A : eqm r c (mmul r eye A) A.
Proof. intros i j Hi Hj. apply (xsum_delta r i (fun t => A t j) Hi). Qed.
Lemma mmul_eye_r k r A : eqm r k (mmul k A eye) A.
Proof. intros i j Hi Hj. apply (xsum_delta_r k j (fun t => A i t) Hj). Qed.
Lemma is_inverse_sym n A B : is_inverse n A B -> is_inverse n B A. Proof. intros [H H']. split; assumption. Qed.
Lemma is_inverse_eye n : is_inverse n eye eye. Proof. split; apply mmul_eye_l. Qed.
Lemma is_inverse_mmul n A B A' B' : is_inverse n A A' -> is_inverse n B B' -> is_inverse n (mmul n A B) (mmul n B' A').
Proof.
  assert (X : forall A B A' B', is_inverse n A A' -> is_inverse n B B' -> eqm n n (mmul n (mmul n A B) (mmul n B' A')) eye).
  { intros P Q P' Q' [H1 _] [H2 _] i j Hi Hj. rewrite mmul_assoc. rewrite <- (H1 i j Hi Hj). apply (mmul_ext n n n); try assumption; [|apply eqm_refl].
    intros a b Ha Hb. rewrite <- mmul_assoc. rewrite <- (mmul_eye_r n n P a b Ha Hb). apply (mmul_ext n n n); try assumption. apply eqm_refl. }
  intros H H'. split; [apply X; assumption|apply X; apply is_inverse_sym; assumption].
Qed.
Lemma is_inverse_ext n A A' B : eqm n n A A' -> is_inverse n A B -> is_inverse n A' B.
Proof. intros E [H1 H2]. split; [apply (eqm_trans _ _ _ (mmul n A B)); [|exact H1]|apply (eqm_trans _ _ _ (mmul n B A)); [|exact H2]]; apply mmul_ext; try apply eqm_refl; apply eqm_sym; exact E. Qed.

(** ** row operations are multiplications from the left by invertible matrices *)
Lemma add_row_mmul r k j p A B i c : p < r -> j < r -> j <> p -> i < r -> mmul k (add_row j p A) B i c = add_row j p (mmul k A B) i c.
Proof.
  intros Hp Hj N Hi. unfold mmul, add_row. destruct (i =? j); [|reflexivity]. rewrite <- xsum_xor. apply xsum_ext. intros t _. destruct (A j t), (A p t), (B t c); reflexivity.
Qed.
Lemma swap_rows_mmul k a b A B i c : mmul k (swap_rows a b A) B i c = swap_rows a b (mmul k A B) i c. Proof. reflexivity. Qed.
Lemma add_row_twice j p A i c : j <> p -> add_row j p (add_row j p A) i c = A i c.
Proof. intros N. unfold add_row. rewrite Nat.eqb_refl. destruct (Nat.eqb_spec p j) as [E|_]; [congruence|]. destruct (Nat.eqb_spec i j) as [->|]; [|reflexivity]. destruct (A j c), (A p c); reflexivity. Qed.
Lemma swap_rows_twice a b A i c : swap_rows a b (swap_rows a b A) i c = A i c.
Proof. unfold swap_rows. destruct (Nat.eqb_spec i a) as [->|N]; [|destruct (Nat.eqb_spec i b) as [->|N']]. - rewrite Nat.eqb_refl. destruct (Nat.eqb_spec b a); congruence. - rewrite Nat.eqb_refl. reflexivity. - destruct (Nat.eqb_spec i a); [congruence|]. destruct (Nat.eqb_spec i b); [congruence|]. reflexivity. Qed.
Lemma add_row_ext r c j p A B : p < r -> j < r -> eqm r c A B -> eqm r c (add_row j p A) (add_row j p B).
Proof. intros Hp Hj H i t Hi Ht. unfold add_row. destruct (i =? j); [rewrite !H by assumption; reflexivity|apply H; assumption]. Qed.
Lemma swap_rows_ext r c a b A B : a < r -> b < r -> eqm r c A B -> eqm r c (swap_rows a b A) (swap_rows a b B).
Proof. intros Ha Hb H i t Hi Ht. unfold swap_rows. apply H; [|assumption]. destruct (i =? a); [assumption|]. destruct (i =? b); assumption. Qed.
Lemma add_row_inverse r j p : p < r -> j < r -> j <> p -> is_inverse r (add_row j p eye) (add_row j p eye).
Proof.
  intros Hp Hj N. assert (X : eqm r r (mmul r (add_row j p eye) (add_row j p eye)) eye); [|split; exact X].
  intros i c Hi Hc. rewrite (add_row_mmul r) by assumption. rewrite (add_row_ext r r j p (mmul r eye (add_row j p eye)) (add_row j p eye)); try assumption; [apply add_row_twice; exact N|apply mmul_eye_l].
Qed.
Lemma swap_rows_inverse r a b : a < r -> b < r -> is_inverse r (swap_rows a b eye) (swap_rows a b eye).
Proof.
  intros Ha Hb. assert (X : eqm r r (mmul r (swap_rows a b eye) (swap_rows a b eye)) eye); [|split; exact X].
  intros i c Hi Hc. rewrite swap_rows_mmul. rewrite (swap_rows_ext r r a b (mmul r eye (swap_rows a b eye)) (swap_rows a b eye)); try assumption; [apply swap_rows_twice|apply mmul_eye_l].
Qed.
(** m' = L m with L invertible *)
Definition requiv (r c : nat) (m m' : mat) : Prop := exists L L', is_inverse r L L' /\ eqm r c (mmul r L m) m' /\ eqm r c (mmul r L' m') m.
Lemma requiv_refl r c m : requiv r c m m. Proof. exists eye, eye. split; [apply is_inverse_eye|]. split; apply mmul_eye_l. Qed.
Lemma requiv_trans r c m1 m2 m3 : requiv r c m1 m2 -> requiv r c m2 m3 -> requiv r c m1 m3.
Proof.
  intros (L1 & L1' & I1 & E1 & F1) (L2 & L2' & I2 & E2 & F2). exists (mmul r L2 L1), (mmul r L1' L2'). split; [apply is_inverse_mmul; assumption|]. split; intros i j Hi Hj; rewrite <- mmul_assoc.
  - rewrite <- (E2 i j Hi Hj). apply (mmul_ext r r c); try assumption; [apply eqm_refl].
  - rewrite <- (F1 i j Hi Hj). apply (mmul_ext r r c); try assumption; [apply eqm_refl].
Qed.
Lemma requiv_sym r c m m' : requiv r c m m' -> requiv r c m' m. Proof. intros (L & L' & I & E & F). exists L', L. split; [apply is_inverse_sym; exact I|]. split; assumption. Qed.
Lemma requiv_of_inverse r c L L' m m' : is_inverse r L L' -> eqm r c (mmul r L m) m' -> requiv r c m m'.
Proof.
  intros I E. exists L, L'. split; [exact I|]. split; [exact E|]. intros i j Hi Hj. transitivity (mmul r L' (mmul r L m) i j); [apply (mmul_ext r r c); try assumption; [apply eqm_refl|apply eqm_sym; exact E]|].
  rewrite mmul_assoc. rewrite <- (mmul_eye_l r c m i j Hi Hj). apply (mmul_ext r r c); try assumption; [apply I|apply eqm_refl].
Qed.
Lemma requiv_add r c j p m : p < r -> j < r -> j <> p -> requiv r c m (add_row j p m).
Proof.
  intros Hp Hj N. apply (requiv_of_inverse r c _ _ _ _ (add_row_inverse r j p Hp Hj N)). intros i t Hi Ht. rewrite (add_row_mmul r) by assumption.
  apply (add_row_ext r c); try assumption. apply mmul_eye_l.
Qed.
Lemma requiv_swap r c a b m : a < r -> b < r -> requiv r c m (swap_rows a b m).
Proof.
  intros Ha Hb. apply (requiv_of_inverse r c _ _ _ _ (swap_rows_inverse r a b Ha Hb)). intros i t Hi Ht. rewrite swap_rows_mmul. apply (swap_rows_ext r c); try assumption. apply mmul_eye_l.
Qed.
Lemma requiv_row_space r c m m' v : requiv r c m m' -> in_row_space r c m v <-> in_row_space r c m' v.
Proof.
  assert (X : forall m m', requiv r c m m' -> in_row_space r c m' v -> in_row_space r c m v).
  { intros a b (L & L' & _ & E & _) (x & Hx). exists (fun t => xsum r (fun i => x i && L i t)). intros j Hj. rewrite Hx by exact Hj.
    transitivity (xsum r (fun i => xsum r (fun t => x i && L i t && a t j))).
    - apply xsum_ext. intros i Hi. rewrite <- (E i j Hi Hj). unfold mmul. rewrite <- xsum_and. apply xsum_ext. intros t _. apply andb_assoc.
    - rewrite xsum_swap. apply xsum_ext. intros t _. rewrite xsum_and_r. reflexivity. }
  intros H. split; [apply X, requiv_sym, H|apply X, H].
Qed.
(** the kernel *)
Definition mv (c : nat) (m : mat) (x : nat -> bool) (i : nat) : bool := xsum c (fun t => m i t && x t).
Definition ker (r c : nat) (m : mat) (x : nat -> bool) : Prop := forall i, i < r -> mv c m x i = false.
Definition injective (r c : nat) (m : mat) : Prop := forall x, ker r c m x -> forall t, t < c -> x t = false.
Lemma mv_mmul k c L m x i : mv c (mmul k L m) x i = mv k L (mv c m x) i.
Proof. exact (eq_sym (mmul_assoc k c L m (fun t _ => x t) i 0)). Qed.
Lemma mv_ext r c m m' x x' i : eqm r c m m' -> (forall t, t < c -> x t = x' t) -> i < r -> mv c m x i = mv c m' x' i.
Proof. intros H X Hi. apply xsum_ext. intros t Ht. rewrite H, X by assumption. reflexivity. Qed.
Lemma requiv_ker r c m m' x : requiv r c m m' -> ker r c m x -> ker r c m' x.
Proof.
  intros (L & L' & _ & E & _) K i Hi. rewrite <- (mv_ext r c _ _ x x i E (fun _ _ => eq_refl) Hi), mv_mmul. apply xsum_0. intros t Ht. rewrite K by exact Ht. apply andb_false_r.
Qed.

(** ** elimination with row p in column col *)
Definition inb (i : nat) (l : list nat) : bool := existsb (Nat.eqb i) l.
Lemma inb_In i l : inb i l = true <-> In i l.
Proof. unfold inb. rewrite existsb_exists. split; [intros (x & H & E); apply Nat.eqb_eq in E; subst; exact H|intros H; exists i; split; [exact H|apply Nat.eqb_refl]]. Qed.
Lemma elim_fold col p l : forall m, NoDup l -> ~ In p l -> forall i c, fold_left (elim_row col p) l m i c = if inb i l && m i col then xorb (m i c) (m p c) else m i c.
Proof.
  induction l as [|j l IH]; intros m N P i c; cbn [fold_left]; [reflexivity|]. inversion N as [|? ? N1 N2]; subst. rewrite IH by (try assumption; intros H; apply P; right; exact H).
  assert (X : elim_row col p m j p c = m p c) by (unfold elim_row; destruct (m j col); [|reflexivity]; unfold add_row; destruct (Nat.eqb_spec p j) as [->|_]; [exfalso; apply P; left; reflexivity|reflexivity]).
  rewrite X. unfold inb. cbn [existsb]. fold (inb i l). destruct (Nat.eqb_spec i j) as [->|Nj]; cbn [orb andb].
  - destruct (inb j l) eqn:B; [apply inb_In in B; contradiction|]. cbn [andb]. unfold elim_row. destruct (m j col); [|reflexivity]. unfold add_row. rewrite Nat.eqb_refl. reflexivity.
  - assert (Y : forall c, elim_row col p m j i c = m i c) by (intros c'; unfold elim_row; destruct (m j col); [|reflexivity]; unfold add_row; destruct (Nat.eqb_spec i j); [congruence|reflexivity]).
    rewrite !Y. reflexivity.
Qed.
Lemma elim_requiv r c col p l : forall m, p < r -> (forall j, In j l -> j < r /\ j <> p) -> requiv r c m (fold_left (elim_row col p) l m).
Proof.
  induction l as [|j l IH]; intros m Hp H; cbn [fold_left]; [apply requiv_refl|]. apply (requiv_trans r c _ (elim_row col p m j)); [|apply IH; [exact Hp|intros t Ht; apply H; right; exact Ht]].
  unfold elim_row. destruct (m j col); [|apply requiv_refl]. destruct (H j (or_introl eq_refl)). apply requiv_add; auto.
Qed.
Lemma argmax_ok f lo hi : lo < hi -> lo <= argmax f lo hi < hi /\ (f (argmax f lo hi) = false -> forall i, lo <= i < hi -> f i = false).
Proof.
  intros H. unfold argmax. destruct (find f (seq lo (hi - lo))) as [i|] eqn:E.
  - apply find_some in E. destruct E as [I E]. apply in_seq in I. split; [lia|congruence].
  - split; [lia|]. intros _ i Hi. apply (find_none _ _ E). apply in_seq. lia.
Qed.
Lemma range_In a b i : In i (range a b) <-> a <= i < b. Proof. unfold range. rewrite in_seq. lia. Qed.
Lemma range_inb a b i : inb i (range a b) = true <-> a <= i < b. Proof. rewrite inb_In. apply range_In. Qed.

(** ** row echelon form *)
Section rows.
Variables rows cols : nat.
Definition ech_inv (m : mat) (c r : nat) (piv : list nat) : Prop :=
  length piv = r /\ echelon rows c m piv.
Lemma gauss_step_inv M m r piv c : c < cols -> requiv rows cols M m -> ech_inv m c r piv ->
  let '(m', r', piv') := gauss_row_step rows (m, r, piv) c in requiv rows cols M m' /\ ech_inv m' (c + 1) r' piv'.
Proof.
  intros Hc Q (L & E1 & E2 & E3 & E4 & E5). unfold gauss_row_step. destruct (Nat.ltb_spec r rows) as [Hr|Hr].
  2:{ split; [exact Q|]. split; [exact L|]. split; [exact E1|]. split; [intros i Hi; specialize (E2 i Hi); lia|]. split; [exact E3|]. split; [exact E4|]. intros i j Hi. lia. }
  set (p := argmax (fun i => m i c) r rows). destruct (argmax_ok (fun i => m i c) r rows Hr) as [Hp Z]. fold p in Hp, Z. destruct (m p c) eqn:P.
  2:{ split; [exact Q|]. split; [exact L|]. split; [exact E1|]. split; [intros i Hi; specialize (E2 i Hi); lia|]. split; [exact E3|]. split; [exact E4|].
      intros i j Hi Hj. destruct (Nat.eq_dec j c) as [->|]; [apply Z; [reflexivity|lia]|apply E5; lia]. }
  set (m1 := swap_rows r p m). set (m2 := fold_left _ _ m1).
  assert (G : forall i j, m2 i j = if inb i (range (r + 1) rows) && m1 i c then xorb (m1 i j) (m1 r j) else m1 i j).
  { intros i j. unfold m2. rewrite elim_fold; [reflexivity|apply seq_NoDup|]. rewrite range_In. lia. }
  assert (S1 : forall i j, i < r -> m1 i j = m i j).
  { intros i j Hi. unfold m1, swap_rows. destruct (Nat.eqb_spec i r); [lia|]. destruct (Nat.eqb_spec i p); [lia|reflexivity]. }
  assert (S2 : forall i j, r <= i < rows -> j < c -> m1 i j = false).
  { intros i j Hi Hj. unfold m1, swap_rows. apply E5; [|exact Hj]. destruct (i =? r); [lia|]. destruct (i =? p); lia. }
  assert (S3 : m1 r c = true) by (unfold m1, swap_rows; rewrite Nat.eqb_refl; exact P).
  assert (T1 : forall i j, i <= r -> m2 i j = m1 i j).
  { intros i j Hi. rewrite G. destruct (inb i (range (r + 1) rows)) eqn:B; [apply range_inb in B; lia|reflexivity]. }
  assert (T2 : forall i j, r < i < rows -> j < c + 1 -> m2 i j = false).
  { intros i j Hi Hj. rewrite G. replace (inb i (range (r + 1) rows)) with true by (symmetry; apply range_inb; lia). cbn [andb]. destruct (Nat.eq_dec j c) as [->|].
    - rewrite S3. destruct (m1 i c); reflexivity.
    - rewrite (S2 i j), (S2 r j) by lia. destruct (m1 i c); reflexivity. }
  split.
  - apply (requiv_trans _ _ _ m); [exact Q|]. apply (requiv_trans _ _ _ m1); [apply requiv_swap; lia|]. apply elim_requiv; [lia|]. intros j Hj. apply range_In in Hj. lia.
  - assert (NA : forall i, i < r -> nth i (piv ++ [c]) 0 = nth i piv 0) by (intros i Hi; apply app_nth1; lia).
    assert (NB : nth r (piv ++ [c]) 0 = c) by (rewrite app_nth2 by lia; rewrite L, Nat.sub_diag; reflexivity).
    assert (LL : length (piv ++ [c]) = r + 1) by (rewrite app_length; cbn; lia). split; [exact LL|]. unfold echelon. rewrite LL. split; [lia|]. split; [|split; [|split]].
    + intros i Hi. destruct (Nat.eq_dec i r) as [->|]; [rewrite NB; lia|]. rewrite NA by lia. specialize (E2 i). lia.
    + intros i j Hi. destruct (Nat.eq_dec j r) as [->|]; [rewrite NB, NA by lia; apply E2; lia|]. rewrite !NA by lia. apply E3. lia.
    + intros i Hi. destruct (Nat.eq_dec i r) as [->|].
      * rewrite NB, T1 by lia. split; [exact S3|]. intros j Hj. rewrite T1 by lia. apply S2; lia.
      * rewrite NA by lia. destruct (E4 i) as [A B]; [lia|]. split; [rewrite T1, S1 by lia; exact A|]. intros j Hj. rewrite T1, S1 by lia. apply B, Hj.
    + intros i j Hi Hj. apply T2; lia.
Qed.
Lemma gauss_fold_inv M n : forall c m r piv, c + n <= cols -> requiv rows cols M m -> ech_inv m c r piv ->
  let '(m', r', piv') := fold_left (gauss_row_step rows) (seq c n) (m, r, piv) in requiv rows cols M m' /\ ech_inv m' (c + n) r' piv'.
Proof.
  induction n as [|n IH]; intros c m r piv H Q I; cbn [seq fold_left]; [rewrite Nat.add_0_r; split; assumption|].
  assert (X := gauss_step_inv M m r piv c ltac:(lia) Q I). destruct (gauss_row_step rows (m, r, piv) c) as [[m' r'] piv']. destruct X as [Q' I']. rewrite Nat.add_1_r in I'.
  replace (c + S n) with (S c + n) by lia. apply IH; [lia|exact Q'|exact I'].
Qed.
(** the backward elimination *)
Definition red_upto (k : nat) (m : mat) (piv : list nat) : Prop := forall i t, i < k -> t < i -> m t (nth i piv 0) = false.
Lemma echelon_below m piv i t : echelon rows cols m piv -> i < length piv -> i < t < rows -> m t (nth i piv 0) = false.
Proof.
  intros (E1 & E2 & E3 & E4 & E5) Hi Ht. destruct (Nat.lt_ge_cases t (length piv)) as [H|H]; [|apply E5; [lia|apply E2, Hi]].
  destruct (E4 t H) as [_ B]. apply B. apply E3. lia.
Qed.
Lemma reduce_step M m piv k : requiv rows cols M m -> echelon rows cols m piv -> k < length piv -> red_upto k m piv ->
  let m' := reduce_row m (k, nth k piv 0) in requiv rows cols M m' /\ echelon rows cols m' piv /\ red_upto (S k) m' piv.
Proof.
  intros Q E Hk R. cbn zeta. unfold reduce_row. set (col := nth k piv 0). set (m' := fold_left _ _ m).
  assert (Ek := E). destruct Ek as (E1 & E2 & E3 & E4 & E5). destruct (E4 k Hk) as [K1 K2].
  assert (G : forall i j, m' i j = if inb i (seq 0 k) && m i col then xorb (m i j) (m k j) else m i j) by (intros i j; unfold m'; rewrite elim_fold; [reflexivity|apply seq_NoDup|rewrite in_seq; lia]).
  assert (U : forall i j, k <= i -> m' i j = m i j) by (intros i j Hi; rewrite G; destruct (inb i (seq 0 k)) eqn:B; [apply inb_In, in_seq in B; lia|reflexivity]).
  assert (V : forall i j, j < col -> m' i j = m i j) by (intros i j Hj; rewrite G, K2 by exact Hj; destruct (_ && _); [destruct (m i j)|]; reflexivity).
  split; [|split].
  - apply (requiv_trans _ _ _ m); [exact Q|]. apply elim_requiv; [lia|]. intros j Hj. apply in_seq in Hj. lia.
  - split; [exact E1|]. split; [exact E2|]. split; [exact E3|]. split.
    + intros i Hi. destruct (E4 i Hi) as [A B]. destruct (Nat.lt_ge_cases i k) as [H|H]; [|rewrite U by lia; split; [exact A|intros j Hj; rewrite U by lia; apply B, Hj]].
      assert (X : nth i piv 0 < col) by (apply E3; lia). rewrite V by exact X. split; [exact A|]. intros j Hj. rewrite V by lia. apply B, Hj.
    + intros i j Hi Hj. rewrite U by lia. apply E5; assumption.
  - intros i t Hi Ht. destruct (Nat.eq_dec i k) as [->|Ni].
    + fold col. rewrite G. replace (inb t (seq 0 k)) with true by (symmetry; apply inb_In, in_seq; lia). fold col in K1. rewrite K1. cbn [andb]. destruct (m t col); reflexivity.
    + rewrite V by (apply E3; lia). apply R; lia.
Qed.
Lemma reduce_fold M piv : forall rest done m, requiv rows cols M m -> echelon rows cols m piv -> piv = done ++ rest -> red_upto (length done) m piv ->
  let m' := fold_left reduce_row (combine (seq (length done) (length rest)) rest) m in requiv rows cols M m' /\ echelon rows cols m' piv /\ red_upto (length piv) m' piv.
Proof.
  induction rest as [|x rest IH]; intros done m Q E Ep R; cbn zeta; cbn [length seq combine fold_left].
  - rewrite app_nil_r in Ep. subst done. split; [exact Q|]. split; assumption.
  - assert (Hk : length done < length piv) by (rewrite Ep, app_length; cbn; lia).
    assert (X : nth (length done) piv 0 = x) by (rewrite Ep, app_nth2, Nat.sub_diag by lia; reflexivity).
    destruct (reduce_step M m piv (length done) Q E Hk R) as (Q' & E' & R'). rewrite X in *.
    assert (Y := IH (done ++ [x]) _ Q' E'). rewrite app_length in Y. cbn [length] in Y. rewrite Nat.add_1_r in Y. apply Y; [rewrite <- app_assoc; exact Ep|exact R'].
Qed.
Lemma reduced_ok m piv : echelon rows cols m piv -> red_upto (length piv) m piv -> reduced_at rows m piv.
Proof. intros E R i t Hi Ht N. destruct (Nat.lt_ge_cases t i) as [H|H]; [apply R; lia|apply (echelon_below m piv i t E Hi); lia]. Qed.
Lemma gauss_row_ok red M : let '(m, piv) := gauss_row rows cols red M in requiv rows cols M m /\ echelon rows cols m piv /\ (red = true -> reduced_at rows m piv).
Proof.
  unfold gauss_row. assert (I0 : ech_inv M 0 0 []).
  { split; [reflexivity|]. unfold echelon. cbn [length]. split; [lia|]. split; [intros; lia|]. split; [intros; lia|]. split; intros; lia. }
  assert (X := gauss_fold_inv M cols 0 M 0 [] (Nat.le_refl _) (requiv_refl _ _ _) I0). destruct (fold_left (gauss_row_step rows) (seq 0 cols) (M, 0, [])) as [[m r] piv]. cbn [plus] in X. destruct X as (Q & _ & E).
  destruct red; [|split; [exact Q|]; split; [exact E|discriminate]]. assert (Y := reduce_fold M piv piv [] m Q E eq_refl). cbn [length] in Y. fold (enumerate piv) in Y.
  destruct Y as (Q' & E' & R'); [intros i t Hi; lia|]. split; [exact Q'|]. split; [exact E'|]. intros _. apply reduced_ok; assumption.
Qed.
End rows.

(** ** columns: the transpose *)
Lemma find_ext {A} (f g : A -> bool) l : (forall x, In x l -> f x = g x) -> find f l = find g l.
Proof. induction l as [|x l IH]; intros H; cbn; [reflexivity|]. rewrite (H x) by (left; reflexivity). rewrite IH by (intros y Hy; apply H; right; exact Hy). reflexivity. Qed.
Lemma elim_col_flip row p l : forall m, flip (fold_left (elim_col row p) l m) = fold_left (elim_row row p) l (flip m).
Proof. induction l as [|j l IH]; intros m; cbn [fold_left]; [reflexivity|]. rewrite IH. f_equal. unfold elim_col, elim_row. change (flip m j row) with (m row j). destruct (m row j); reflexivity. Qed.
Definition flip3 (s : mat * nat * list nat) : mat * nat * list nat := let '(m, r, piv) := s in (flip m, r, piv).
Lemma gauss_col_step_flip cols s row : flip3 (gauss_col_step cols s row) = gauss_row_step cols (flip3 s) row.
Proof.
  destruct s as [[m c] piv]. unfold gauss_col_step, gauss_row_step, flip3. destruct (c <? cols); [|reflexivity]. cbn zeta. change (fun i => flip m i row) with (fun j => m row j). set (p := argmax _ _ _). change (flip m p row) with (m row p). destruct (m row p); [|reflexivity].
  rewrite elim_col_flip. reflexivity.
Qed.
Lemma gauss_col_fold_flip cols l : forall s, flip3 (fold_left (gauss_col_step cols) l s) = fold_left (gauss_row_step cols) l (flip3 s).
Proof. induction l as [|x l IH]; intros s; cbn [fold_left]; [reflexivity|]. rewrite IH, gauss_col_step_flip. reflexivity. Qed.
Lemma reduce_col_flip l : forall m, flip (fold_left reduce_col l m) = fold_left reduce_row l (flip m).
Proof. induction l as [|[c r] l IH]; intros m; cbn [fold_left]; [reflexivity|]. rewrite IH. unfold reduce_col, reduce_row. rewrite elim_col_flip. reflexivity. Qed.
Lemma gauss_col_flip rows cols red m : let '(e, piv) := gauss_col rows cols red m in gauss_row cols rows red (flip m) = (flip e, piv).
Proof.
  unfold gauss_col, gauss_row. assert (X := gauss_col_fold_flip cols (seq 0 rows) (m, 0, [])). cbn [flip3] in X. rewrite <- X. destruct (fold_left (gauss_col_step cols) (seq 0 rows) (m, 0, [])) as [[m' r'] piv]. cbn [flip3].
  destruct red; [rewrite reduce_col_flip|]; reflexivity.
Qed.
Lemma gauss_col_ok rows cols red M : let '(m, piv) := gauss_col rows cols red M in requiv cols rows (flip M) (flip m) /\ echelon cols rows (flip m) piv /\ (red = true -> reduced_at cols (flip m) piv).
Proof.
  assert (X := gauss_col_flip rows cols red M). destruct (gauss_col rows cols red M) as [m piv]. assert (Y := gauss_row_ok cols rows red (flip M)). rewrite X in Y. exact Y.
Qed.

(** ** the inverse *)
Section inverse.
Variable n : nat.
Variable M : mat.
Definition good (s : mat * mat) : Prop := eqm n n (mmul n (snd s) M) (fst s) /\ exists R', is_inverse n (snd s) R'.
Lemma good_add s j p : p < n -> j < n -> j <> p -> good s -> good (add_row j p (fst s), add_row j p (snd s)).
Proof.
  intros Hp Hj N (E & R' & I). split; cbn [fst snd].
  - intros i c Hi Hc. rewrite (add_row_mmul n) by assumption. apply (add_row_ext n n); assumption.
  - exists (mmul n R' (add_row j p eye)). apply (is_inverse_ext n (mmul n (add_row j p eye) (snd s))).
    + intros i c Hi Hc. rewrite (add_row_mmul n) by assumption. apply (add_row_ext n n); try assumption. apply mmul_eye_l.
    + apply is_inverse_mmul; [apply add_row_inverse; assumption|exact I].
Qed.
Lemma good_swap s a b : a < n -> b < n -> good s -> good (swap_rows a b (fst s), swap_rows a b (snd s)).
Proof.
  intros Ha Hb (E & R' & I). split; cbn [fst snd].
  - intros i c Hi Hc. rewrite swap_rows_mmul. apply (swap_rows_ext n n); assumption.
  - exists (mmul n R' (swap_rows a b eye)). apply (is_inverse_ext n (mmul n (swap_rows a b eye) (snd s))).
    + intros i c Hi Hc. rewrite swap_rows_mmul. apply (swap_rows_ext n n); try assumption. apply mmul_eye_l.
    + apply is_inverse_mmul; [apply swap_rows_inverse; assumption|exact I].
Qed.
Lemma inv_elim_fold i l : forall s, i < n -> (forall j, In j l -> j < n /\ j <> i) -> good s -> good (fold_left (inv_elim i) l s) /\ fst (fold_left (inv_elim i) l s) = fold_left (elim_row i i) l (fst s).
Proof.
  induction l as [|j l IH]; intros s Hi H G; cbn [fold_left]; [split; [exact G|reflexivity]|]. destruct (H j (or_introl eq_refl)) as [Hj N].
  assert (G' : good (inv_elim i s j)) by (unfold inv_elim; destruct (fst s j i); [apply good_add; assumption|exact G]).
  destruct (IH _ Hi (fun t Ht => H t (or_intror Ht)) G') as [A B]. split; [exact A|]. rewrite B. f_equal. unfold inv_elim, elim_row. destruct (fst s j i); reflexivity.
Qed.
Lemma good_injective s : injective n n M -> good s -> injective n n (fst s).
Proof.
  intros Inj (E & R' & I) x K. apply Inj. intros i Hi.
  assert (X : requiv n n M (fst s)) by (apply (requiv_of_inverse n n (snd s) R'); assumption). apply (requiv_ker n n (fst s) M x (requiv_sym _ _ _ _ X) K i Hi).
Qed.
(** unit upper triangular in the first k columns *)
Definition upper (k : nat) (m : mat) : Prop := (forall t, t < k -> m t t = true) /\ forall r t, t < k -> t < r < n -> m r t = false.
Lemma pivot_exists m i : i < n -> upper i m -> injective n n m -> exists r, i <= r < n /\ m r i = true.
Proof.
  intros Hi [U1 U2] Inj. assert (D : forall d, (exists r, i <= r < i + d /\ m r i = true) \/ forall r, i <= r < i + d -> m r i = false).
  { induction d as [|d [(r & Hr & E)|H]]; [right; lia|left; exists r; split; [lia|exact E]|]. destruct (m (i + d) i) eqn:E; [left; exists (i + d); split; [lia|exact E]|]. right. intros r Hr. destruct (Nat.eq_dec r (i + d)) as [->|]; [exact E|apply H; lia]. }
  destruct (D (n - i)) as [(r & Hr & E)|H]; [exists r; split; [lia|exact E]|]. exfalso.
  assert (X : forall k, k <= i -> exists x : nat -> bool, x i = true /\ (forall t, t < i - k -> x t = false) /\ (forall t, i < t -> x t = false) /\ forall r, i - k <= r < n -> mv n m x r = false).
  { induction k as [|k IH]; intros Hk.
    - exists (fun t => t =? i). split; [apply Nat.eqb_refl|]. split; [intros t Ht; destruct (Nat.eqb_spec t i); [lia|reflexivity]|]. split; [intros t Ht; destruct (Nat.eqb_spec t i); [lia|reflexivity]|].
      intros r Hr. unfold mv. rewrite xsum_delta_r by exact Hi. apply H. lia.
    - destruct IH as (x & X1 & X2 & X3 & X4); [lia|]. set (q := i - S k). destruct (mv n m x q) eqn:B.
      2:{ exists x. split; [exact X1|]. split; [intros t Ht; apply X2; lia|]. split; [exact X3|]. intros r Hr. destruct (Nat.eq_dec r q) as [->|]; [exact B|apply X4; lia]. }
      exists (fun t => xorb (x t) (t =? q)). assert (Nq : q < i) by (unfold q; lia). split; [destruct (Nat.eqb_spec i q); [lia|rewrite X1; reflexivity]|]. split; [|split].
      + intros t Ht. destruct (Nat.eqb_spec t q); [unfold q in *; lia|]. rewrite X2 by lia. reflexivity.
      + intros t Ht. destruct (Nat.eqb_spec t q); [lia|]. rewrite X3 by lia. reflexivity.
      + intros r Hr. assert (Y : mv n m (fun t => xorb (x t) (t =? q)) r = xorb (mv n m x r) (m r q)).
        { unfold mv. rewrite <- (xsum_delta_r n q (fun t => m r t)) by lia. rewrite <- xsum_xor. apply xsum_ext. intros t _. destruct (m r t), (x t), (t =? q); reflexivity. }
        rewrite Y. destruct (Nat.eq_dec r q) as [->|]; [rewrite B, U1 by lia; reflexivity|]. rewrite X4, U2 by (unfold q in *; lia). reflexivity. }
  destruct (X i (Nat.le_refl _)) as (x & X1 & _ & _ & X4). assert (Y := Inj x (fun r Hr => X4 r ltac:(lia)) i Hi). congruence.
Qed.
Lemma forward_step s i : i < n -> injective n n M -> good s -> upper i (fst s) -> good (inv_forward n s i) /\ upper (S i) (fst (inv_forward n s i)).
Proof.
  intros Hi Inj G U. unfold inv_forward. cbn zeta. set (p := argmax (fun r => fst s r i) i n). destruct (argmax_ok (fun r => fst s r i) i n Hi) as [Hp Z]. fold p in Hp, Z.
  assert (P : fst s p i = true).
  { destruct (pivot_exists (fst s) i Hi U (good_injective s Inj G)) as (r & Hr & E). destruct (fst s p i) eqn:F; [reflexivity|]. rewrite Z in E by (auto; lia). discriminate. }
  assert (G1 := good_swap s i p Hi ltac:(lia) G). set (s1 := (swap_rows i p (fst s), swap_rows i p (snd s))) in *.
  destruct (inv_elim_fold i (range (i + 1) n) s1 Hi) as [A B]; [intros j Hj; apply range_In in Hj; lia|exact G1|]. split; [exact A|]. rewrite B. cbn [fst s1]. set (m1 := swap_rows i p (fst s)).
  assert (Gt : forall r c, fold_left (elim_row i i) (range (i + 1) n) m1 r c = if inb r (range (i + 1) n) && m1 r i then xorb (m1 r c) (m1 i c) else m1 r c) by (intros r c; apply elim_fold; [apply seq_NoDup|rewrite range_In; lia]).
  destruct U as [U1 U2]. assert (Q1 : m1 i i = true) by (unfold m1, swap_rows; rewrite Nat.eqb_refl; exact P).
  assert (Q2 : forall r t, t < i -> i <= r < n -> m1 r t = false) by (intros r t Ht Hr; unfold m1, swap_rows; apply U2; [exact Ht|]; destruct (r =? i); [lia|]; destruct (r =? p); lia).
  assert (Q3 : forall r c, r < i -> m1 r c = fst s r c) by (intros r c Hr; unfold m1, swap_rows; destruct (Nat.eqb_spec r i); [lia|]; destruct (Nat.eqb_spec r p); [lia|reflexivity]).
  assert (V : forall r c, r <= i -> fold_left (elim_row i i) (range (i + 1) n) m1 r c = m1 r c) by (intros r c Hr; rewrite Gt; destruct (inb r (range (i + 1) n)) eqn:E; [apply range_inb in E; lia|reflexivity]).
  split.
  - intros t Ht. rewrite V by lia. destruct (Nat.eq_dec t i) as [->|]; [exact Q1|]. rewrite Q3 by lia. apply U1. lia.
  - intros r t Ht Hr. destruct (Nat.le_gt_cases r i) as [H|H]; [rewrite V by lia; destruct (Nat.eq_dec r i) as [->|]; [apply Q2; lia|rewrite Q3 by lia; apply U2; lia]|]. rewrite Gt. replace (inb r (range (i + 1) n)) with true by (symmetry; apply range_inb; lia). cbn [andb].
    destruct (Nat.eq_dec t i) as [->|]; [rewrite Q1; destruct (m1 r i); reflexivity|]. rewrite (Q2 r t), (Q2 i t) by lia. destruct (m1 r i); reflexivity.
Qed.
Lemma forward_fold k : forall i s, i + k = n -> injective n n M -> good s -> upper i (fst s) -> let s' := fold_left (inv_forward n) (seq i k) s in good s' /\ upper n (fst s').
Proof.
  induction k as [|k IH]; intros i s Hk Inj G U; cbn [seq fold_left]; [replace n with i by lia; split; assumption|]. destruct (forward_step s i ltac:(lia) Inj G U) as [G' U']. apply IH; auto; lia.
Qed.
(** columns from i on are those of the identity *)
Lemma backward_step s i : i < n -> good s -> upper n (fst s) -> (forall r t, i < t < n -> r < t -> fst s r t = false) ->
  let s' := inv_backward s i in good s' /\ upper n (fst s') /\ forall r t, i <= t < n -> r < t -> fst s' r t = false.
Proof.
  intros Hi G [U1 U2] C. cbn zeta. unfold inv_backward. destruct (inv_elim_fold i (rev (seq 0 i)) s Hi) as [A B]; [intros j Hj; apply in_rev, in_seq in Hj; lia|exact G|]. split; [exact A|]. rewrite B. set (m := fst s) in *.
  assert (Gt : forall r c, fold_left (elim_row i i) (rev (seq 0 i)) m r c = if (r <? i) && m r i then xorb (m r c) (m i c) else m r c).
  { intros r c. rewrite elim_fold; [|apply NoDup_rev, seq_NoDup|rewrite <- in_rev, in_seq; lia]. replace (inb r (rev (seq 0 i))) with (r <? i); [reflexivity|]. destruct (Nat.ltb_spec r i); symmetry; [apply inb_In, in_rev; rewrite rev_involutive; apply in_seq; lia|].
    destruct (inb r (rev (seq 0 i))) eqn:E; [apply inb_In, in_rev, in_seq in E; lia|reflexivity]. }
  assert (Row : forall c, c < n -> m i c = (c =? i)).
  { intros c Hc. destruct (Nat.eqb_spec c i) as [->|N]; [apply U1, Hi|]. destruct (Nat.lt_ge_cases c i); [apply U2; lia|apply C; lia]. }
  split; [split|].
  - intros t Ht. rewrite Gt. destruct (Nat.ltb_spec t i) as [H|H]; [|apply U1, Ht]. rewrite (U1 t), (Row t) by exact Ht. destruct (Nat.eqb_spec t i); [lia|]. destruct (m t i); reflexivity.
  - intros r t Ht Hr. rewrite Gt. destruct (Nat.ltb_spec r i) as [H|H]; [|apply U2; assumption]. rewrite (Row t), (U2 r t) by lia. destruct (Nat.eqb_spec t i); [lia|]. destruct (m r i); reflexivity.
  - intros r t Ht Hr. rewrite Gt. rewrite Row by lia. destruct (Nat.eq_dec t i) as [->|].
    + replace (r <? i) with true by (symmetry; apply Nat.ltb_lt; exact Hr). rewrite Nat.eqb_refl. cbn [andb]. destruct (m r i); reflexivity.
    + rewrite (C r t) by lia. destruct (Nat.eqb_spec t i); [lia|]. destruct ((r <? i) && m r i); reflexivity.
Qed.
Lemma backward_fold : forall i s, i <= n -> good s -> upper n (fst s) -> (forall r t, i <= t < n -> r < t -> fst s r t = false) ->
  let s' := fold_left inv_backward (rev (seq 0 i)) s in good s' /\ upper n (fst s') /\ forall r t, t < n -> r < t -> fst s' r t = false.
Proof.
  induction i as [|i IH]; intros s Hi G U C; cbn zeta.
  - cbn [seq rev fold_left]. split; [exact G|]. split; [exact U|]. intros r t Ht. apply C. lia.
  - rewrite seq_S, rev_app_distr. cbn [rev app plus fold_left]. destruct (backward_step s i ltac:(lia) G U) as (G' & U' & C'); [intros r t Ht; apply C; lia|]. apply IH; auto; lia.
Qed.
Lemma inverse_injective : injective n n M -> is_inverse n M (inverse_mod2 n M).
Proof.
  intros Inj. unfold inverse_mod2. assert (G0 : good (M, eye)) by (split; [apply mmul_eye_l|exists eye; apply is_inverse_eye]).
  destruct (forward_fold n 0 (M, eye) eq_refl Inj G0) as [G1 U1]; [split; intros; lia|]. set (s1 := fold_left (inv_forward n) _ _) in *.
  destruct (backward_fold n s1 (Nat.le_refl _) G1 U1) as (G2 & [U2 L2] & C2); [intros; lia|]. set (s2 := fold_left inv_backward _ _) in *. destruct G2 as (E & R' & I1 & I2).
  assert (RM : eqm n n (mmul n (snd s2) M) eye).
  { intros i j Hi Hj. rewrite (E i j Hi Hj). unfold eye. destruct (Nat.eqb_spec i j) as [->|N]; [apply U2, Hj|]. destruct (Nat.lt_ge_cases i j); [apply C2; assumption|apply L2; lia]. }
  split; [|exact RM]. (* M = R' *)
  assert (X : eqm n n M R').
  { intros i j Hi Hj. rewrite <- (mmul_eye_l n n M i j Hi Hj). rewrite <- (mmul_eye_r n n R' i j Hi Hj). transitivity (mmul n (mmul n R' (snd s2)) M i j); [apply (mmul_ext n n n); try assumption; [apply eqm_sym; exact I2|apply eqm_refl]|].
    rewrite <- mmul_assoc. apply (mmul_ext n n n); try assumption. apply eqm_refl. }
  intros i j Hi Hj. rewrite <- (I2 i j Hi Hj). apply (mmul_ext n n n); try assumption. apply eqm_refl.
Qed.
End inverse.
Lemma inverse_ok n M B : is_inverse n M B -> is_inverse n M (inverse_mod2 n M).
Proof.
  intros [_ H]. apply inverse_injective. intros x K t Ht. assert (X : mv n (mmul n B M) x t = x t).
  { rewrite (mv_ext n n _ eye x x t H (fun _ _ => eq_refl) Ht). apply (xsum_delta n t x Ht). }
  rewrite <- X, mv_mmul. apply xsum_0. intros i Hi. rewrite K by exact Hi. apply andb_false_r.
Qed.
