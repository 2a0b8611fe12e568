From Verif.Commuting Require Import Gf2Model Gf2Spec Gf2Proofs BasisModel BasisSpec BasisProofs.

(** after the Hadamard gates the X component has full column rank *)
Section hadamards.
Variables (n k : nat) (S0 F0 : mat) (rows0 : list nat).
Let X0 : mat := fun i j => S0 (n + i) j.
Hypothesis Inj0 : injective (2 * n) k S0.
Hypothesis Iso0 : isotropic n k S0.
Hypothesis Q0 : requiv k n (flip X0) (flip F0).
Hypothesis E0 : echelon k n (flip F0) rows0.
Let hl := if length rows0 <? k then filter (fun i => negb (mem i rows0)) (seq 0 n) else [].
Let S1 := fold_left (fun m i => swap_rows i (n + i) m) hl S0.
Lemma hl_NoDup : NoDup hl. Proof. unfold hl. destruct (_ <? _); [apply NoDup_filter, seq_NoDup|constructor]. Qed.
Lemma hl_lt i : In i hl -> i < n. Proof. unfold hl. destruct (_ <? _); [|intros []]. intros H. apply filter_In in H. destruct H as [H _]. apply in_seq in H. lia. Qed.
Lemma S1_z q c : q < n -> S1 q c = if mem q hl then S0 (n + q) c else S0 q c. Proof. intros H. apply (hfold n hl hl_NoDup hl_lt S0 q c H). Qed.
Lemma S1_x q c : q < n -> S1 (n + q) c = if mem q hl then S0 q c else S0 (n + q) c. Proof. intros H. apply (hfold n hl hl_NoDup hl_lt S0 q c H). Qed.
Lemma S1_isotropic : isotropic n k S1.
Proof.
  intros a b Ha Hb. rewrite <- (Iso0 a b Ha Hb). apply xsum_ext. intros q Hq. rewrite (S1_z q a), (S1_z q b), (S1_x q a), (S1_x q b) by exact Hq. destruct (mem q hl); [apply xorb_comm|reflexivity].
Qed.
Lemma X1_injective : injective n k (fun i j => S1 (n + i) j).
Proof.
  intros y K. destruct (Nat.lt_ge_cases (length rows0) k) as [Lt|Ge].
  2:{ assert (Hl : hl = []) by (unfold hl; destruct (Nat.ltb_spec (length rows0) k); [lia|reflexivity]). assert (Pk := p_le n k F0 rows0 E0).
      apply (pivots_injective_col n k X0 F0 rows0 Q0 E0); [lia|]. intros q Hq. rewrite <- (K q Hq). apply xsum_ext. intros u _. rewrite S1_x by exact Hq. rewrite Hl. reflexivity. }
  assert (Hl : forall q, q < n -> mem q hl = negb (mem q rows0)).
  { intros q Hq. unfold hl. destruct (Nat.ltb_spec (length rows0) k); [|lia]. destruct (mem q rows0) eqn:M; cbn [negb].
    - apply mem_false. intros C. apply filter_In in C. destruct C as [_ C]. rewrite M in C. discriminate.
    - apply mem_In, filter_In. split; [apply in_seq; lia|rewrite M; reflexivity]. }
  assert (RL := row_lt n k F0 rows0 E0).
  assert (XY : forall q, q < n -> mv k X0 y q = false).
  { apply (col_vanish n k X0 F0 rows0 Q0 E0). intros i Hi. assert (Hq := RL i Hi). rewrite <- (K _ Hq). apply xsum_ext. intros u _. rewrite S1_x by exact Hq. rewrite Hl by exact Hq.
    replace (mem (nth i rows0 0) rows0) with true by (symmetry; apply mem_In, nth_In, Hi). reflexivity. }
  assert (ZN : forall q, q < n -> ~ In q rows0 -> mv k S0 y q = false).
  { intros q Hq Nq. rewrite <- (K q Hq). apply xsum_ext. intros u _. rewrite S1_x, Hl by exact Hq. replace (mem q rows0) with false by (symmetry; apply mem_false; exact Nq). reflexivity. }
  assert (ZI : forall i, i < length rows0 -> mv k S0 y (nth i rows0 0) = false).
  { apply (rows_independent n k X0 F0 rows0 Q0 E0 (fun i => mv k S0 y (nth i rows0 0))). intros c Hc.
    rewrite <- (lxsum_nth rows0 (fun q => mv k S0 y q && X0 q c)). rewrite <- (xsum_support n); [|exact (ir_NoDup n k F0 rows0 E0)| |].
    - (* isotropy *) transitivity (xsum k (fun a => y a && symplectic n S0 a c)); [|apply xsum_0; intros a Ha; rewrite Iso0 by assumption; apply andb_false_r].
      transitivity (xsum n (fun q => xorb (mv k S0 y q && S0 (n + q) c) (mv k X0 y q && S0 q c))); [apply xsum_ext; intros q Hq; rewrite XY by exact Hq; unfold X0; rewrite andb_false_l, xorb_false_r; reflexivity|].
      transitivity (xsum n (fun q => xsum k (fun a => y a && xorb (S0 q a && S0 (n + q) c) (S0 (n + q) a && S0 q c)))).
      + apply xsum_ext. intros q _. unfold mv, X0. rewrite <- !xsum_and_r, <- xsum_xor. apply xsum_ext. intros a _. destruct (S0 q a), (y a), (S0 (n + q) c), (S0 (n + q) a), (S0 q c); reflexivity.
      + rewrite xsum_swap. apply xsum_ext. intros a _. apply xsum_and.
    - intros q Hq. apply (In_nth _ _ 0) in Hq. destruct Hq as (i & Hi & <-). apply RL, Hi.
    - intros q Hq Nq. rewrite ZN by assumption. reflexivity. }
  apply Inj0. intros r Hr. destruct (Nat.lt_ge_cases r n) as [H|H].
  - destruct (in_dec Nat.eq_dec r rows0) as [I|I]; [|apply ZN; assumption]. apply (In_nth _ _ 0) in I. destruct I as (i & Hi & <-). apply ZI, Hi.
  - rewrite <- (XY (r - n)) by lia. unfold mv, X0. replace (n + (r - n)) with r by lia. reflexivity.
Qed.
End hadamards.

Lemma inverse_mod2_ok n M : injective n n M -> eqm n n (mmul n M (inverse_mod2 n M)) eye /\ eqm n n (mmul n (inverse_mod2 n M) M) eye.
Proof. apply inverse_injective. Qed.

(** from a matrix with full-rank X component to the graph *)
Section graph.
Variables (n k : nat) (S1 F1 : mat) (rows1 : list nat).
Let X1 : mat := fun i j => S1 (n + i) j.
Hypothesis Inj1 : injective n k X1.
Hypothesis Iso1 : isotropic n k S1.
Hypothesis Q1 : requiv k n (flip X1) (flip F1).
Hypothesis E1 : echelon k n (flip F1) rows1.
Let pm := fold_left perm_step (enumerate rows1) (seq 0 n).
Let S1' : mat := fun i j => if i <? n then S1 (nth i pm 0) j else S1 (n + nth (i - n) pm 0) j.
Let R1_inv : mat := fun i j => S1' (n + i) j.
Let S2 := matmul k S1' (inverse_mod2 k R1_inv).
Let S3 := if k <? n then extended n k S2 else S2.
Let R2_inv : mat := if k <? n then (fun i j => if i <? k then eye i j else false) else eye.
Let R3_inv : mat := fun i j => S3 (n + i) j.
Let S4 := matmul n S3 (inverse_mod2 n R3_inv).
Lemma k_pivots : length rows1 = k. Proof. exact (injective_pivots n k X1 F1 rows1 Q1 E1 Inj1). Qed.
Lemma pm_ok : is_perm n pm /\ forall j, j < k -> nth j pm 0 = nth j rows1 0.
Proof.
  assert (X := perm_ok n rows1). rewrite k_pivots in X. apply X; rewrite <- k_pivots; apply E1.
Qed.
Lemma k_le : k <= n.
Proof.
  destruct pm_ok as [(L & B & I) P]. destruct (Nat.le_gt_cases k n) as [H|H]; [exact H|]. exfalso.
  assert (ND := ir_NoDup n k F1 rows1 E1). assert (Inc : incl rows1 (seq 0 n)).
  { intros x Hx. apply (In_nth _ _ 0) in Hx. destruct Hx as (i & Hi & <-). apply in_seq. assert (Y := row_lt n k F1 rows1 E1 i Hi). lia. }
  assert (X := NoDup_incl_length ND Inc). rewrite seq_length, k_pivots in X. lia.
Qed.
Lemma S1'_z i j : i < n -> S1' i j = S1 (nth i pm 0) j. Proof. intros H. unfold S1'. destruct (Nat.ltb_spec i n); [reflexivity|lia]. Qed.
Lemma S1'_x i j : i < n -> S1' (n + i) j = S1 (n + nth i pm 0) j. Proof. intros H. unfold S1'. destruct (Nat.ltb_spec (n + i) n); [lia|]. rewrite (Nat.add_comm n i), Nat.add_sub. reflexivity. Qed.
Lemma S1'_isotropic : isotropic n k S1'.
Proof.
  intros a b Ha Hb. rewrite <- (Iso1 a b Ha Hb). unfold symplectic. rewrite <- (xsum_perm n pm (fun q => xorb (S1 q a && S1 (n + q) b) (S1 (n + q) a && S1 q b)) (proj1 pm_ok)). apply xsum_ext. intros q Hq. rewrite (S1'_z q a), (S1'_z q b), (S1'_x q a), (S1'_x q b) by exact Hq. reflexivity.
Qed.
Lemma R1_injective : injective k k R1_inv.
Proof.
  intros y K. apply Inj1. assert (Kn := k_le). intros q Hq. apply (col_vanish n k X1 F1 rows1 Q1 E1 y); [|exact Hq]. clear q Hq. rewrite k_pivots. intros i Hi. rewrite <- (K i Hi). apply xsum_ext. intros u _. unfold R1_inv. rewrite S1'_x by lia. rewrite (proj2 pm_ok) by exact Hi. reflexivity.
Qed.
Lemma S2_eq i j : S2 i j = mmul k S1' (inverse_mod2 k R1_inv) i j. Proof. apply matmul_eq. Qed.
Lemma S2_isotropic : isotropic n k S2.
Proof. apply (isotropic_ext n k (mmul k S1' (inverse_mod2 k R1_inv))); [intros i j _ _; symmetry; apply S2_eq|]. apply isotropic_mmul, S1'_isotropic. Qed.
Lemma S2_x i j : i < k -> j < k -> S2 (n + i) j = eye i j.
Proof. intros Hi Hj. rewrite S2_eq. exact (proj1 (inverse_mod2_ok k R1_inv R1_injective) i j Hi Hj). Qed.
Lemma S2_R1 : eqm (2 * n) k (mmul k S2 R1_inv) S1'.
Proof.
  intros i j Hi Hj. transitivity (mmul k (mmul k S1' (inverse_mod2 k R1_inv)) R1_inv i j); [apply xsum_ext; intros t _; rewrite S2_eq; reflexivity|].
  rewrite <- mmul_assoc. rewrite <- (mmul_eye_r k (2 * n) S1' i j Hi Hj). apply (mmul_ext (2 * n) k k); try assumption; [apply eqm_refl|]. apply (inverse_mod2_ok k R1_inv R1_injective).
Qed.
Lemma S3_left i j : i < 2 * n -> j < k -> S3 i j = S2 i j.
Proof.
  intros Hi Hj. unfold S3. destruct (Nat.ltb_spec k n) as [Kn|Kn]; [|reflexivity]. unfold extended. replace (j <? k) with true by (symmetry; apply Nat.ltb_lt; exact Hj).
  destruct (i <? k); [reflexivity|]. destruct (Nat.ltb_spec i n); [reflexivity|]. destruct (Nat.ltb_spec i (n + k)); [|reflexivity]. rewrite <- S2_x by lia. f_equal. lia.
Qed.
Lemma S3_R2 : eqm (2 * n) k (mmul n S3 R2_inv) S2.
Proof.
  intros i j Hi Hj. assert (Kn := k_le). rewrite <- S3_left by assumption. rewrite <- (xsum_delta_r n j (fun t => S3 i t)) by lia. apply xsum_ext. intros t Ht. f_equal. unfold R2_inv. destruct (k <? n); [|reflexivity]. unfold eye.
  destruct (Nat.ltb_spec t k); [reflexivity|]. destruct (Nat.eqb_spec t j); [lia|reflexivity].
Qed.
(** the entries of the additional columns *)
Lemma S3_right i j : k < n -> k <= j < n -> i < 2 * n -> S3 i j = if i <? k then S2 j i else if i <? n + k then false else (i - n =? j).
Proof.
  intros Kn Hj Hi. unfold S3. destruct (Nat.ltb_spec k n); [|lia]. unfold extended. replace (j <? k) with false by (symmetry; apply Nat.ltb_ge; lia). destruct (Nat.ltb_spec i k); [reflexivity|].
  destruct (Nat.ltb_spec i n); [destruct (Nat.ltb_spec i (n + k)); [reflexivity|lia]|]. destruct (Nat.ltb_spec i (n + k)); [reflexivity|]. unfold eye. destruct (Nat.eqb_spec (i - (n + k)) (j - k)), (Nat.eqb_spec (i - n) j); try reflexivity; lia.
Qed.
Lemma S3_isotropic : isotropic n n S3.
Proof.
  assert (Sym : forall S a b, symplectic n S a b = symplectic n S b a).
  { intros S a b. apply xsum_ext. intros q _. rewrite xorb_comm. f_equal; apply andb_comm. }
  assert (Kn := k_le). assert (Mixed : forall a b, a < k -> k <= b < n -> symplectic n S3 a b = false).
  { intros a b Ha Hb. unfold symplectic. transitivity (xsum n (fun q => xorb ((b =? q) && S2 q a) ((a =? q) && S2 b q))).
    - apply xsum_ext. intros q Hq. rewrite !(S3_left _ a) by lia. rewrite !(S3_right _ b) by lia. destruct (Nat.ltb_spec (n + q) k); [lia|]. destruct (Nat.ltb_spec q k) as [Hk|Hk].
      + destruct (Nat.ltb_spec (n + q) (n + k)); [|lia]. rewrite S2_x by assumption. unfold eye. destruct (Nat.eqb_spec b q); [lia|]. rewrite andb_false_r. cbn [andb xorb]. rewrite (Nat.eqb_sym a q). reflexivity.
      + destruct (Nat.ltb_spec (n + q) (n + k)); [lia|]. destruct (Nat.ltb_spec q (n + k)); [|lia]. destruct (Nat.eqb_spec a q); [lia|]. replace (n + q - n) with q by lia. rewrite (Nat.eqb_sym q b). destruct (b =? q), (S2 q a), (S2 (n + q) a); reflexivity.
    - rewrite xsum_xor, !xsum_delta by lia. apply xorb_nilpotent. }
  intros a b Ha Hb. destruct (Nat.lt_ge_cases a k) as [La|La], (Nat.lt_ge_cases b k) as [Lb|Lb].
  - rewrite <- (S2_isotropic a b La Lb). apply xsum_ext. intros q Hq. rewrite !S3_left by lia. reflexivity.
  - apply Mixed; lia.
  - rewrite Sym. apply Mixed; lia.
  - apply xsum_0. intros q Hq. rewrite !S3_right by lia. destruct (Nat.ltb_spec (n + q) k); [lia|]. destruct (Nat.ltb_spec q k).
    + destruct (Nat.ltb_spec (n + q) (n + k)); [|lia]. rewrite !andb_false_r. reflexivity.
    + destruct (Nat.ltb_spec q (n + k)); [|lia]. rewrite andb_false_r. reflexivity.
Qed.
Lemma R3_injective : injective n n R3_inv.
Proof.
  assert (Kn := k_le). intros y K.
  assert (A : forall t, t < k -> y t = false).
  { intros t Ht. rewrite <- (K t) by lia. unfold mv, R3_inv. symmetry. rewrite (xsum_ext n _ (fun u => (t =? u) && y u)); [apply xsum_delta; lia|]. intros u Hu. f_equal. destruct (Nat.lt_ge_cases u k) as [Lu|Lu].
    - rewrite S3_left, S2_x by lia. reflexivity.
    - rewrite S3_right by lia. destruct (Nat.ltb_spec (n + t) k); [lia|]. destruct (Nat.ltb_spec (n + t) (n + k)); [|lia]. destruct (Nat.eqb_spec t u); [lia|reflexivity]. }
  intros t Ht. destruct (Nat.lt_ge_cases t k) as [Lt|Lt]; [apply A, Lt|]. rewrite <- (K t Ht). unfold mv, R3_inv. symmetry. rewrite (xsum_ext n _ (fun u => (t =? u) && y u)); [apply xsum_delta, Ht|]. intros u Hu.
  destruct (Nat.lt_ge_cases u k) as [Lu|Lu]; [rewrite A by exact Lu; rewrite !andb_false_r; reflexivity|]. f_equal. rewrite S3_right by lia. destruct (Nat.ltb_spec (n + t) k); [lia|]. destruct (Nat.ltb_spec (n + t) (n + k)); [lia|].
  replace (n + t - n) with t by lia. reflexivity.
Qed.
Lemma S4_eq i j : S4 i j = mmul n S3 (inverse_mod2 n R3_inv) i j. Proof. apply matmul_eq. Qed.
Lemma S4_x i j : i < n -> j < n -> S4 (n + i) j = eye i j. Proof. intros Hi Hj. rewrite S4_eq. exact (proj1 (inverse_mod2_ok n R3_inv R3_injective) i j Hi Hj). Qed.
Lemma S4_R3 : eqm (2 * n) n (mmul n S4 R3_inv) S3.
Proof.
  intros i j Hi Hj. transitivity (mmul n (mmul n S3 (inverse_mod2 n R3_inv)) R3_inv i j); [apply xsum_ext; intros t _; rewrite S4_eq; reflexivity|].
  rewrite <- mmul_assoc. rewrite <- (mmul_eye_r n (2 * n) S3 i j Hi Hj). apply (mmul_ext (2 * n) n n); try assumption; [apply eqm_refl|]. apply (inverse_mod2_ok n R3_inv R3_injective).
Qed.
Lemma S4_symmetric a b : a < n -> b < n -> S4 a b = S4 b a.
Proof.
  intros Ha Hb. assert (Iso : isotropic n n S4).
  { apply (isotropic_ext n n (mmul n S3 (inverse_mod2 n R3_inv))); [intros i j _ _; symmetry; apply S4_eq|]. apply isotropic_mmul, S3_isotropic. }
  specialize (Iso a b Ha Hb). unfold symplectic in Iso. rewrite (xsum_ext n _ (fun q => xorb (S4 q a && (q =? b)) ((a =? q) && S4 q b))) in Iso.
  - rewrite xsum_xor, (xsum_delta_r n b (fun q => S4 q a)), (xsum_delta n a (fun q => S4 q b)) in Iso by assumption. apply xorb_eq in Iso. symmetry. exact Iso.
  - intros q Hq. rewrite !S4_x by assumption. unfold eye. rewrite (Nat.eqb_sym q a). reflexivity.
Qed.
Lemma S4_chain : eqm (2 * n) k (mmul n S4 (mmul k (mmul n R3_inv R2_inv) R1_inv)) S1'.
Proof.
  intros i j Hi Hj. assert (Kn := k_le). rewrite mmul_assoc. rewrite <- (S2_R1 i j Hi Hj). apply (mmul_ext (2 * n) k k); try assumption; [|apply eqm_refl].
  intros a b Ha Hb. rewrite mmul_assoc. rewrite <- (S3_R2 a b Ha Hb). apply (mmul_ext (2 * n) n k); try assumption; [|apply eqm_refl]. apply S4_R3.
Qed.
Variables (t : nat) (Sr : mat) (hl : list nat).
Let A := matmul (2 * n) (q2 n S4) S4.
Let Rinv := matmul k (matmul k (matmul n R3_inv R2_inv) R1_inv) Sr.
Let sl := filter (fun i => S4 i i) (seq 0 n).
Lemma A_eq i j : i < n -> j < n -> A i j = xorb (S4 i j) (S4 i i && (i =? j)).
Proof.
  intros Hi Hj. unfold A. rewrite matmul_eq. unfold mmul. assert (X : forall m f, xsum (n + m) f = xorb (xsum n f) (xsum m (fun u => f (n + u)))).
  { induction m as [|m IH]; intros f; [rewrite Nat.add_0_r; cbn; destruct (xsum n f); reflexivity|]. rewrite Nat.add_succ_r. cbn [xsum]. rewrite IH. apply xorb_assoc. }
  replace (2 * n) with (n + n) by lia. rewrite X. unfold q2. replace (i <? n) with true by (symmetry; apply Nat.ltb_lt; exact Hi). f_equal.
  - rewrite <- (xsum_delta n i (fun u => S4 u j)) by exact Hi. apply xsum_ext. intros u Hu. replace (u <? n) with true by (symmetry; apply Nat.ltb_lt; exact Hu). reflexivity.
  - rewrite (xsum_ext n _ (fun u => (i =? u) && (S4 i u && (u =? j)))); [apply (xsum_delta n i (fun u => S4 i u && (u =? j))), Hi|]. intros u Hu. destruct (Nat.ltb_spec (n + u) n); [lia|]. replace (n + u - n) with u by lia. rewrite (S4_x u j) by assumption. unfold eye. destruct (i =? u), (S4 i u), (u =? j); reflexivity.
Qed.
Lemma Rinv_eq i c : Rinv i c = mmul k (mmul k (mmul n R3_inv R2_inv) R1_inv) Sr i c.
Proof. unfold Rinv. rewrite matmul_eq. apply xsum_ext. intros u _. rewrite matmul_eq. f_equal. apply xsum_ext. intros v _. rewrite matmul_eq. reflexivity. Qed.
Lemma full r c : r < 2 * n -> c < t -> xsum n (fun j => S4 r j && Rinv j c) = xsum k (fun u => S1' r u && Sr u c).
Proof.
  intros Hr Hc. transitivity (mmul n S4 (mmul k (mmul k (mmul n R3_inv R2_inv) R1_inv) Sr) r c); [apply xsum_ext; intros j _; rewrite Rinv_eq; reflexivity|]. rewrite mmul_assoc. apply xsum_ext. intros u Hu. rewrite S4_chain by assumption. reflexivity.
Qed.
Lemma full_z i c : i < n -> c < t -> xsum n (fun j => S4 i j && Rinv j c) = xsum k (fun u => S1 (nth i pm 0) u && Sr u c).
Proof. intros Hi Hc. rewrite full by lia. apply xsum_ext. intros u _. rewrite S1'_z by exact Hi. reflexivity. Qed.
Lemma full_x i c : i < n -> c < t -> Rinv i c = xsum k (fun u => S1 (n + nth i pm 0) u && Sr u c).
Proof.
  intros Hi Hc. transitivity (xsum n (fun j => S4 (n + i) j && Rinv j c)).
  - rewrite (xsum_ext n _ (fun j => (i =? j) && Rinv j c)) by (intros j Hj; rewrite S4_x by assumption; reflexivity). symmetry. apply (xsum_delta n i (fun j => Rinv j c) Hi).
  - rewrite full by lia. apply xsum_ext. intros u _. rewrite S1'_x by exact Hi. reflexivity.
Qed.
Lemma graph_ok : let B := graph_basis n k Sr S1 hl rows1 in
  is_perm n (perm B) /\ h_list B = hl /\ NoDup (s_list B) /\ (forall i, In i (s_list B) -> i < n) /\
  (forall i j, i < n -> j < n -> adj B i j = adj B j i) /\ (forall i, i < n -> adj B i i = false) /\
  (forall i c, i < n -> c < t -> r_inv B i c = xsum k (fun u => S1 (n + nth i (perm B) 0) u && Sr u c)) /\
  (forall i c, i < n -> c < t -> xsum n (fun j => adj B i j && r_inv B j c) = xorb (xsum k (fun u => S1 (nth i (perm B) 0) u && Sr u c)) (mem i (s_list B) && r_inv B i c)).
Proof.
  cbn zeta. set (B := graph_basis n k Sr S1 hl rows1). change (perm B) with pm. change (h_list B) with hl. change (s_list B) with sl. change (adj B) with A. change (r_inv B) with Rinv.
  split; [apply pm_ok|]. split; [reflexivity|]. split; [apply NoDup_filter, seq_NoDup|]. split; [intros i H; apply filter_In in H; destruct H as [H _]; apply in_seq in H; lia|].
  split; [intros i j Hi Hj; rewrite !A_eq by assumption; rewrite (S4_symmetric i j) by assumption; destruct (Nat.eqb_spec i j) as [->|N]; [rewrite Nat.eqb_refl; reflexivity|]; destruct (Nat.eqb_spec j i); [congruence|]; rewrite !andb_false_r; reflexivity|].
  split; [intros i Hi; rewrite A_eq by assumption; rewrite Nat.eqb_refl, andb_true_r; apply xorb_nilpotent|]. split; [exact full_x|].
  intros i c Hi Hc. rewrite <- full_z by assumption. transitivity (xsum n (fun j => xorb (S4 i j && Rinv j c) ((i =? j) && (S4 i i && Rinv j c)))).
  - apply xsum_ext. intros j Hj. rewrite A_eq by assumption. destruct (S4 i j), (S4 i i), (i =? j), (Rinv j c); reflexivity.
  - rewrite xsum_xor, (xsum_delta n i (fun j => S4 i i && Rinv j c)) by exact Hi. f_equal. f_equal. unfold sl. destruct (S4 i i) eqn:D; symmetry.
    + apply mem_In, filter_In. split; [apply in_seq; lia|exact D].
    + apply mem_false. intros C. apply filter_In in C. destruct C as [_ C]. congruence.
Qed.
End graph.

(** ** the result *)
Theorem construct_ok n t S : isotropic n t S -> let B := construct_change_of_basis n t S in
  is_perm n (perm B) /\ NoDup (h_list B) /\ (forall i, In i (h_list B) -> i < n) /\ NoDup (s_list B) /\ (forall i, In i (s_list B) -> i < n) /\
  (forall i j, i < n -> j < n -> adj B i j = adj B j i) /\ (forall i, i < n -> adj B i i = false) /\
  (forall i c, i < n -> c < t -> r_inv B i c = x_after n (h_list B) S (nth i (perm B) 0) c) /\
  (forall i c, i < n -> c < t -> xsum n (fun j => adj B i j && r_inv B j c) = xorb (z_after n (h_list B) S (nth i (perm B) 0) c) (mem i (s_list B) && r_inv B i c)).
Proof.
  intros Iso. destruct (gauss_row (2 * n) t true S) as [Sr ic] eqn:D0.
  destruct (gauss_col n (length ic) false (fun i j => S (n + i) (nth j ic 0))) as [F0 rows0] eqn:D1.
  destruct (gauss_col n (length ic) false (fun i j => fold_left (fun m i => swap_rows i (n + i) m) (if length rows0 <? length ic then filter (fun i => negb (mem i rows0)) (seq 0 n) else []) (fun i j => S i (nth j ic 0)) (n + i) j)) as [F1 rows1] eqn:D2.
  assert (EB : construct_change_of_basis n t S = graph_basis n (length ic) Sr (fold_left (fun m i => swap_rows i (n + i) m) (if length rows0 <? length ic then filter (fun i => negb (mem i rows0)) (seq 0 n) else []) (fun i j => S i (nth j ic 0))) (if length rows0 <? length ic then filter (fun i => negb (mem i rows0)) (seq 0 n) else []) rows1).
  { unfold construct_change_of_basis, gaussian_elimination_mod2. rewrite D0. cbv beta iota zeta. rewrite D1. cbv beta iota zeta. rewrite D2. reflexivity. }
  rewrite EB. clear EB. assert (G := gauss_row_ok (2 * n) t true S). rewrite D0 in G. destruct G as (Q & E & Rd). specialize (Rd eq_refl).
  assert (G0 := gauss_col_ok n (length ic) false (fun i j => S (n + i) (nth j ic 0))). rewrite D1 in G0. destruct G0 as (Q0 & E0 & _).
  match type of D2 with gauss_col _ _ _ ?x = _ => assert (G1 := gauss_col_ok n (length ic) false x) end. rewrite D2 in G1. destruct G1 as (Q1 & E1 & _). clear D0 D1 D2.
  set (k := length ic) in *. set (S0 := fun i j => S i (nth j ic 0)) in *. set (hl := if length rows0 <? k then filter (fun i => negb (mem i rows0)) (seq 0 n) else []) in *. set (S1 := fold_left (fun m i => swap_rows i (n + i) m) hl S0) in *.
  assert (Inj0 := pivots_injective (2 * n) t S Sr ic Q E Rd). fold k S0 in Inj0.
  assert (Iso0 : isotropic n k S0) by (intros a b Ha Hb; apply Iso; apply E; assumption).
  assert (Inj1 := X1_injective n k S0 F0 rows0 Inj0 Iso0 Q0 E0). fold hl S1 in Inj1.
  assert (Iso1 := S1_isotropic n k S0 rows0 Iso0). fold hl S1 in Iso1.
  assert (Comb := rref_combination (2 * n) t S Sr ic Q E Rd). fold k in Comb.
  assert (Hz := S1_z n k S0 rows0). fold hl S1 in Hz. assert (Hx := S1_x n k S0 rows0). fold hl S1 in Hx.
  destruct (graph_ok n k S1 F1 rows1 Inj1 Iso1 Q1 E1 t Sr hl) as (P & Hh & Ns & Bs & Sy & Dg & X & Zz). cbn zeta. set (B := graph_basis n k Sr S1 hl rows1) in *. rewrite Hh.
  split; [exact P|]. split; [eapply hl_NoDup; eassumption|]. split; [eapply hl_lt; eassumption|]. split; [exact Ns|]. split; [exact Bs|]. split; [exact Sy|]. split; [exact Dg|].
  split; intros i c Hi Hc; assert (Hp : nth i (perm B) 0 < n) by (apply P, Hi).
  - rewrite X by assumption. unfold x_after.
    rewrite (xsum_ext k _ (fun u => (if mem (nth i (perm B) 0) hl then S0 (nth i (perm B) 0) u else S0 (n + nth i (perm B) 0) u) && Sr u c)) by (intros u _; rewrite Hx by exact Hp; reflexivity).
    destruct (mem (nth i (perm B) 0) hl); symmetry; apply Comb; lia.
  - rewrite Zz by assumption. f_equal. unfold z_after.
    rewrite (xsum_ext k _ (fun u => (if mem (nth i (perm B) 0) hl then S0 (n + nth i (perm B) 0) u else S0 (nth i (perm B) 0) u) && Sr u c)) by (intros u _; rewrite Hz by exact Hp; reflexivity).
    destruct (mem (nth i (perm B) 0) hl); symmetry; apply Comb; lia.
Qed.
