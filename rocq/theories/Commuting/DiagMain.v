(** The theorems about change_of_basis with method="commuting". *)
From Coq Require Import Permutation Ring.
From Verif.Operators Require Import PauliProofs CommuteProofs OpProofs.
From Verif.Commuting Require Import Gf2Proofs BasisProofs BasisMain DiagSpec PauliAct DiagProofs.
Local Open Scope nat_scope.
Add Ring gaussianF : gring.

(** ** commuting terms are isotropic columns *)
Definition anti (f g : factor) : bool := xorb (zbit f && xbit g) (xbit f && zbit g).
Lemma pauli_loop_anti a b : pauli a -> pauli b -> forall keys s, s = 1%Z \/ s = (-1)%Z ->
  commute_pauli_loop a b keys s = (s =? (if lx keys (fun k => anti (get a k) (get b k)) then -1 else 1))%Z.
Proof.
  intros Pa Pb. induction keys as [|k keys IH]; intros s Hs; [reflexivity|]. cbn [commute_pauli_loop lx]. specialize (Pa k). specialize (Pb k).
  assert (Hm : (- s = 1 \/ - s = -1)%Z) by lia. set (w := lx keys (fun k => anti (get a k) (get b k))) in *.
  clearbody w. clear Hm. destruct Hs as [-> | ->]; destruct (get a k), (get b k); try discriminate; cbn; unfold geqb, gneg, gi, g1; cbn; rewrite IH by (auto; fail); destruct w; reflexivity.
Qed.
Lemma commuting_anti n a b : pauli a -> pauli b -> within n a -> within n b -> commuting n a b -> xsum n (fun q => anti (get a q) (get b q)) = false.
Proof.
  intros Pa Pb Wa Wb C. set (ord := fun a b : term => nodup Nat.eq_dec (dom a ++ dom b)).
  assert (En : enumerates ord) by (intros x y; unfold ord; split; [apply NoDup_nodup|]; intros k; rewrite nodup_In, in_app_iff; reflexivity).
  apply (commute_pauli_ok n ord a b En Wa Wb) in C; [|intros k; split; [apply Pa|apply Pb]]. unfold commute_pauli in C. rewrite (pauli_loop_anti a b Pa Pb) in C by (left; reflexivity).
  destruct (En a b) as [Nd Ek]. rewrite (xsum_support n (ord a b)).
  - rewrite <- lx_lxsum. destruct (lx _ _); [discriminate|reflexivity].
  - exact Nd.
  - intros i Hi. apply Ek in Hi. destruct Hi as [Hi|Hi]; [apply Wa|apply Wb]; exact Hi.
  - intros q _ Nq. rewrite (get_out a q) by (intros H; apply Nq, Ek; left; exact H). rewrite (get_out b q) by (intros H; apply Nq, Ek; right; exact H). reflexivity.
Qed.
Lemma forallb_ex (f : nat -> bool) l : forallb (fun c => negb (f c)) l = false <-> exists c, In c l /\ f c = true.
Proof.
  induction l as [|a l IH]; cbn; [split; [discriminate|intros (c & [] & _)]|]. rewrite andb_false_iff, negb_false_iff, IH. split.
  - intros [H|(c & Hc & H)]; [exists a; auto|exists c; auto].
  - intros (c & [->|Hc] & H); [left; exact H|right; exists c; auto].
Qed.
Lemma qb_In n ts q : In q (qb_indices n ts) <-> q < n /\ exists c, c < length ts /\ (x_matrix ts q c = true \/ z_matrix ts q c = true).
Proof.
  unfold qb_indices. rewrite filter_In, in_seq, negb_true_iff, andb_false_iff, !forallb_ex. split.
  - intros [H E]. split; [lia|]. destruct E as [(c & Hc & E)|(c & Hc & E)]; apply in_seq in Hc; exists c; (split; [lia|auto]).
  - intros [H (c & Hc & E)]. split; [lia|]. destruct E as [E|E]; [left|right]; exists c; (split; [apply in_seq; lia|exact E]).
Qed.
Lemma qb_off n ts q c : c < length ts -> within n (nth c ts []) -> ~ In q (qb_indices n ts) -> xbit (get (nth c ts []) q) = false /\ zbit (get (nth c ts []) q) = false.
Proof.
  intros Hc W N. destruct (Nat.lt_ge_cases q n) as [Hq|Hq].
  - split; apply not_true_iff_false; intros E; apply N, qb_In; (split; [exact Hq|]); exists c; auto.
  - rewrite get_out by (intros H; apply W in H; lia). auto.
Qed.
Lemma stacked_isotropic n ts : commuting_family n ts -> isotropic (length (qb_indices n ts)) (length ts) (stacked (qb_indices n ts) ts).
Proof.
  intros [F C] a b Ha Hb. set (qb := qb_indices n ts). unfold symplectic. set (ta := nth a ts []). set (tb := nth b ts []).
  assert (Ia : In ta ts) by (apply nth_In, Ha). assert (Ib : In tb ts) by (apply nth_In, Hb). destruct (F ta Ia) as [Pa Wa]. destruct (F tb Ib) as [Pb Wb].
  rewrite (xsum_ext _ _ (fun i => anti (get ta (nth i qb 0)) (get tb (nth i qb 0)))).
  - rewrite <- (lxsum_nth qb (fun q => anti (get ta q) (get tb q))). rewrite <- (xsum_support n).
    + apply commuting_anti; auto.
    + apply NoDup_filter, seq_NoDup.
    + intros i Hi. apply qb_In in Hi. apply Hi.
    + intros q _ Nq. destruct (qb_off n ts q a Ha Wa Nq) as [X Z]. assert (X2 : xbit (get ta q) = false) by exact X. assert (Z2 : zbit (get ta q) = false) by exact Z. unfold anti. rewrite X2, Z2. reflexivity.
  - intros i Hi. unfold stacked. fold qb. destruct (Nat.ltb_spec i (length qb)); [|lia]. destruct (Nat.ltb_spec (length qb + i) (length qb)); [lia|].
    replace (length qb + i - length qb) with i by lia. reflexivity.
Qed.

(** ** signs *)
Lemma sym_sum m (M : mat) : (forall i j, i < m -> j < m -> M i j = M j i) -> (forall i, i < m -> M i i = false) -> xsum m (fun i => xsum m (fun j => M i j)) = false.
Proof.
  intros Sy D. rewrite (xsum_ext m _ (fun i => xorb (xsum m (fun j => (j <? i) && M i j)) (xsum m (fun j => (i <? j) && M i j)))).
  - rewrite xsum_xor. rewrite (xsum_swap m m (fun i j => (i <? j) && M i j)). rewrite (xsum_ext m (fun j => xsum m (fun i => (i <? j) && M i j)) (fun i => xsum m (fun j => (j <? i) && M i j))); [apply xorb_nilpotent|].
    intros i Hi. apply xsum_ext. intros j Hj. rewrite (Sy i j) by assumption. reflexivity.
  - intros i Hi. rewrite <- xsum_xor. apply xsum_ext. intros j Hj. destruct (Nat.ltb_spec j i), (Nat.ltb_spec i j); try lia; cbn [andb]; [symmetry; apply xorb_false_r|symmetry; apply xorb_false_l|].
    assert (i = j) by lia. subst. rewrite D by exact Hj. reflexivity.
Qed.
Lemma filter_odd {A} (b : A -> bool) l : Nat.odd (length (filter b l)) = lx l b.
Proof. induction l as [|a l IH]; [reflexivity|]. cbn [filter lx]. destruct (b a); [|rewrite IH; symmetry; apply xorb_false_l]. cbn [length]. rewrite Nat.odd_succ, <- Nat.negb_odd, IH. destruct (lx l b); reflexivity. Qed.
Definition pm1 (s : G) : Prop := s = g1 \/ s = gneg g1.
Lemma pm1_mul a b : pm1 a -> pm1 b -> pm1 (gmul a b). Proof. intros [->| ->] [->| ->]; unfold pm1; cbn; auto. Qed.
Lemma pm1_sg b : pm1 (sg b). Proof. destruct b; unfold pm1; auto. Qed.
Lemma ipow_even k : Nat.odd k = false -> pm1 (ipow k).
Proof.
  intros H. assert (E : exists j, k = j + j). { exists (Nat.div2 k). rewrite (Nat.div2_odd k) at 1. rewrite H. cbn. lia. }
  destruct E as (j & ->). clear H. induction j as [|j IH]; [left; reflexivity|]. replace (S j + S j) with (S (S (j + j))) by lia. cbn [ipow]. destruct IH as [->| ->]; [right|left]; reflexivity.
Qed.
Lemma n2_even m A z : (forall i j, i < m -> j < m -> A i j = A j i) -> (forall i, i < m -> A i i = false) -> Nat.odd (n2 m A z) = false.
Proof.
  intros Sy D. unfold n2. rewrite filter_odd, lx_seq. rewrite (xsum_ext m _ (fun j => xsum m (fun i => z i && A i j && z j))).
  - apply (sym_sum m (fun j i => z i && A i j && z j)); [intros i j Hi Hj; rewrite (Sy j i) by assumption; destruct (z i), (z j), (A i j); reflexivity|]. intros i Hi. rewrite D by exact Hi. rewrite andb_false_r. reflexivity.
  - intros j Hj. rewrite parity_xsum, <- xsum_and_r. reflexivity.
Qed.

(** ** the family *)
Section family.
Variables (n : nat) (ts : list term).
Hypothesis Fam : commuting_family n ts.
Let qb := qb_indices n ts.
Let m := length qb.
Let B := construct_change_of_basis m (length ts) (stacked qb ts).
Let Ok := construct_ok m (length ts) (stacked qb ts) (stacked_isotropic n ts Fam).
Let tc c := nth c ts [].
Lemma fam_c c : c < length ts -> pauli (tc c) /\ within n (tc c). Proof. intros H. apply Fam, nth_In, H. Qed.
Lemma qb_NoDup : NoDup qb. Proof. apply NoDup_filter, seq_NoDup. Qed.
Lemma qb_lt q : In q qb -> q < n. Proof. intros H. apply qb_In in H. apply H. Qed.
Definition sgn c : G := result_phase qb B (fun q => xbit (get (tc c) q)) (fun q => zbit (get (tc c) q)) c.
Lemma conj_c c : c < length ts -> conjugates n (gates qb B) (tmat n (tc c)) (fun x y => gmul (sgn c) (tmat n (new_factors qb B c) x y)).
Proof.
  intros Hc v x Lx. destruct (fam_c c Hc) as [P W]. destruct Ok as (Pm & Nh & Bh & Ns & Bs & Sy & Di & Rx & Rz).
  assert (Of : forall q, ~ In q qb -> xbit (get (tc c) q) = false /\ zbit (get (tc c) q) = false) by (intros q Hq; apply (qb_off n); assumption).
  rewrite (run_ext n _ _ _ (mapply_term n (tc c) v P) x Lx).
  rewrite (run_act n) by (auto; intros g Hg; apply (gates_ok n qb B qb_NoDup qb_lt Pm Bh Bs g Hg)).
  unfold tabof. change (iY (get (tc c))) with (fun q => if xbit (get (tc c) q) && zbit (get (tc c) q) then gi else g1).
  assert (Ft := final_tab n qb B (fun q => xbit (get (tc c) q)) (fun q => zbit (get (tc c) q)) c qb_NoDup qb_lt Of Pm Nh Bh Ns Bs Sy Di (fun i Hi => Rx i c Hi Hc) (fun i Hi => Rz i c Hi Hc)).
  rewrite (act_ext n _ _ (run (gates qb B) v) Ft x Lx).
  assert (Ng := new_get qb B (fun q => xbit (get (tc c) q)) (fun q => zbit (get (tc c) q)) c qb_NoDup Of Pm Bh (fun i Hi => Rx i c Hi Hc)).
  set (t' := new_factors qb B c) in *. set (w := run (gates qb B) v).
  transitivity (gmul (sgn c) (mapply n (tmat n t') w x)).
  - rewrite (mapply_term n t' w) by (auto; intros q; rewrite Ng; destruct (if mem q _ then _ else _); reflexivity).
    assert (E : teq n (tabof n t') (g1, fun _ => false, fun q => if mem q (map (fun i => nth i qb 0) (h_list B)) then zbit (get (tc c) q) else xbit (get (tc c) q))).
    { split; [apply gprod_one; intros q _; unfold iY; rewrite Ng; destruct (if mem q _ then _ else _); reflexivity|]. intros q _. rewrite Ng. destruct (if mem q _ then _ else _); split; reflexivity. }
    rewrite (act_ext n _ _ w E x Lx). unfold act. rewrite shift_self. unfold sgn. ring.
  - unfold mapply. rewrite <- gsum_scale. apply gsum_ext. intros y _. ring.
Qed.
Lemma sgn_pm1 c : c < length ts -> pm1 (sgn c).
Proof. intros Hc. destruct Ok as (Pm & Nh & Bh & Ns & Bs & Sy & Di & Rx & Rz). unfold sgn, result_phase. apply pm1_mul; [apply pm1_sg|]. apply pm1_mul; [apply pm1_sg|]. apply ipow_even, n2_even; assumption. Qed.
Lemma diag_c c : c < length ts -> diagonal (new_factors qb B c).
Proof.
  intros Hc. destruct (fam_c c Hc) as [P W]. destruct Ok as (Pm & Nh & Bh & Ns & Bs & Sy & Di & Rx & Rz).
  apply (new_diagonal qb B (fun q => xbit (get (tc c) q)) (fun q => zbit (get (tc c) q)) c qb_NoDup); [intros q Hq; apply (qb_off n); assumption|exact Pm|exact Bh|]. intros i Hi. exact (Rx i c Hi Hc).
Qed.
Lemma prefactor_ok c : involution (perm B) \/ s_list B = [] -> prefactor qb ts B c = sgn c.
Proof.
  intros I. destruct Ok as (Pm & Nh & Bh & Ns & Bs & Sy & Di & Rx & Rz). unfold prefactor, sgn, result_phase. f_equal. f_equal. unfold sign_vector, true_sign. rewrite parity_xsum. fold m.
  rewrite <- (xsum_perm m (perm B) _ Pm). 
  assert (E : xsum m (fun q => xorb (mem (nth q (perm B) 0) (s_list B)) (mem q (h_list B)) && (x_matrix ts (nth q qb 0) c && z_matrix ts (nth q qb 0) c)) =
    xorb (xsum m (fun q => mem (nth q (perm B) 0) (s_list B) && (x_matrix ts (nth q qb 0) c && z_matrix ts (nth q qb 0) c))) (xsum m (fun q => mem q (h_list B) && (x_matrix ts (nth q qb 0) c && z_matrix ts (nth q qb 0) c)))).
  { rewrite <- xsum_xor. apply xsum_ext. intros q _. destruct (mem _ (s_list B)), (mem q (h_list B)), (x_matrix _ _ _), (z_matrix _ _ _); reflexivity. }
  rewrite (xsum_perm m (perm B) (fun q => xorb (mem (nth q (perm B) 0) (s_list B)) (mem q (h_list B)) && (x_matrix ts (nth q qb 0) c && z_matrix ts (nth q qb 0) c)) Pm).
  rewrite E. f_equal. rewrite <- (xsum_perm m (perm B) _ Pm). apply xsum_ext. intros i Hi. destruct I as [I|I]; [rewrite I by (destruct Pm as [Lp _]; fold B in Lp; rewrite Lp; exact Hi); reflexivity|rewrite I; reflexivity].
Qed.
Lemma distinct c d : c < length ts -> d < length ts -> teqb (new_factors qb B c) (new_factors qb B d) = true -> teqb (tc c) (tc d) = true.
Proof.
  intros Hc Hd E. rewrite teqb_get in E. apply teqb_get. destruct (fam_c c Hc) as [Pc Wc]. destruct (fam_c d Hd) as [Pd Wd]. destruct Ok as (Pm & Nh & Bh & Ns & Bs & Sy & Di & Rx & Rz).
  assert (Ofc : forall q, ~ In q qb -> xbit (get (tc c) q) = false /\ zbit (get (tc c) q) = false) by (intros q Hq; apply (qb_off n); assumption).
  assert (Ofd : forall q, ~ In q qb -> xbit (get (tc d) q) = false /\ zbit (get (tc d) q) = false) by (intros q Hq; apply (qb_off n); assumption).
  set (hq := map (fun i => nth i qb 0) (h_list B)).
  assert (Nc := new_get qb B (fun q => xbit (get (tc c) q)) (fun q => zbit (get (tc c) q)) c qb_NoDup Ofc Pm Bh (fun i Hi => Rx i c Hi Hc)).
  assert (Nd := new_get qb B (fun q => xbit (get (tc d) q)) (fun q => zbit (get (tc d) q)) d qb_NoDup Ofd Pm Bh (fun i Hi => Rx i d Hi Hd)).
  assert (X : forall q, (if mem q hq then zbit (get (tc c) q) else xbit (get (tc c) q)) = (if mem q hq then zbit (get (tc d) q) else xbit (get (tc d) q))).
  { intros q. specialize (E q). rewrite Nc, Nd in E. fold hq in E. destruct (if mem q hq then zbit (get (tc c) q) else _), (if mem q hq then zbit (get (tc d) q) else _); congruence. }
  assert (Xc := x1_at qb B (fun q => xbit (get (tc c) q)) (fun q => zbit (get (tc c) q)) c qb_NoDup Pm Bh (fun i Hi => Rx i c Hi Hc)).
  assert (Xd := x1_at qb B (fun q => xbit (get (tc d) q)) (fun q => zbit (get (tc d) q)) d qb_NoDup Pm Bh (fun i Hi => Rx i d Hi Hd)).
  assert (Zc := z1_at qb B (fun q => xbit (get (tc c) q)) (fun q => zbit (get (tc c) q)) c qb_NoDup Pm Bh (fun i Hi => Rz i c Hi Hc)).
  assert (Zd := z1_at qb B (fun q => xbit (get (tc d) q)) (fun q => zbit (get (tc d) q)) d qb_NoDup Pm Bh (fun i Hi => Rz i d Hi Hd)).
  fold hq in Xc, Xd, Zc, Zd. fold m in Xc, Xd, Zc, Zd.
  assert (R : forall i, i < m -> r_inv B i c = r_inv B i d) by (intros i Hi; rewrite <- Xc, <- Xd by exact Hi; apply X).
  intros q. assert (XZ : xbit (get (tc c) q) = xbit (get (tc d) q) /\ zbit (get (tc c) q) = zbit (get (tc d) q)).
  { destruct (in_dec Nat.eq_dec q qb) as [Hq|Hq]; [|destruct (Ofc q Hq) as [-> ->], (Ofd q Hq) as [-> ->]; auto].
    destruct (at_onto qb B Pm q Hq) as (i & Hi & <-). fold m in Hi. specialize (X (nth (nth i (perm B) 0) qb 0)). specialize (Zc i Hi). specialize (Zd i Hi).
    rewrite R in Zc by exact Hi. rewrite (xsum_ext m _ (fun j => adj B i j && r_inv B j d)) in Zc by (intros j Hj; rewrite R by exact Hj; reflexivity). rewrite <- Zd in Zc. destruct (mem _ hq); auto. }
  specialize (Pc q). specialize (Pd q). destruct XZ as [E1 E2]. destruct (get (tc c) q), (get (tc d) q); try discriminate; reflexivity.
Qed.
End family.

(** ** all terms *)
Lemma pauli_xz f : is_pauli f = true -> xbit f = false -> zbit f = false -> f = FI. Proof. destruct f; try discriminate; reflexivity. Qed.
Lemma no_qubits n ts c : commuting_family n ts -> length (qb_indices n ts) = 0 -> c < length ts -> forall q, get (nth c ts []) q = FI.
Proof.
  intros [F _] E Hc q. destruct (F (nth c ts []) (nth_In _ _ Hc)) as [P W]. destruct (qb_off n ts q c Hc W) as [X Z].
  - apply length_zero_iff_nil in E. rewrite E. intros [].
  - exact (pauli_xz _ (P q) X Z).
Qed.
Lemma diagonalise_length n ts : length (snd (diagonalise n ts)) = length ts.
Proof. unfold diagonalise. destruct (length (qb_indices n ts)); cbn [snd]; rewrite map_length; [reflexivity|apply seq_length]. Qed.
Definition dnth (l : list (term * G)) (c : nat) : term * G := nth c l ([], g0).
Lemma nth_map_seq {A} (f : nat -> A) k c d : c < k -> nth c (map f (seq 0 k)) d = f c.
Proof. intros H. rewrite (nth_indep _ d (f 0)) by (rewrite map_length, seq_length; exact H). rewrite map_nth, seq_nth by exact H. reflexivity. Qed.
Lemma nth_const {A} (ts : list A) (x d : term * G) c : c < length ts -> nth c (map (fun _ => x) ts) d = x.
Proof. revert c. induction ts as [|t ts IH]; intros c H; cbn in H; [lia|]. destruct c as [|c]; [reflexivity|]. cbn. apply IH. lia. Qed.
Lemma diagonalise_ok n ts : commuting_family n ts -> let gs := fst (diagonalise n ts) in let out := snd (diagonalise n ts) in
  (forall g, In g gs -> gate_ok n g) /\
  (forall c, c < length ts -> diagonal (fst (dnth out c)) /\ exists s, pm1 s /\ conjugates n gs (tmat n (nth c ts [])) (fun x y => gmul s (tmat n (fst (dnth out c)) x y)) /\
     (let B := construct_change_of_basis (length (qb_indices n ts)) (length ts) (stacked (qb_indices n ts) ts) in involution (perm B) \/ s_list B = [] -> snd (dnth out c) = s)) /\
  (forall c d, c < length ts -> d < length ts -> teqb (fst (dnth out c)) (fst (dnth out d)) = true -> teqb (nth c ts []) (nth d ts []) = true).
Proof.
  intros Fam. unfold diagonalise. destruct (length (qb_indices n ts)) as [|m'] eqn:E; cbn [fst snd].
  - split; [intros g []|]. unfold dnth. split.
    + intros c Hc. rewrite nth_const by exact Hc. split; [intros q; left; reflexivity|]. exists g1. split; [left; reflexivity|]. split; [|reflexivity].
      intros v x Lx. cbn [run fold_left]. unfold mapply. apply gsum_ext. intros y _. assert (Ef : factors n (nth c ts []) = factors n []) by (apply map_ext; intros q; rewrite (no_qubits n ts c Fam E Hc); reflexivity).
      unfold tmat. rewrite Ef. cbv beta. rewrite gmul_1_l. reflexivity.
    + intros c d Hc Hd _. apply teqb_get. intros q. rewrite !(no_qubits n ts) by assumption. reflexivity.
  - assert (Q := construct_ok _ _ _ (stacked_isotropic n ts Fam)). cbv zeta in Q. rewrite E in Q. destruct Q as (Pm & Nh & Bh & Ns & Bs & _). rewrite <- E in Pm, Bh, Bs |- *. rewrite <- E in Nh, Ns.
    set (B := construct_change_of_basis _ _ _) in *. split; [|split].
    + intros g Hg. apply (gates_ok n _ _ (qb_NoDup n ts) (qb_lt n ts) Pm Bh Bs g Hg).
    + intros c Hc. unfold dnth. rewrite nth_map_seq by exact Hc. cbn [fst snd]. split; [exact (diag_c n ts Fam c Hc)|]. exists (sgn n ts c). split; [exact (sgn_pm1 n ts Fam c Hc)|].
      split; [exact (conj_c n ts Fam c Hc)|]. exact (prefactor_ok n ts Fam c).
    + intros c d Hc Hd. unfold dnth. rewrite !nth_map_seq by assumption. cbn [fst snd]. exact (distinct n ts Fam c d Hc Hd).
Qed.

(** ** operators *)
Lemma teqb_sym a b : teqb a b = teqb b a.
Proof. apply eq_true_iff_eq. rewrite !teqb_get. split; intros H k; symmetry; apply H. Qed.
Lemma dict_set_new d t v : (forall tc, In tc d -> teqb t (fst tc) = false) -> dict_set d t v = d ++ [(t, v)].
Proof. induction d as [|[t' v'] d IH]; intros H; [reflexivity|]. cbn [dict_set app]. assert (H0 : teqb t t' = false) by (apply (H (t', v')); left; reflexivity); rewrite H0. rewrite IH by (intros tc Hc; apply H; right; exact Hc). reflexivity. Qed.
Lemma dict_app_one d x l : dict (d ++ x :: l) -> forall tc, In tc d -> teqb (fst x) (fst tc) = false.
Proof.
  induction d as [|[t v] d IH]; intros H tc Hc; [contradiction|]. cbn [app dict] in H. destruct H as [H1 H2]. destruct Hc as [<-|Hc].
  - rewrite teqb_sym. apply H1. apply in_app_iff. right. left. reflexivity.
  - apply IH; assumption.
Qed.
Lemma fold_set l : forall d, dict (d ++ l) -> fold_left (fun d x => dict_set d (fst x) (snd x)) l d = d ++ l.
Proof.
  induction l as [|x l IH]; intros d H; [symmetry; apply app_nil_r|]. cbn [fold_left]. rewrite dict_set_new by (apply (dict_app_one d x l), H).
  replace (fst x, snd x) with x by (destruct x; reflexivity). rewrite IH by (rewrite <- app_assoc; exact H). rewrite <- app_assoc. reflexivity.
Qed.
Lemma dict_nth (l : op) : (forall c d, c < d -> d < length l -> teqb (fst (dnth l c)) (fst (dnth l d)) = false) <-> dict l.
Proof.
  induction l as [|[t v] l IH]; [split; [intros _; exact I|intros _ c d _ H; cbn in H; lia]|]. cbn [dict]. rewrite <- IH. split.
  - intros H. split.
    + intros tc Hc. apply (In_nth _ _ ([], g0)) in Hc. destruct Hc as (d & Hd & <-). apply (H 0 (S d)); [lia|]. apply (proj1 (Nat.succ_lt_mono _ _)). exact Hd.
    + intros c d Hc Hd. apply (H (S c) (S d)); [lia|]. apply (proj1 (Nat.succ_lt_mono _ _)). exact Hd.
  - intros [H1 H2] c d Hc Hd. destruct d as [|d]; [lia|]. destruct c as [|c]; cbn in Hd.
    + apply (H1 (dnth l d)). unfold dnth. apply nth_In. apply (proj2 (Nat.succ_lt_mono _ _)). exact Hd.
    + apply (H2 c d); [lia|]. apply (proj2 (Nat.succ_lt_mono _ _)). exact Hd.
Qed.
Lemma run_add n gs : forall v w, seq_on n (run gs (fun x => gadd (v x) (w x))) (fun x => gadd (run gs v x) (run gs w x)).
Proof.
  induction gs as [|g gs IH]; intros v w x Lx; [reflexivity|]. change (run gs (run1 g (fun x => gadd (v x) (w x))) x = gadd (run gs (run1 g v) x) (run gs (run1 g w) x)). rewrite <- (IH (run1 g v) (run1 g w) x Lx). apply (run_ext n gs); [|exact Lx].
  intros y Ly. destruct g; cbn [run1]; ring.
Qed.
Lemma run_scale n gs k : forall v, seq_on n (run gs (fun x => gmul k (v x))) (fun x => gmul k (run gs v x)).
Proof.
  induction gs as [|g gs IH]; intros v x Lx; [reflexivity|]. change (run gs (run1 g (fun x => gmul k (v x))) x = gmul k (run gs (run1 g v) x)). rewrite <- (IH (run1 g v) x Lx). apply (run_ext n gs); [|exact Lx].
  intros y Ly. destruct g; cbn [run1]; ring.
Qed.
Lemma run_zero n gs : seq_on n (run gs (fun _ => g0)) (fun _ => g0).
Proof.
  induction gs as [|g gs IH]; intros x Lx; [reflexivity|]. transitivity (run gs (fun _ => g0) x); [|exact (IH x Lx)]. apply (run_ext n gs); [|exact Lx].
  intros y Ly. destruct g; cbn [run1]; [destruct (bit y q); reflexivity|apply gmul_0_r|apply gmul_0_r].
Qed.
Lemma mapply_op n o v x : mapply n (omat n o) v x = gsum o (fun tc => gmul (snd tc) (mapply n (tmat n (fst tc)) v x)).
Proof.
  unfold mapply, omat. rewrite (gsum_ext _ _ (fun y => gsum o (fun tc => gmul (snd tc) (gmul (tmat n (fst tc) x y) (v y))))).
  - rewrite gsum_swap. apply gsum_ext. intros tc _. apply gsum_scale.
  - intros y _. rewrite <- gsum_scale_r. apply gsum_ext. intros tc _. ring.
Qed.
Lemma run_op n gs o v : seq_on n (run gs (mapply n (omat n o) v)) (fun x => gsum o (fun tc => gmul (snd tc) (run gs (mapply n (tmat n (fst tc)) v) x))).
Proof.
  intros x Lx. rewrite (run_ext n gs _ (fun x => gsum o (fun tc => gmul (snd tc) (mapply n (tmat n (fst tc)) v x))) (fun y _ => mapply_op n o v y) x Lx).
  induction o as [|tc o IH]; cbn [gsum]; [apply (run_zero n); exact Lx|]. rewrite (run_add n) by exact Lx. cbv beta. rewrite (run_scale n gs (snd tc)) by exact Lx. rewrite IH. reflexivity.
Qed.
Lemma gsum_nth {A} (l : list A) d f : gsum l f = gsum (seq 0 (length l)) (fun c => f (nth c l d)).
Proof. induction l as [|a l IH]; [reflexivity|]. cbn [length seq gsum]. rewrite <- seq_shift, gsum_map, IH. reflexivity. Qed.
Lemma map_nth_seq {A} (l : list A) d : l = map (fun c => nth c l d) (seq 0 (length l)).
Proof. induction l as [|a l IH]; [reflexivity|]. cbn [length seq map nth]. f_equal. rewrite <- seq_shift, map_map. exact IH. Qed.
Definition pairs (l : list (term * G)) (o : op) : op := map (fun x => (fst (fst x), gmul (snd (fst x)) (snd (snd x)))) (combine l o).
Lemma nth_map_fst (o : op) c : nth c (map fst o) [] = fst (dnth o c). Proof. change (@nil (nat * factor)) with (fst (@nil (nat * factor), g0)). apply map_nth. Qed.
Lemma pairs_nth l o c : length l = length o -> c < length o -> dnth (pairs l o) c = (fst (dnth l c), gmul (snd (dnth l c)) (snd (dnth o c))).
Proof.
  revert o c. induction l as [|x l IH]; intros [|y o] c L H; cbn in L, H; try lia. destruct c as [|c]; [reflexivity|]. unfold dnth, pairs in *. cbn [combine map nth]. apply IH; lia.
Qed.
Lemma change_eq n o : dict o -> commuting_family n (map fst o) -> change_of_basis n o = (fst (diagonalise n (map fst o)), pairs (snd (diagonalise n (map fst o))) o).
Proof.
  intros D Fam. assert (Ok := diagonalise_ok n (map fst o) Fam). cbv zeta in Ok. destruct Ok as (_ & _ & Di). assert (L := diagonalise_length n (map fst o)). rewrite map_length in L, Di.
  unfold change_of_basis. destruct (diagonalise n (map fst o)) as [gs l]. cbn [fst snd] in *. f_equal. fold (pairs l o).
  assert (Ep : forall lo d, fold_left (fun d x => let '((t', p), (_, c)) := x in dict_set d t' (gmul p c)) lo d = fold_left (fun d x => dict_set d (fst x) (snd x)) (map (fun x : (term * G) * (term * G) => (fst (fst x), gmul (snd (fst x)) (snd (snd x)))) lo) d).
  { induction lo as [|[[t p] [u k]] lo IH]; intros d; [reflexivity|]. cbn. apply IH. }
  rewrite Ep. fold (pairs l o). apply (fold_set (pairs l o) []). cbn [app]. apply dict_nth. assert (Lp : length (pairs l o) = length o) by (unfold pairs; rewrite map_length, combine_length; lia).
  intros c d Hc Hd. rewrite Lp in Hd. rewrite !pairs_nth by (auto; lia). cbn [fst]. destruct (teqb (fst (dnth l c)) (fst (dnth l d))) eqn:E; [|reflexivity]. exfalso.
  apply Di in E; try lia. rewrite !nth_map_fst in E. rewrite (proj2 (dict_nth o) D c d Hc Hd) in E. discriminate.
Qed.
Theorem change_ok n o : dict o -> commuting_family n (map fst o) ->
  (let ts := map fst o in let B := construct_change_of_basis (length (qb_indices n ts)) (length ts) (stacked (qb_indices n ts) ts) in involution (perm B) \/ s_list B = []) ->
  conjugates n (fst (change_of_basis n o)) (omat n o) (omat n (snd (change_of_basis n o))).
Proof.
  intros D Fam I v x Lx. rewrite (change_eq n o D Fam). cbn [fst snd]. assert (Ok := diagonalise_ok n (map fst o) Fam). cbv zeta in Ok, I. destruct Ok as (_ & Oc & _).
  assert (L := diagonalise_length n (map fst o)). rewrite map_length in L. destruct (diagonalise n (map fst o)) as [gs l]. cbn [fst snd] in *.
  rewrite (run_op n) by exact Lx. rewrite mapply_op. assert (Lp : length (pairs l o) = length o) by (unfold pairs; rewrite map_length, combine_length; lia).
  rewrite (gsum_nth o ([], g0)), (gsum_nth (pairs l o) ([], g0)), Lp. apply gsum_ext. intros c Hc. apply in_seq in Hc.
  change (nth c o ([], g0)) with (dnth o c). change (nth c (pairs l o) ([], g0)) with (dnth (pairs l o) c). rewrite pairs_nth by (auto; lia). cbn [fst snd].
  destruct (Oc c) as (_ & s & _ & Cj & Ps); [rewrite map_length; lia|]. specialize (Ps I). rewrite nth_map_fst in Cj. rewrite (Cj v x Lx), <- Ps.
  transitivity (gmul (snd (dnth o c)) (gmul (snd (dnth l c)) (mapply n (tmat n (fst (dnth l c))) (run gs v) x))).
  - f_equal. unfold mapply. rewrite <- gsum_scale. apply gsum_ext. intros y _. ring.
  - ring.
Qed.
