From Verif.Mcx Require Import McxModel McxSpec McxProofs RevExec.
Local Open Scope nat_scope.

Lemma forallb_nth_seq (f : qubit -> bool) l d : forallb f l = forallb (fun i => f (nth i l d)) (seq 0 (length l)).
Proof.
  assert (H : forall l pre, forallb f l = forallb (fun i => f (nth i (pre ++ l) d)) (seq (length pre) (length l))).
  { clear l. induction l as [|x l IH]; intros pre; [reflexivity|]. cbn [length seq forallb]. rewrite app_nth2, Nat.sub_diag by lia. cbn [nth]. f_equal.
    specialize (IH (pre ++ [x])). rewrite app_length in IH. cbn [length] in IH. rewrite Nat.add_1_r, <- app_assoc in IH. exact IH. }
  exact (H l []).
Qed.
Lemma forallb_ext_in (A : Type) (f g : A -> bool) l : (forall x, In x l -> f x = g x) -> forallb f l = forallb g l.
Proof. induction l as [|x l IH]; intros H; cbn [forallb]; [reflexivity|]. rewrite H, IH; cbn; auto. intros; apply H; cbn; auto. Qed.
Lemma forallb_seq_S f lo n : forallb f (seq lo (S n)) = forallb f (seq lo n) && f (lo + n).
Proof. rewrite seq_S, forallb_app. cbn. rewrite andb_true_r. reflexivity. Qed.
Lemma forallb_pairs v m : forallb (fun j => v (2 * j) && v (2 * j + 1)) (seq 0 m) = forallb v (seq 0 (2 * m)).
Proof.
  induction m as [|m IH]; [reflexivity|]. rewrite forallb_seq_S, IH. replace (2 * S m) with (S (S (2 * m))) by lia. rewrite !forallb_seq_S. cbn [Nat.add].
  rewrite <- andb_assoc. do 2 f_equal. f_equal. lia.
Qed.

Section tree.
Variables (qs : list qubit) (t : qubit) (r : nat).
Hypothesis ND : NoDup (t :: qs).
Hypothesis LOW : forall q, In q (t :: qs) -> fst q < r.
Let N := length qs.
Let l := N / 2 + N mod 2.
Lemma c_in i : i < N -> In (c_ qs i) qs.
Proof. intros H. apply nth_In. exact H. Qed.
Lemma c_inj i j : i < N -> j < N -> c_ qs i = c_ qs j -> i = j.
Proof. intros Hi Hj E. exact (proj1 (NoDup_nth qs (0, 0)) (proj2 (proj1 (NoDup_cons_iff t qs) ND)) i j Hi Hj E). Qed.
Lemma c_t i : i < N -> c_ qs i <> t.
Proof. intros Hi E. apply (proj1 (proj1 (NoDup_cons_iff t qs) ND)). rewrite <- E. apply c_in, Hi. Qed.
Lemma t_low : fst t < r.
Proof. apply LOW. left. reflexivity. Qed.
Definition cc (i : nat) : qubit := if i <? N then c_ qs i else (r, i - N).
Lemma cc_c i : i < N -> cc i = c_ qs i.
Proof. intros H. unfold cc. destruct (Nat.ltb_spec i N); [reflexivity|lia]. Qed.
Lemma cc_r j : cc (N + j) = (r, j).
Proof. unfold cc. destruct (Nat.ltb_spec (N + j) N); [lia|]. f_equal. lia. Qed.
Lemma cc_inj i j : cc i = cc j -> i = j.
Proof.
  unfold cc. destruct (Nat.ltb_spec i N), (Nat.ltb_spec j N); intros E.
  - apply c_inj; auto.
  - pose proof (LOW (c_ qs i) (or_intror (c_in i H))) as L. rewrite E in L. cbn in L. lia.
  - pose proof (LOW (c_ qs j) (or_intror (c_in j H0))) as L. rewrite <- E in L. cbn in L. lia.
  - injection E. lia.
Qed.
Lemma cc_t i : cc i <> t.
Proof.
  unfold cc. destruct (Nat.ltb_spec i N) as [H|H]; [apply c_t, H|]. intros E. pose proof t_low as L. rewrite <- E in L. cbn in L. lia.
Qed.
Lemma two_l : 2 * l = N + N mod 2.
Proof. pose proof (Nat.div_mod N 2 ltac:(lia)). pose proof (Nat.mod_upper_bound N 2 ltac:(lia)). unfold l. lia. Qed.
Lemma mod01 : N mod 2 = 0 \/ N mod 2 = 1.
Proof. pose proof (Nat.mod_upper_bound N 2 ltac:(lia)). lia. Qed.

Section size.
Variable size : nat.
Hypothesis Hl : 2 <= l.
Hypothesis Hs1 : 2 * l - 2 <= size.
Hypothesis Hs2 : size <= 2 * l - 1.
Let K := N + size.
Variable v : nat -> bool.
(** the views *)
Definition leaf (j : nat) : bool := if j <? N / 2 then v (2 * j) && v (2 * j + 1) else v (N - 1).
Definition w1 (k x : nat) : bool := if x <? N then v x else if x <? N + k then leaf (x - N) else false.
Fixpoint T (k x : nat) : bool :=
  match k with O => w1 l x | S k => if x =? N + (l + k) then T k (N + 2 * k) && T k (N + (2 * k + 1)) else T k x end.
Lemma leaves : forallb leaf (seq 0 l) = forallb v (seq 0 N).
Proof.
  pose proof (Nat.div_mod N 2 ltac:(lia)) as D. unfold l. destruct mod01 as [E|E]; rewrite E in *.
  - rewrite Nat.add_0_r. replace (forallb v (seq 0 N)) with (forallb v (seq 0 (2 * (N / 2)))) by (do 2 f_equal; lia). rewrite <- forallb_pairs. apply forallb_ext_in. intros j Hj. apply in_seq in Hj. unfold leaf.
    destruct (Nat.ltb_spec j (N / 2)); [reflexivity|lia].
  - rewrite Nat.add_1_r, forallb_seq_S. replace (forallb v (seq 0 N)) with (forallb v (seq 0 (S (2 * (N / 2))))) by (do 2 f_equal; lia).
    rewrite forallb_seq_S, <- forallb_pairs. f_equal.
    + apply forallb_ext_in. intros j Hj. apply in_seq in Hj. unfold leaf. destruct (Nat.ltb_spec j (N / 2)); [reflexivity|lia].
    + unfold leaf. cbn [Nat.add]. destruct (Nat.ltb_spec (N / 2) (N / 2)); [lia|]. f_equal. lia.
Qed.
Lemma T_old k x : x < N + l + k -> forall m, T (k + m) x = T k x.
Proof.
  intros Hx. induction m as [|m IH]; [rewrite Nat.add_0_r; reflexivity|]. rewrite Nat.add_succ_r. cbn [T]. destruct (Nat.eqb_spec x (N + (l + (k + m)))); [lia|exact IH].
Qed.
Lemma T_new k x : N + l + k <= x -> T k x = false.
Proof.
  revert x. induction k as [|k IH]; intros x Hx; cbn [T].
  - unfold w1. destruct (Nat.ltb_spec x N); [lia|]. destruct (Nat.ltb_spec x (N + l)); [lia|]. reflexivity.
  - destruct (Nat.eqb_spec x (N + (l + k))); [lia|]. apply IH. lia.
Qed.
Lemma T_and k : k < l -> forallb (fun x => T k (N + x)) (seq (2 * k) (l - k)) = forallb v (seq 0 N).
Proof.
  induction k as [|k IH]; intros Hk.
  - rewrite Nat.sub_0_r, <- leaves. apply forallb_ext_in. intros x Hx. apply in_seq in Hx. cbn [T]. unfold w1.
    destruct (Nat.ltb_spec (N + x) N); [lia|]. destruct (Nat.ltb_spec (N + x) (N + l)); [|lia]. f_equal. lia.
  - rewrite <- IH by lia. replace (l - k) with (S (S (l - k - 2))) by lia. replace (l - S k) with (S (l - k - 2)) by lia. rewrite forallb_seq_S.
    cbn [seq forallb]. replace (2 * S k) with (S (S (2 * k))) by lia. replace (S (S (2 * k)) + (l - k - 2)) with (l + k) by lia.
    rewrite (forallb_ext_in _ (fun x => T (S k) (N + x)) (fun x => T k (N + x)) (seq (S (S (2 * k))) (l - k - 2))).
    + cbn [T]. rewrite Nat.eqb_refl. replace (2 * k + 1) with (S (2 * k)) by lia. destruct (T k (N + 2 * k)), (T k (N + S (2 * k))); cbn [andb]; rewrite ?andb_true_r, ?andb_false_r; reflexivity.
    + intros x Hx. apply in_seq in Hx. cbn [T]. destruct (Nat.eqb_spec (N + x) (N + (l + k))); [lia|reflexivity].
Qed.
Definition v0 (x : nat) : bool := if x <? N then v x else false.
Let oK := ov cc K.
Lemma helper_ok s : rexec (balauca_helper qs r size) (oK v0 s) (oK (T (size - l)) s).
Proof.
  assert (J : forall i j, i < K -> j < K -> cc i = cc j -> i = j) by (intros; apply cc_inj; assumption).
  pose proof (Nat.div_mod N 2 ltac:(lia)) as D. pose proof mod01 as M.
  unfold balauca_helper. fold N. eapply rexec_app; [|eapply rexec_app].
  - apply (rexec_ext _ (oK (w1 0) s) (oK (w1 (N / 2)) s)); try (intros q; apply ov_eq; [exact J|]; intros i Hi).
    + unfold w1, v0. destruct (Nat.ltb_spec i N); [reflexivity|]. destruct (Nat.ltb_spec i (N + 0)); [lia|reflexivity].
    + reflexivity.
    + apply (rexec_loop 0 (N / 2) (N / 2) _ (fun k => oK (w1 k) s)); [lia|]. intros k Hk.
      rewrite <- (cc_c (2 * k)), <- (cc_c (2 * k + 1)), <- (cc_r k) by lia. unfold oK.
      apply (view_gand cc K J); try (unfold K, l in *; lia).
      * unfold w1. destruct (Nat.ltb_spec (N + k) N); [lia|]. destruct (Nat.ltb_spec (N + k) (N + k)); [lia|]. reflexivity.
      * intros x Hx. unfold w1. destruct (Nat.eqb_spec x (N + k)) as [->|].
        -- destruct (Nat.ltb_spec (N + k) N); [lia|]. destruct (Nat.ltb_spec (N + k) (N + S k)); [|lia].
           destruct (Nat.ltb_spec (2 * k) N); [|lia]. destruct (Nat.ltb_spec (2 * k + 1) N); [|lia].
           unfold leaf. replace (N + k - N) with k by lia. destruct (Nat.ltb_spec k (N / 2)); [reflexivity|lia].
        -- destruct (Nat.ltb_spec x N); [reflexivity|]. destruct (Nat.ltb_spec x (N + S k)), (Nat.ltb_spec x (N + k)); try lia; reflexivity.
  - apply (rexec_ext _ (oK (w1 (N / 2)) s) (oK (w1 l) s)); [reflexivity|reflexivity|]. destruct M as [M|M].
    + rewrite M. cbn [Nat.eqb]. apply rexec_nil. intros q. unfold l. rewrite M, Nat.add_0_r. reflexivity.
    + rewrite M. cbn [Nat.eqb]. replace (N / 2 - 1 + 1) with (N / 2) by (unfold l in Hl; lia). rewrite <- (cc_c (N - 1)), <- (cc_r (N / 2)) by lia.
      apply (view_cx cc K J).
      * unfold K. lia.
      * unfold K, l in *. lia.
      * lia.
      * intros x Hx. unfold w1, l. rewrite M. destruct (Nat.eqb_spec x (N + N / 2)) as [->|].
        -- destruct (Nat.ltb_spec (N + N / 2) N); [lia|]. destruct (Nat.ltb_spec (N + N / 2) (N + (N / 2 + 1))); [|lia].
           destruct (Nat.ltb_spec (N - 1) N); [|lia]. destruct (Nat.ltb_spec (N + N / 2) (N + N / 2)); [lia|]. rewrite xorb_false_r. unfold leaf.
           replace (N + N / 2 - N) with (N / 2) by lia. destruct (Nat.ltb_spec (N / 2) (N / 2)); [lia|reflexivity].
        -- destruct (Nat.ltb_spec x N); [reflexivity|]. destruct (Nat.ltb_spec x (N + (N / 2 + 1))), (Nat.ltb_spec x (N + N / 2)); try lia; reflexivity.
  - apply (rexec_loop 0 (size - l) (size - l) _ (fun k => oK (T k) s)); [lia|]. intros k Hk. fold l.
    rewrite <- (cc_r (2 * k)), <- (cc_r (2 * k + 1)), <- (cc_r (l + k)). unfold oK. apply (view_gand cc K J); try (unfold K; lia).
    + apply T_new. lia.
    + intros x Hx. cbn [T]. reflexivity.
Qed.
Lemma helper_free : free t (balauca_helper qs r size).
Proof.
  pose proof (Nat.div_mod N 2 ltac:(lia)) as D. pose proof t_low as L. pose proof mod01 as M.
  assert (R : forall i, (r, i) <> t) by (intros i E; rewrite <- E in L; cbn in L; lia).
  unfold balauca_helper. fold N. apply free_app; [|apply free_app].
  - apply free_loop. intros k Hk. constructor; [|constructor]. cbn. repeat split; [apply c_t; lia|apply c_t; lia|apply R].
  - destruct M as [M|M]; rewrite M; cbn [Nat.eqb]; [constructor|]. constructor; [|constructor]. split; [apply c_t; unfold l in Hl; lia|apply R].
  - apply free_loop. intros k Hk. constructor; [|constructor]. cbn. auto.
Qed.
End size.

Definition bits (s : bstate) (i : nat) : bool := s (c_ qs i).
Lemma start size s q : (forall i, i < size -> s (r, i) = false) -> s q = ov cc (N + size) (v0 (bits s)) s q.
Proof.
  intros Hc. rewrite <- (ov_id cc (N + size) (fun i j _ _ => cc_inj i j) s q) at 1. apply ov_eq; [intros; apply cc_inj; assumption|]. intros i Hi. unfold v0, bits.
  destruct (Nat.ltb_spec i N); [rewrite cc_c by assumption; reflexivity|]. replace i with (N + (i - N)) by lia. rewrite cc_r. apply Hc. lia.
Qed.
Lemma all_bits s : forallb (bits s) (seq 0 N) = all_set s qs.
Proof. unfold all_set, bits, c_. symmetry. apply forallb_nth_seq. Qed.

Lemma balauca_mcx_1_ok s : qs <> [] -> (forall i, s (r, i) = false) -> forall p, exec (balauca_mcx_1 qs t r) (p, s) (p, upd s t (xorb (all_set s qs) (s t))).
Proof.
  intros Hne Hc p. unfold balauca_mcx_1. fold N. destruct (Nat.eqb_spec N 0) as [E|H0]; [destruct qs; [congruence|discriminate]|].
  destruct (Nat.eqb_spec N 1) as [E|H1].
  - unfold N in E. destruct qs as [|a [|? ?]]; try discriminate. eapply exec_cons; [reflexivity|]. apply exec_nil. intros q. cbn [all_set forallb c_ nth]. rewrite andb_true_r. reflexivity.
  - destruct (Nat.eqb_spec N 2) as [E|H2].
    + unfold N in E. destruct qs as [|a [|b [|? ?]]]; try discriminate. eapply exec_cons; [reflexivity|]. apply exec_nil. reflexivity.
    + pose proof two_l as TL. pose proof mod01 as M. pose proof (Nat.div_mod N 2 ltac:(lia)) as D. fold N in H0. set (size := N - 2 + N mod 2).
      assert (Hl : 2 <= l) by lia. assert (Es : size = 2 * l - 2) by (unfold size; lia).
      pose proof (helper_ok size Hl ltac:(lia) ltac:(lia) (bits s) s) as HR.
      eapply exec_app; [|apply exec_del_reg; intros i Hi; rewrite upd_other by (intros Et; pose proof t_low as L; rewrite <- Et in L; cbn in L; lia); apply Hc].
      eapply (conjugate_ok _ _ t _ s); [apply helper_free; lia| |].
      * eapply rexec_ext; [|reflexivity|exact HR]. intros q. symmetry. apply start. intros; apply Hc.
      * intros p'. eapply exec_cons; [reflexivity|]. apply exec_nil. intros q. cbn [all_set forallb].
        assert (J : forall i j, i < N + size -> j < N + size -> cc i = cc j -> i = j) by (intros; apply cc_inj; assumption).
        assert (Et : ov cc (N + size) (T (bits s) (size - l)) s t = s t) by (apply ov_out; intros; apply cc_t).
        rewrite Et. rewrite <- (cc_r (size - 1)), <- (cc_r (size - 2)). rewrite !ov_get by (exact J || lia).
        pose proof (T_and size Hl ltac:(lia) ltac:(lia) (bits s) (size - l) ltac:(lia)) as HT. rewrite all_bits in HT. replace (l - (size - l)) with 2 in HT by lia. cbn [seq forallb] in HT.
        replace (2 * (size - l)) with (size - 2) in HT by lia. replace (S (size - 2)) with (size - 1) in HT by lia. rewrite <- HT.
        assert (Eb : forall a b, b && (a && true) = a && (b && true)) by (intros [] []; reflexivity). rewrite Eb. reflexivity.
Qed.
Lemma balauca_mcp_1_ok s : qs <> [] -> (forall i, s (r, i) = false) -> s t = false -> let '(u, q, u') := balauca_mcp_1 qs t r in
  forall p, exists p1 s1, exec u (p, s) (p1, s1) /\ s1 q = all_set s qs /\ exec u' (p1, s1) (p, s).
Proof.
  intros Hne Hc Hst. unfold balauca_mcp_1. fold N. assert (H0 : N <> 0) by (intros E; destruct qs; [congruence|discriminate]).
  destruct (Nat.eqb_spec N 1) as [E|H1].
  - intros p. exists p, s. split; [apply exec_nil; reflexivity|]. split; [|apply exec_nil; reflexivity]. unfold N in E. destruct qs as [|a [|? ?]]; try discriminate.
    cbn. rewrite andb_true_r. reflexivity.
  - destruct (Nat.eqb_spec N 2) as [E|H2].
    + intros p. destruct (rexec_pt2 (c_ qs 0) (c_ qs 1) t s) as (d & A & B); [apply c_t; lia|apply c_t; lia|].
      specialize (B (p + d)%Z). replace (p + d - d)%Z with p in B by lia.
      eexists _, _. split; [apply A|]. split; [|exact B].
      rewrite upd_same, Hst, xorb_false_r. unfold N in E. destruct qs as [|a [|b [|? ?]]]; try discriminate. cbn. rewrite andb_true_r. reflexivity.
    + pose proof two_l as TL. pose proof mod01 as M. pose proof (Nat.div_mod N 2 ltac:(lia)) as D. set (size := N + N mod 2 - 1).
      assert (Hl : 2 <= l) by lia. assert (Es : size = 2 * l - 1) by (unfold size; lia).
      pose proof (helper_ok size Hl ltac:(lia) ltac:(lia) (bits s) s) as HR.
      assert (J : forall i j, i < N + size -> j < N + size -> cc i = cc j -> i = j) by (intros; apply cc_inj; assumption).
      set (s1 := ov cc (N + size) (T (bits s) (size - l)) s) in *.
      assert (Et : s1 t = s t) by (apply ov_out; intros; apply cc_t).
      pose proof (rexec_pt2 (r, size - 1) (r, size - 2) t s1) as HP. rewrite <- !cc_r in HP. specialize (HP (cc_t _) (cc_t _)). rewrite !cc_r in HP.
      assert (HR' : rexec (balauca_helper qs r size) s s1).
      { eapply rexec_ext; [|reflexivity|exact HR]. intros q. symmetry. apply start. intros; apply Hc. }
      destruct (rexec_app _ _ _ _ _ HR' HP) as (d & A & B). intros p. eexists _, _. split; [apply A|]. split.
      * rewrite upd_same, Et, Hst, xorb_false_r. unfold s1. rewrite <- (cc_r (size - 1)), <- (cc_r (size - 2)). rewrite !ov_get by (exact J || lia).
        pose proof (T_and size Hl ltac:(lia) ltac:(lia) (bits s) (size - l) ltac:(lia)) as HT. rewrite all_bits in HT. replace (l - (size - l)) with 1 in HT by lia. cbn [seq forallb] in HT.
        replace (2 * (size - l)) with (size - 1) in HT by lia. rewrite andb_true_r in HT. rewrite <- HT.
        replace (size - l) with (S (l - 2)) by lia. cbn [T]. replace (size - 1) with (l + (l - 2)) by lia. rewrite Nat.eqb_refl.
        destruct (Nat.eqb_spec (N + (size - 2)) (N + (l + (l - 2)))); [lia|]. replace (2 * (l - 2) + 1) with (size - 2) by lia.
        destruct (T _ (l - 2) _), (T _ (l - 2) (N + (size - 2))); reflexivity.
      * specialize (B (p + d)%Z). replace (p + d - d)%Z with p in B by lia. eapply exec_app; [exact B|]. apply exec_del_reg. intros; apply Hc.
Qed.
End tree.

(** * with control states *)
Lemma wrap_flips cs t prog s : valid cs t -> (forall p, exec prog (p, fl cs s) (p, upd (fl cs s) t (xorb (all_set (fl cs s) (map fst cs)) (fl cs s t)))) ->
  flips_iff (wrap cs prog) cs t s.
Proof.
  intros [ND Ht] H p. apply exec_wrap; [exact Ht|]. intros p'. specialize (H p'). rewrite fl_all, (fl_out cs s t Ht) in H by exact ND. exact H.
Qed.
Lemma wrap_phase cs t u q u' s : valid cs t -> s t = false ->
  (forall p, exists p1 s1, exec u (p, fl cs s) (p1, s1) /\ s1 q = all_set (fl cs s) (map fst cs) /\ exec u' (p1, s1) (p, fl cs s)) ->
  phase_iff (flips cs ++ u) [q] (u' ++ flips cs ++ [DEL t]) cs s.
Proof.
  intros [ND Ht] Hst H p. destruct (H p) as (p1 & s1 & A & B & C). exists p1, s1. split; [|split].
  - eapply exec_app; [apply exec_flips|exact A].
  - cbn [forallb]. rewrite B, andb_true_r. apply fl_all, ND.
  - eapply exec_app; [exact C|]. eapply exec_app; [apply exec_flips|]. eapply exec_pre; [intros x; apply fl_fl|].
    eapply exec_cons; [apply step_del; exact Hst|]. apply exec_nil. reflexivity.
Qed.
Lemma before_low r cs t : before r cs t -> forall i, ~ In (r, i) (map fst cs).
Proof. intros B i H. specialize (B (r, i) (or_intror H)). cbn in B. lia. Qed.
Theorem jasp_mcx_ok cs t r s : valid cs t -> before r cs t -> cs <> [] -> clean_from r s -> flips_iff (jasp_balauca_mcx cs t r) cs t s.
Proof.
  intros V B Hne Hc. unfold jasp_balauca_mcx. apply wrap_flips; [exact V|]. apply balauca_mcx_1_ok.
  - destruct V. constructor; assumption.
  - exact B.
  - destruct cs; [congruence|discriminate].
  - intros i. rewrite fl_out by (apply (before_low r cs t B)). apply Hc. lia.
Qed.
Theorem jasp_mcp_ok cs t r s : valid cs t -> before r cs t -> cs <> [] -> clean_from r s -> s t = false ->
  let '(u, q, u') := jasp_balauca_mcp cs t r in phase_iff u [q] u' cs s.
Proof.
  intros V B Hne Hc Hst. unfold jasp_balauca_mcp. destruct V as [ND Ht].
  pose proof (balauca_mcp_1_ok (map fst cs) t r (NoDup_cons t Ht ND) B (fl cs s)) as H. destruct (balauca_mcp_1 (map fst cs) t r) as [[u q] u'].
  apply wrap_phase; [split; assumption|exact Hst|]. apply H.
  - destruct cs; [congruence|discriminate].
  - intros i. rewrite fl_out by (apply (before_low r cs t B)). apply Hc. lia.
  - rewrite fl_out by exact Ht. exact Hst.
Qed.
