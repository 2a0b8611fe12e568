(** The circuits of phase polynomials are diagonal, with the value of the polynomial as phase. *)
From Coq Require Import List ZArith Bool Lia Arith QArith Qcanon Ring Ring_theory.
Import ListNotations.
From Verif.Inverse Require Import InvModel InvSpec InvProofs.
From Verif.CtrlOps Require Import CtrlModel CtrlSpec CtrlProofs.
From Verif.QFloat Require Import QFModel QFSpec QFProofs SbpProofs.
From Verif.Fourier Require Import FourierModel FourierSpec RegProofs FourierProofs FourierFinal AdderProofs.
From Verif.Sbp Require Import SbpModel SbpSpec NumProofs.
From Verif.PhasePoly Require Import PhaseModel PhaseSpec.
Local Open Scope nat_scope.
Local Notation value := FourierSpec.value.

(** * the value of a monomial *)
Definition mono (vals : list Q) (m : monomial) : Q := (fst m * fold_right (fun v r => (nth v vals 0 * r)%Q) 1%Q (snd m))%Q.
Lemma eval_cons vals m p : evaluate vals (m :: p) = (mono vals m + evaluate vals p)%Q.
Proof. destruct m. reflexivity. Qed.
Lemma eval_app vals a b : (evaluate vals (a ++ b) == evaluate vals a + evaluate vals b)%Q.
Proof. induction a as [|m a IH]; [cbn [app]; change (evaluate vals []) with 0%Q; ring|]. cbn [app]. rewrite !eval_cons, IH. ring. Qed.
Lemma prod_app vals a b : (fold_right (fun v r => (nth v vals 0 * r)%Q) 1%Q (a ++ b) == fold_right (fun v r => (nth v vals 0 * r)%Q) 1%Q a * fold_right (fun v r => (nth v vals 0 * r)%Q) 1%Q b)%Q.
Proof. induction a as [|v a IH]; cbn [app fold_right]; [ring|]. rewrite IH. ring. Qed.
Lemma eval_times vals a b : (evaluate vals (times_poly a b) == evaluate vals a * evaluate vals b)%Q.
Proof.
  unfold times_poly. induction a as [|[k bs] a IH]; cbn [flat_map]; [change (evaluate vals []) with 0%Q; ring|]. rewrite eval_app, IH, eval_cons.
  assert (X : (evaluate vals (map (fun '(l, cs) => ((k * l)%Q, bs ++ cs)) b) == mono vals (k, bs) * evaluate vals b)%Q).
  { clear IH. induction b as [|[l cs] b IHb]; cbn [map]; [change (evaluate vals []) with 0%Q; ring|]. rewrite !eval_cons, IHb. unfold mono. cbn [fst snd]. rewrite prod_app. ring. }
  rewrite X. ring.
Qed.
Lemma eval_subst vals subst p : (evaluate vals (substitute subst p) == evaluate (map (evaluate vals) subst) p)%Q.
Proof.
  unfold substitute. induction p as [|[k vs] p IH]; [reflexivity|]. cbn [flat_map fst snd]. rewrite eval_app, IH, eval_cons. apply Qplus_comp; [|reflexivity]. clear.
  unfold mono. cbn [fst snd]. induction vs as [|v vs IH]; cbn [fold_right]; [unfold evaluate; cbn [fold_right]; ring|]. rewrite eval_times, IH.
  assert (M : evaluate vals (@nth (list monomial) v subst []) = nth v (map (evaluate vals) subst) 0%Q) by (symmetry; exact (map_nth (evaluate vals) subst [] v)). rewrite M. ring.
Qed.
(** * qubits *)
Lemma lookup_prod x qubits : forall vs l, lookup qubits vs = Some l ->
  (fold_right (fun v r => (nth v (map (fun q => bit (getbit x q)) qubits) 0 * r)%Q) 1%Q vs == bit (forallb (getbit x) l))%Q.
Proof.
  induction vs as [|v vs IH]; intros l H; cbn [lookup fold_right] in *; [injection H as <-; reflexivity|].
  destruct (nth_error qubits v) as [q|] eqn:E; [|discriminate]. destruct (lookup qubits vs) as [l'|]; [|discriminate]. injection H as <-. rewrite (IH l') by reflexivity.
  rewrite (nth_error_nth _ _ _ (map_nth_error (fun q => bit (getbit x q)) v qubits E)). cbn [forallb]. destruct (getbit x q), (forallb (getbit x) l'); reflexivity.
Qed.
Lemma lookup_some qubits vs : (forall v, In v vs -> v < length qubits) -> exists l, lookup qubits vs = Some l.
Proof.
  induction vs as [|v vs IH]; intros H; [eexists; reflexivity|]. cbn. destruct (nth_error qubits v) eqn:E; [|apply nth_error_None in E; specialize (H v (or_introl eq_refl)); lia].
  destruct IH as [l ->]; [intros; apply H; right; assumption|eexists; reflexivity].
Qed.
Lemma lookup_bound qubits vs l : lookup qubits vs = Some l -> forall v, In v vs -> v < length qubits.
Proof.
  revert l. induction vs as [|v vs IH]; intros l H w I; cbn in *; [tauto|]. destruct (nth_error qubits v) eqn:E; [|discriminate]. destruct (lookup qubits vs) as [l'|]; [|discriminate].
  destruct I as [<-|I]; [apply nth_error_Some; congruence|]. exact (IH l' eq_refl w I).
Qed.
Lemma lookup_length qubits vs l : lookup qubits vs = Some l -> length l = length vs.
Proof. revert l. induction vs as [|v vs IH]; intros l H; cbn in H; [injection H as <-; reflexivity|]. destruct (nth_error qubits v); [|discriminate]. destruct (lookup qubits vs); [|discriminate]. injection H as <-. cbn. rewrite (IH _ eq_refl). reflexivity. Qed.
Lemma forallb_nodup x l : forallb (getbit x) (nodup Nat.eq_dec l) = forallb (getbit x) l.
Proof.
  apply eq_true_iff_eq. rewrite !forallb_forall. split; intros H q I; apply H; [apply (proj2 (nodup_In Nat.eq_dec l q)); exact I|apply (proj1 (nodup_In Nat.eq_dec l q)); exact I].
Qed.
(** * QuantumFloats *)
Lemma prod_single vals n v : nth v vals 0%Q = n -> (fold_right (fun v r => (nth v vals 0 * r)%Q) 1%Q [v] == n)%Q.
Proof. intros <-. cbn [fold_right]. ring. Qed.
Lemma eval_register x vals f m : forall qs syms, length qs = length syms -> (forall i, i < length qs -> nth (nth i syms 0) vals 0%Q = bit (getbit x (nth i qs 0))) ->
  (evaluate vals (register_poly f m syms) == SbpProofs.qsum (map (rd x) (register_poly f m qs)))%Q.
Proof.
  unfold register_poly. generalize (sb_poly f m). intros ws qs syms. revert ws qs. induction syms as [|s syms IH]; intros [|w ws] [|q qs] L H; try discriminate; try reflexivity.
  cbn [combine map]. rewrite eval_cons. unfold rd at 1. cbn [fst snd]. cbn [SbpProofs.qsum]. rewrite <- (IH ws qs); [|now injection L|intros i I; exact (H (S i) ltac:(cbn; lia))].
  apply Qplus_comp; [|reflexivity]. unfold mono. cbn [fst snd]. pose proof (H 0 ltac:(cbn; lia)) as E. cbn [nth] in E. rewrite (prod_single vals _ s E). rewrite allb_read. cbn [forallb]. rewrite andb_true_r. destruct (getbit x q); cbn [bit]; ring.
Qed.
Lemma sign_bit f x qs : signed f = true -> length qs = size f -> getbit x (nth (msize f) qs 0) = negb (value x qs <? 2 ^ Z.of_nat (msize f))%Z.
Proof.
  intros S L. pose proof (size_signed f S) as E. assert (L' : length qs = (msize f + 1)%nat) by lia.
  pose proof (bits_read f x qs L) as B. assert (T : nth (msize f) (bits f (value x qs)) false = nth (msize f) (read x qs) false) by (rewrite B; reflexivity).
  rewrite FourierFinal.nth_read in T by lia. rewrite <- T. unfold bits. pose proof (value_basis f x qs L) as V. unfold basis in V. rewrite E in V.
  rewrite (nth_indep _ false (Z.testbit (value x qs) (Z.of_nat 0))) by (rewrite map_length, seq_length; lia). rewrite (map_nth (fun i => Z.testbit (value x qs) (Z.of_nat i))), seq_nth by lia. cbn [Nat.add].
  set (c := value x qs) in *. rewrite Z.testbit_eqb by lia. pose proof (Z.pow_pos_nonneg 2 (Z.of_nat (msize f)) ltac:(lia) ltac:(lia)) as P.
  rewrite Z.pow_add_r in V by lia. change (2 ^ 1)%Z with 2%Z in V.
  destruct (Z.ltb_spec c (2 ^ Z.of_nat (msize f))); [rewrite Z.div_small by lia; reflexivity|]. replace (c / 2 ^ Z.of_nat (msize f))%Z with 1%Z; [reflexivity|]. apply (Z.div_unique _ _ 1 (c - 2 ^ Z.of_nat (msize f))); lia.
Qed.
Lemma sb_exact f m c : basis f c -> dotz (sb_poly f m) (bits f c) = (mantissa f c + if signed f && negb (c <? 2 ^ Z.of_nat (msize f)) then 2 ^ (Z.of_nat (match m with 0%nat => size f | _ => m end) + 1) else 0)%Z.
Proof.
  intros B. unfold sb_poly, bits. set (m' := match m with 0%nat => size f | _ => m end). pose proof B as B'. unfold basis in B.
  assert (V : dotz (map (fun i => 2 ^ Z.of_nat i)%Z (seq 0 (size f))) (map (fun i => Z.testbit c (Z.of_nat i)) (seq 0 (size f))) = c).
  { rewrite bits_val by lia. cbn [Z.of_nat]. rewrite Z.pow_0_r, Z.div_1_r, Z.mul_1_r. apply Z.mod_small, B. }
  unfold mantissa. destruct (signed f) eqn:S; cbn [andb].
  - rewrite dotz_extra, V. pose proof (size_signed f S) as E. assert (0 <? size f = true)%nat as -> by (apply Nat.ltb_lt; lia). cbn [andb]. rewrite E in B.
    replace (size f - 1) with (msize f) by lia. rewrite Z.testbit_eqb by lia. pose proof (Z.pow_pos_nonneg 2 (Z.of_nat (msize f)) ltac:(lia) ltac:(lia)) as P. rewrite Z.pow_add_r in B by lia. change (2 ^ 1)%Z with 2%Z in B.
    destruct (Z.ltb_spec c (2 ^ Z.of_nat (msize f))); cbn [negb]; [rewrite Z.div_small by lia; reflexivity|]. replace (c / 2 ^ Z.of_nat (msize f))%Z with 1%Z by (apply (Z.div_unique _ _ 1 (c - 2 ^ Z.of_nat (msize f))); lia).
    change (1 mod 2 =? 1)%Z with true. cbn [negb]. lia.
  - replace (map (fun i => 2 ^ Z.of_nat i + 0)%Z (seq 0 (size f))) with (map (fun i => 2 ^ Z.of_nat i)%Z (seq 0 (size f))) by (apply map_ext; intros; lia). rewrite V. lia.
Qed.
Lemma inject_pow (k e : Z) : (0 <= k)%Z -> (inject_Z (2 ^ k) * pw e == pw (k + e))%Q.
Proof. intros H. rewrite pw_add, (pw_Z k H). reflexivity. Qed.
Lemma float_value x vals f qs syms : length qs = size f -> length syms = size f -> (forall i, i < size f -> nth (nth i syms 0) vals 0%Q = bit (getbit x (nth i qs 0))) ->
  (evaluate vals (float_poly f syms) == holds f x qs)%Q.
Proof.
  intros L Ls H. unfold float_poly. rewrite eval_app, (eval_register x vals f 0 qs syms) by (try lia; intros; apply H; lia).
  rewrite register_poly_read by exact L. unfold poly_of. rewrite qsum_poly, sb_exact by (apply value_basis, L). unfold holds, QFSpec.value.
  destruct (signed f) eqn:S; cbn [andb].
  - pose proof (size_signed f S) as E. pose proof (sign_bit f x qs S L) as G. rewrite <- G. rewrite eval_cons. unfold mono. cbn [fst snd]. rewrite (prod_single vals _ _ (H (msize f) ltac:(lia))).
    change (evaluate vals []) with 0%Q. rewrite inject_Z_plus. destruct (getbit x (nth (msize f) qs 0)); cbn [bit].
    + rewrite Qmult_plus_distr_l, inject_pow by lia. replace (Z.of_nat (size f) + 1 + expo f)%Z with (Z.of_nat (msize f) + 2 + expo f)%Z by lia. ring.
    + change (inject_Z 0) with 0%Q. ring.
  - change (evaluate vals []) with 0%Q. rewrite Z.add_0_r. ring.
Qed.
Lemma evals_floats x vals : forall floats off, (forall f, In f floats -> length (snd f) = size (fst f)) ->
  (forall i, i < length (concat (map snd floats)) -> nth (off + i) vals 0%Q = bit (getbit x (nth i (concat (map snd floats)) 0))) ->
  Forall2 Qeq (map (evaluate vals) (float_polys off (map fst floats))) (map (fun f => holds (fst f) x (snd f)) floats).
Proof.
  induction floats as [|[f qs] floats IH]; intros off L H; [constructor|]. cbn [map fst snd float_polys concat] in *. pose proof (L (f, qs) (or_introl eq_refl)) as Lq. cbn [fst snd] in Lq. constructor.
  - apply float_value; [exact Lq|apply seq_length|]. intros i I. rewrite seq_nth by exact I. rewrite H by (rewrite app_length; lia). rewrite app_nth1 by lia. reflexivity.
  - apply IH; [intros g I; apply L; right; exact I|]. intros i I. rewrite <- Nat.add_assoc, H by (rewrite app_length; lia). rewrite app_nth2 by lia. do 3 f_equal. lia.
Qed.
Lemma nth_Forall2 a b v : Forall2 Qeq a b -> (nth v a 0 == nth v b 0)%Q.
Proof. intros F. revert v. induction F; intros [|v]; cbn [nth]; auto; reflexivity. Qed.
Lemma eval_comp a b p : Forall2 Qeq a b -> (evaluate a p == evaluate b p)%Q.
Proof.
  intros F. induction p as [|[k vs] p IH]; [reflexivity|]. rewrite !eval_cons, IH. apply Qplus_comp; [|reflexivity]. unfold mono. cbn [fst snd]. apply Qmult_comp; [reflexivity|].
  induction vs as [|v vs IHv]; [reflexivity|]. cbn [fold_right]. rewrite IHv, (nth_Forall2 a b v F). reflexivity.
Qed.
Lemma polys_length : forall fs off, length (float_polys off fs) = length fs.
Proof. induction fs as [|f fs IH]; intros off; [reflexivity|]. cbn. rewrite IH. reflexivity. Qed.

Section circuits.
Context {R : Type} (rO rI : R) (radd rmul rsub : R -> R -> R) (ropp : R -> R) (RT : ring_theory rO rI radd rmul rsub ropp eq).
Context (expi chalf shalf : Qc -> R) (im : R) (EU : euler rO rI radd rmul ropp expi chalf shalf im).
Add Ring Rr : RT.
Notation run := (run_circuit Qcplus rO rI radd rmul ropp expi chalf shalf im).
Notation effect := (InvSpec.effect Qcplus rO rI radd rmul ropp expi chalf shalf im).
Notation diag := (AdderProofs.diag rO rI radd rmul ropp expi chalf shalf im).
Lemma diag_gphase N a q : diag N [(gGPhase a, [q])] (fun _ => a).
Proof.
  intros psi x _. change (run [(gGPhase a, [q])] psi x) with (effect (gGPhase a) [q] psi x). cbn [InvSpec.effect gGPhase mk_u3 nth].
  rewrite (CtrlProofs.on_ext radd rmul _ _ _ _ _ (CtrlProofs.br_zero rO rI radd rmul rsub ropp RT expi chalf shalf im EU a)). apply (CtrlProofs.on_scalar rO rI radd rmul rsub ropp RT).
Qed.
Lemma diag_mcp N a qs : qs <> [] -> diag N (mcp a qs) (fun x => if forallb (getbit x) qs then a else 0%Qc).
Proof.
  intros NE psi x L. destruct (exists_last NE) as (cs & q & ->). rewrite forallb_app. cbn [forallb]. rewrite andb_true_r.
  assert (G : effect (Ctrl (repeat true (length cs)) (gP a)) (cs ++ [q]) psi x = rmul (expi (if forallb (getbit x) cs && getbit x q then a else 0%Qc)) (psi x)).
  { cbn [InvSpec.effect]. rewrite repeat_length, firstn_app, Nat.sub_diag, firstn_all, app_nil_r. cbn [firstn]. rewrite ?app_nil_r. rewrite skipn_app, Nat.sub_diag, skipn_all. cbn [skipn app].
    rewrite (all1_eq _ (length cs)) by apply map_length. unfold all1.
    assert (X : forallb (fun b => b) (map (getbit x) cs) = forallb (getbit x) cs) by (clear; induction cs as [|c cs IH]; [reflexivity|]; cbn; rewrite IH; reflexivity).
    rewrite X. destruct (forallb (getbit x) cs); cbn [andb].
    - etransitivity; [exact (run_p rO rI radd rmul rsub ropp RT expi chalf shalf im EU a q psi x)|]. destruct (getbit x q); cbn [b2q]; [rewrite Qcmult_1_r|rewrite Qcmult_0_r]; reflexivity.
    - rewrite (e_0 rO rI radd rmul ropp expi chalf shalf im EU). ring. }
  destruct cs as [|c cs].
  - exact G.
  - assert (E : mcp a ((c :: cs) ++ [q]) = [(Ctrl (repeat true (length (c :: cs))) (gP a), (c :: cs) ++ [q])]).
    { unfold mcp. cbn [app]. destruct (cs ++ [q]) eqn:E; [destruct cs; discriminate|]. rewrite <- E. cbn [length]. rewrite app_length. cbn [length]. do 3 f_equal. f_equal. lia. }
    rewrite E. exact G.
Qed.
Lemma q2qc_eq a b : (a == b)%Q -> Q2Qc a = Q2Qc b.
Proof. intros H. apply Qc_is_canon. cbn [this Q2Qc]. rewrite !Qred_correct. exact H. Qed.
Lemma q2qc_add a b : (Q2Qc (a + b) = Q2Qc a + Q2Qc b)%Qc.
Proof. apply Qc_is_canon. unfold Qcplus. cbn [this Q2Qc]. rewrite !Qred_correct. reflexivity. Qed.
Definition here (qubits : list nat) (x : list bool) : list Q := map (fun q => bit (getbit x q)) qubits.
Lemma diag_monomial N qubits t m c : phase_monomial qubits t m = Some c -> diag N c (fun x => Q2Qc (t * mono (here qubits x) m)).
Proof.
  unfold phase_monomial. destruct (lookup qubits (snd m)) as [l|] eqn:E; [|discriminate]. intros H.
  assert (V : forall x, (mono (here qubits x) m == fst m * bit (forallb (getbit x) (nodup Nat.eq_dec l)))%Q) by (intros x; unfold mono, here; rewrite (lookup_prod x qubits _ l E), forallb_nodup; reflexivity).
  destruct (nodup Nat.eq_dec l) as [|q qs] eqn:D.
  - destruct qubits as [|q qs]; [discriminate|]. injection H as <-. eapply diag_ext; [apply diag_gphase|]. intros x _. cbv beta. apply f_equal. apply q2qc_eq. rewrite V. cbn [forallb bit]. ring.
  - assert (c = mcp (Q2Qc (fst m * t)) (q :: qs)) as -> by congruence. eapply diag_ext; [apply diag_mcp; discriminate|]. intros x _. cbv beta. apply f_equal. rewrite (q2qc_eq _ _ (Qmult_comp t t (Qeq_refl t) _ _ (V x))).
    destruct (forallb (getbit x) (q :: qs)); cbn [bit]; [|change 0%Qc with (Q2Qc 0)]; apply q2qc_eq; ring.
Qed.
Lemma diag_sb N regs s p t c : app_sb_phase_polynomial regs s p t = Some c -> diag N c (fun x => Q2Qc (t * evaluate (here (concat regs) x) p)).
Proof.
  unfold app_sb_phase_polynomial. destruct (s =? length (concat regs)); [|discriminate]. revert c. induction p as [|m p IH]; intros c H; cbn [map join] in H.
  - injection H as <-. eapply diag_ext; [apply (diag_nil rO rI radd rmul rsub ropp RT expi chalf shalf im EU)|]. intros x _. cbv beta. apply f_equal. change 0%Qc with (Q2Qc 0). apply q2qc_eq. unfold evaluate. cbn [fold_right]. ring.
  - destruct (phase_monomial (concat regs) t m) as [a|] eqn:A; [|discriminate]. destruct (join (map (phase_monomial (concat regs) t) p)) as [b|]; [|discriminate]. injection H as <-.
    eapply diag_ext; [apply (diag_app rO rI radd rmul rsub ropp RT expi chalf shalf im EU); [exact (diag_monomial N _ _ _ _ A)|exact (IH _ eq_refl)]|].
    intros x _. cbv beta. apply f_equal. rewrite <- q2qc_add. apply q2qc_eq. rewrite eval_cons. ring.
Qed.
Lemma diag_floats N floats s p t c : app_phase_polynomial floats s p t = Some c -> (forall f, In f floats -> length (snd f) = size (fst f)) ->
  diag N c (fun x => Q2Qc (t * evaluate (map (fun f => holds (fst f) x (snd f)) floats) p)).
Proof.
  unfold app_phase_polynomial. destruct (_ && _); [|discriminate]. intros H L. eapply diag_ext; [exact (diag_sb N _ _ _ _ _ H)|]. intros x _. cbv beta. apply f_equal. apply q2qc_eq. apply Qmult_comp; [reflexivity|].
  rewrite eval_subst. apply eval_comp. apply evals_floats; [exact L|]. intros i I. unfold here. cbn [Nat.add]. change 0%Q with (bit false). rewrite <- (nth_indep _ (bit (getbit x 0))) by (rewrite map_length; exact I). rewrite (map_nth (fun q => bit (getbit x q))). reflexivity.
Qed.
End circuits.
(** * when there is a circuit *)
Lemma join_some l : (exists c, join l = Some c) <-> forall o, In o l -> o <> None.
Proof.
  induction l as [|[a|] l IH]; cbn [join].
  - split; [intros _ o []|eexists; reflexivity].
  - split.
    + intros [c H] o [<-|I]; [discriminate|]. destruct (join l) as [d|]; [|discriminate]. revert o I. apply IH. eexists; reflexivity.
    + intros H. destruct IH as [_ IH]. destruct IH as [d ->]; [intros o I; apply H; right; exact I|eexists; reflexivity].
  - split; [intros [c H]; discriminate|]. intros H. exfalso. apply (H None); [left; reflexivity|reflexivity].
Qed.
Lemma monomial_some qubits t m : phase_monomial qubits t m <> None <-> (forall v, In v (snd m) -> v < length qubits) /\ qubits <> [].
Proof.
  unfold phase_monomial. split.
  - destruct (lookup qubits (snd m)) as [l|] eqn:E; [|tauto]. intros H. split; [exact (lookup_bound _ _ _ E)|]. intros ->. destruct (snd m) as [|v vs] eqn:S; cbn in E; [injection E as <-; cbn in H; tauto|]. destruct v; discriminate.
  - intros [B NE]. destruct (lookup_some qubits (snd m) B) as [l ->]. destruct (nodup Nat.eq_dec l); [|discriminate]. destruct qubits; [tauto|discriminate].
Qed.
Lemma sb_some regs s p t : (exists c, app_sb_phase_polynomial regs s p t = Some c) <->
  s = length (concat regs) /\ forall m, In m p -> concat regs <> [] /\ forall v, In v (snd m) -> v < s.
Proof.
  unfold app_sb_phase_polynomial. destruct (Nat.eqb_spec s (length (concat regs))) as [->|N]; [|split; [intros [c H]; discriminate|intros [E _]; tauto]].
  rewrite join_some. split.
  - intros H. split; [reflexivity|]. intros m I. pose proof (proj1 (monomial_some _ t m) (H _ (in_map _ _ _ I))). tauto.
  - intros [_ H] o I. apply in_map_iff in I as (m & <- & I). apply monomial_some. specialize (H m I). tauto.
Qed.
Lemma times_vars a b N : (forall m, In m a -> forall v, In v (snd m) -> v < N) -> (forall m, In m b -> forall v, In v (snd m) -> v < N) -> forall m, In m (times_poly a b) -> forall v, In v (snd m) -> v < N.
Proof.
  intros A B m I v J. unfold times_poly in I. apply in_flat_map in I as ([k bs] & I & I'). apply in_map_iff in I' as ([l cs] & <- & I'). cbn [snd] in J. apply in_app_iff in J as [J|J]; [exact (A _ I v J)|exact (B _ I' v J)].
Qed.
Lemma float_vars f off : forall m, In m (float_poly f (seq off (size f))) -> forall v, In v (snd m) -> v < off + size f.
Proof.
  intros m I v J. unfold float_poly in I. apply in_app_iff in I as [I|I].
  - pose proof (poly_qubits _ _ _ _ _ I J) as K. apply in_seq in K. lia.
  - destruct (signed f) eqn:S; [|destruct I]. destruct I as [<-|[]]. destruct J as [<-|[]]. pose proof (size_signed f S). rewrite seq_nth by lia. lia.
Qed.
Lemma polys_vars : forall fs off p, In p (float_polys off fs) -> forall m, In m p -> forall v, In v (snd m) -> v < off + length (concat (map (fun f => seq 0 (size f)) fs)).
Proof.
  induction fs as [|f fs IH]; intros off p I m J v K; [destruct I|]. cbn [float_polys map concat] in *. rewrite app_length, seq_length. destruct I as [<-|I].
  - pose proof (float_vars f off m J v K). lia.
  - pose proof (IH _ p I m J v K). lia.
Qed.
Lemma subst_vars subst p N : (forall q, In q subst -> forall m, In m q -> forall v, In v (snd m) -> v < N) -> forall m, In m (substitute subst p) -> forall v, In v (snd m) -> v < N.
Proof.
  intros H m I v J. unfold substitute in I. apply in_flat_map in I as (m0 & _ & I). revert m I v J. induction (snd m0) as [|w vs IH]; cbn [fold_right].
  - intros m [<-|[]] v [].
  - apply times_vars; [|exact IH]. intros m I v J. destruct (nth_in_or_default w subst (@nil monomial)) as [K|E]; [exact (H _ K m I v J)|]. change (@nth (list (Q * list nat)) w subst []) with (@nth (list monomial) w subst []) in *. destruct (eq_rect _ (In m) I _ E).
Qed.
Lemma total_size floats : (forall f, In f floats -> length (snd f) = size (fst f)) -> length (concat (map (fun f : shape * list nat => seq 0 (size (fst f))) floats)) = length (concat (map snd floats)).
Proof. induction floats as [|f fs IH]; intros H; [reflexivity|]. cbn [map concat]. rewrite !app_length, seq_length, H by (left; reflexivity). rewrite IH by (intros; apply H; right; assumption). reflexivity. Qed.
Lemma floats_some floats s p t : (forall f, In f floats -> length (snd f) = size (fst f)) -> concat (map snd floats) <> [] ->
  (exists c, app_phase_polynomial floats s p t = Some c) <-> s = length floats /\ forall m, In m p -> forall v, In v (snd m) -> v < s.
Proof.
  intros L NE. unfold app_phase_polynomial.
  assert (B : forallb (fun m : monomial => forallb (fun v => v <? s) (snd m)) p = true <-> forall m, In m p -> forall v, In v (snd m) -> v < s).
  { rewrite forallb_forall. split; intros H m I; [intros v J; apply Nat.ltb_lt; pose proof (H m I) as G; rewrite forallb_forall in G; exact (G v J)|apply forallb_forall; intros v J; apply Nat.ltb_lt; exact (H m I v J)]. }
  split.
  - intros [c H]. destruct (Nat.eqb_spec s (length floats)) as [->|]; [|discriminate]. cbn [andb] in H. split; [reflexivity|]. apply B. match type of H with (if ?b then _ else _) = _ => destruct b eqn:F end; [exact F|discriminate].
  - intros [-> V]. rewrite Nat.eqb_refl. cbn [andb]. match goal with |- exists c, (if ?b then _ else _) = _ => replace b with true by (symmetry; exact (proj2 B V)) end. apply sb_some. split; [apply total_size, L|]. intros m I. split; [exact NE|]. apply (subst_vars (float_polys 0 (map fst floats)) p) with (2 := I).
    intros q Iq m' Im v Iv. pose proof (polys_vars _ _ _ Iq _ Im _ Iv) as X. rewrite map_map in X. exact X.
Qed.
