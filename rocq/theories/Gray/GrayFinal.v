From Coq Require Import Field.
From Verif.Gray Require Import GrayModel GraySpec GrayProofs GrayWalk GrayEmit.
Local Open Scope nat_scope.

Lemma index_be n x : index n x = be n x.
Proof. unfold index. induction n as [|n IH]; [reflexivity|]. rewrite seq_S, fold_left_app, IH. reflexivity. Qed.
Lemma odd_in_par n p x : odd_in n p x = par n p x.
Proof.
  unfold odd_in. induction n as [|n IH]; [reflexivity|]. rewrite seq_S, filter_app, app_length. cbn [Nat.add filter par]. rewrite Nat.odd_add, IH.
  destruct (tb p n && tb x n); cbn [length]; rewrite xorb_comm; reflexivity.
Qed.
Lemma bit_nat n : N.of_nat (2 ^ n) = bit n.
Proof. unfold bit. induction n as [|n IH]; [reflexivity|]. rewrite Nat.pow_succ_r', Nat2N.inj_mul, IH, (Nat2N.inj_succ n), N.pow_succ_r by lia. reflexivity. Qed.
Definition sumq (l : list nat) (f : nat -> Qc) : Qc := fold_right (fun i s => (f i + s)%Qc) 0%Qc l.
Lemma sumq_app l2 f : forall l1, sumq (l1 ++ l2) f = (sumq l1 f + sumq l2 f)%Qc.
Proof. unfold sumq. induction l1 as [|x l1 IH]; cbn; [ring|]. rewrite IH. ring. Qed.
Lemma sumq_ext l f g : (forall i, In i l -> f i = g i) -> sumq l f = sumq l g.
Proof. unfold sumq. induction l as [|x l IH]; intros H; cbn; [reflexivity|]. rewrite IH by (intros; apply H; right; assumption). rewrite H by (left; reflexivity). reflexivity. Qed.
Lemma sumq_shift k f : forall m a, sumq (seq (k + a) m) f = sumq (seq a m) (fun i => f (k + i)).
Proof. unfold sumq. induction m as [|m IH]; intros a; cbn; [reflexivity|]. rewrite <- Nat.add_succ_r, IH. reflexivity. Qed.
Lemma bsum_list n : forall f, bsum n f = sumq (seq 0 (2 ^ n)) (fun i => f (N.of_nat i)).
Proof.
  induction n as [|n IH]; intros f; [cbn; ring|]. cbn [bsum]. rewrite Nat.pow_succ_r'. replace (2 * 2 ^ n) with (2 ^ n + 2 ^ n) by lia. rewrite seq_app, sumq_app, !IH. f_equal.
  replace (0 + 2 ^ n) with (2 ^ n + 0) by lia. rewrite sumq_shift. apply sumq_ext. intros i Hi. apply in_seq in Hi. f_equal. rewrite lxor_bit_add; [rewrite Nat2N.inj_add, bit_nat; reflexivity|].
  unfold state. rewrite <- bit_nat. lia.
Qed.
Lemma fwht_scale n a c : forall x, fwht n (fun y => (a y / c)%Qc) x = (fwht n a x / c)%Qc.
Proof. induction n as [|n IH]; intros x; cbn [fwht]; [reflexivity|]. unfold wht_round. rewrite !IH. unfold Qcdiv. destruct (tb x n); ring. Qed.
Lemma shifts_coefficient n phases p : state n p -> p <> 0%N ->
  phase_shifts n (fun x => nth (be n x) phases 0%Qc) p = (coefficient n phases p / (two_to n / (1 + 1)))%Qc.
Proof.
  intros Hp H0. unfold phase_shifts, zero_at. destruct (N.eqb_spec p 0); [contradiction|]. rewrite (fwht_scale n (fun x => nth (be n x) phases 0%Qc)). f_equal.
  rewrite fwht_value by exact Hp. rewrite bsum_list. unfold coefficient. apply sumq_ext. intros i Hi. cbv zeta. rewrite odd_in_par, (par_sym n p). unfold phase_of. rewrite index_be.
  destruct (par n _ p); cbn [sg]; ring.
Qed.
Lemma half_nz n : (two_to n / (1 + 1))%Qc <> 0%Qc.
Proof.
  intros E. apply (two_to_nz n). transitivity ((two_to n / (1 + 1)) * (1 + 1))%Qc; [field; discriminate|]. rewrite E. ring.
Qed.
Lemma div_zero (a c : Qc) : c <> 0%Qc -> (a / c)%Qc = 0%Qc <-> a = 0%Qc.
Proof. intros Hc. split; intros E; [|rewrite E; unfold Qcdiv; ring]. transitivity ((a / c) * c)%Qc; [field; exact Hc|]. rewrite E. ring. Qed.
Lemma block_range b p : in_block b p <-> (bit b <= p < bit (S b))%N.
Proof.
  assert (E : bit (S b) = (bit b + bit b)%N) by (unfold bit; rewrite Nat2N.inj_succ, N.pow_succ_r by lia; lia). split.
  - intros (y & Hy & ->). rewrite lxor_bit_add by exact Hy. unfold state in Hy. lia.
  - intros H. exists (p - bit b)%N. assert (S : state b (p - bit b)) by (unfold state; lia). split; [exact S|]. rewrite lxor_bit_add by exact S. lia.
Qed.
Lemma least_pair_min n phases b : b < n -> least_pair n phases b -> min_ok b (phase_shifts n (fun x => nth (be n x) phases 0%Qc)).
Proof.
  intros Hb H y Hy D Min.
  assert (NZ : forall z, state b z -> (phase_shifts n (fun x => nth (be n x) phases 0%Qc) (N.lxor z (bit b)) <> 0%Qc <-> coefficient n phases (N.lxor z (bit b)) <> 0%Qc)).
  { intros z Hz. assert (IB : in_block b (N.lxor z (bit b))) by (exists z; auto). destruct (block_disjoint b _ IB) as (A & B). rewrite shifts_coefficient.
    - split; intros F E; apply F; [apply (proj2 (div_zero _ _ (half_nz n)) E)|apply (proj1 (div_zero _ _ (half_nz n)) E)].
    - revert B. apply state_mono. lia.
    - intros E. apply A. rewrite E. apply state_0. }
  assert (IB : in_block b (N.lxor y (bit b))) by (exists y; auto).
  destruct (H (N.lxor y (bit b))) as [E|(k & Hk & E)].
  - apply block_range, IB.
  - apply NZ; assumption.
  - intros q Hq Dq. apply block_range in Hq. destruct Hq as (z & Hz & ->). rewrite !lxor_bit_add by assumption. apply N.add_le_mono_l. apply Min; [exact Hz|]. apply NZ; assumption.
  - left. rewrite lxor_bit_add in E by exact Hy. lia.
  - right. exists k. split; [exact Hk|]. rewrite lxor_bit_add in E by exact Hy. lia.
Qed.
Lemma shifts_0 n t : phase_shifts n t 0%N = 0%Qc.
Proof. reflexivity. Qed.
Lemma index_0 n : index n 0 = 0.
Proof. rewrite index_be. induction n as [|n IH]; [reflexivity|]. cbn [be]. rewrite IH, tb_0. reflexivity. Qed.
Theorem gray_correct n phases : (forall b, b < n -> least_pair n phases b) -> forall x, state n x ->
  action (gray_synth_qc n phases false) x = ((phase_of n phases x - phase_of n phases 0)%Qc, x).
Proof.
  intros H x Hx. unfold gray_synth_qc, gray_synth. rewrite (emit_all n x _ n).
  - f_equal. pose proof (shifts_total n (fun x => nth (be n x) phases 0%Qc) x Hx) as E. cbv beta in E. unfold ind. rewrite E. unfold phase_of. rewrite !index_be. reflexivity.
  - lia.
  - apply shifts_0.
  - reflexivity.
  - intros b Hb. apply least_pair_min; auto.
Qed.
Theorem gray_tolerant n phases : least_pair (S n) phases n ->
  exists shift, (forall x, action (gray_synth_qc (S n) phases true) x = (shift x, x)) /\
    forall x, state (S n) x -> (shift x - shift (N.lxor x (bit n)) = phase_of (S n) phases x - phase_of (S n) phases (N.lxor x (bit n)))%Qc.
Proof.
  intros H. set (t := fun x => nth (be (S n) x) phases 0%Qc). set (ph := phase_shifts (S n) t).
  exists (fun x => (- left (S n) n x ph)%Qc). split.
  - intros x. unfold gray_synth_qc, gray_synth. fold t ph. replace (S n - 1) with n by lia. rewrite seq_S, rev_app_distr. cbn [rev app Nat.add flat_map].
    rewrite emit_top.
    + pose proof (one_bit_ok (S n) n x ph (fun p => negb (Qc_eq_bool (ph p) 0%Qc)) ltac:(lia) (shifts_0 _ _)) as O.
      destruct (emit None _ ph) as [g ph']. apply O; [reflexivity|]. apply least_pair_min; [lia|exact H].
    + intros c u p Hin. apply in_flat_map in Hin. destruct Hin as (b & Hb & Hin). apply one_bit_target in Hin. apply in_rev, in_seq in Hb. lia.
    + intros c u p Hin. apply one_bit_target in Hin. exact Hin.
  - intros x Hx. set (x' := N.lxor x (bit n)). assert (Hx' : state (S n) x') by (apply state_lxor; [exact Hx|apply state_bit; lia]).
    pose proof (shifts_total (S n) t x Hx) as E. pose proof (shifts_total (S n) t x' Hx') as E'. fold ph in E, E'. unfold phase_of. rewrite !index_be. change (nth (be (S n) x) phases 0%Qc) with (t x). change (nth (be (S n) x') phases 0%Qc) with (t x').
    transitivity ((t x - t 0%N) - (t x' - t 0%N))%Qc; [|ring]. rewrite <- E, <- E'. change (bsum (S n)) with (fun f => (bsum n f + bsum n (fun y => f (N.lxor y (bit n))))%Qc). cbv beta. unfold left, ind.
    rewrite (bsum_ext n (fun p => ph p * (if par (S n) p x' then 1 else 0))%Qc (fun p => ph p * (if par (S n) p x then 1 else 0))%Qc); [ring|].
    intros p Hp. f_equal. assert (Q : par (S n) p x' = par (S n) p x); [|rewrite Q; reflexivity]. unfold x'. rewrite (par_sym _ p (N.lxor x (bit n))), par_lxor, par_bit, (par_sym _ x p), (proj1 (state_bits n p) Hp) by lia.
    rewrite andb_false_r. apply xorb_false_r.
Qed.

(** ** lists of phases that are always right *)
Lemma be_lt n x : be n x < 2 ^ n.
Proof. induction n as [|n IH]; [cbn; lia|]. cbn [be]. rewrite Nat.pow_succ_r'. destruct (tb x n); lia. Qed.
Lemma be_inj n x y : state n x -> state n y -> be n x = be n y -> x = y.
Proof.
  intros Hx Hy H. apply N_ext. intros j. destruct (Nat.lt_ge_cases j n) as [Hj|Hj]; [|rewrite (proj1 (state_bits n x) Hx), (proj1 (state_bits n y) Hy) by exact Hj; reflexivity].
  clear Hx Hy. revert j Hj. induction n as [|n IH]; [lia|]. cbn [be] in H. intros j Hj. destruct (tb x n) eqn:Tx, (tb y n) eqn:Ty; try lia.
  - destruct (Nat.eq_dec j n) as [->|]; [congruence|]. apply IH; lia.
  - destruct (Nat.eq_dec j n) as [->|]; [congruence|]. apply IH; lia.
Qed.
Lemma coefficient_bsum n phases p : coefficient n phases p = bsum n (fun x => sg (par n p x) * nth (be n x) phases 0)%Qc.
Proof.
  rewrite bsum_list. unfold coefficient. apply sumq_ext. intros i _. cbv zeta. rewrite odd_in_par. unfold phase_of. rewrite index_be. destruct (par n p _); cbn [sg]; ring.
Qed.
Definition ones (n : nat) : N := N.ones (N.of_nat n).
Lemma tb_ones n j : tb (ones n) j = (j <? n).
Proof. unfold tb, ones. destruct (Nat.ltb_spec j n); [apply N.ones_spec_low|apply N.ones_spec_high]; lia. Qed.
Lemma ones_state n : state n (ones n).
Proof. apply state_bits. intros j Hj. rewrite tb_ones. apply Nat.ltb_ge. exact Hj. Qed.
Lemma be_ones n m : n <= m -> be n (ones m) = 2 ^ n - 1.
Proof.
  induction n as [|n IH]; intros H; [reflexivity|]. cbn [be]. rewrite IH, tb_ones by lia. destruct (Nat.ltb_spec n m); [|lia]. rewrite Nat.pow_succ_r'. pose proof (Nat.pow_nonzero 2 n). lia.
Qed.
Lemma nth_last_phase n a i : i < 2 ^ n -> nth i (repeat 0%Qc (2 ^ n - 1) ++ [a]) 0%Qc = if i =? 2 ^ n - 1 then a else 0%Qc.
Proof.
  intros H. destruct (Nat.eqb_spec i (2 ^ n - 1)) as [->|].
  - rewrite app_nth2; rewrite repeat_length; [|lia]. rewrite Nat.sub_diag. reflexivity.
  - rewrite app_nth1 by (rewrite repeat_length; lia). apply nth_repeat.
Qed.
Lemma sg_nz b : sg b <> 0%Qc.
Proof. destruct b; discriminate. Qed.
Lemma Qc_mul_nz (a b : Qc) : a <> 0%Qc -> b <> 0%Qc -> (a * b)%Qc <> 0%Qc.
Proof. intros Ha Hb E. apply Qcmult_integral in E. tauto. Qed.
Lemma mcp_pairs n a b : least_pair n (repeat 0%Qc (2 ^ n - 1) ++ [a]) b.
Proof.
  intros p Hp D Min. left. destruct (Qc_eq_dec a 0%Qc) as [->|Ha].
  - exfalso. apply D. rewrite coefficient_bsum, (bsum_ext n _ (fun _ => 0%Qc)), bsum_0; [reflexivity|]. intros x Hx. rewrite nth_last_phase by apply be_lt. destruct (_ =? _); ring.
  - assert (C : forall q, coefficient n (repeat 0%Qc (2 ^ n - 1) ++ [a]) q = (sg (par n q (ones n)) * a)%Qc).
    { intros q. rewrite coefficient_bsum, (bsum_one n _ (ones n) (ones_state n)), be_ones, nth_last_phase, Nat.eqb_refl by (try lia; pose proof (Nat.pow_nonzero 2 n); lia).
      rewrite (bsum_ext n (zero_at _ _) (fun _ => 0%Qc)), bsum_0; [ring|]. intros x Hx. unfold zero_at. destruct (N.eqb_spec x (ones n)) as [|Hne]; [reflexivity|].
      rewrite nth_last_phase by apply be_lt. destruct (Nat.eqb_spec (be n x) (2 ^ n - 1)) as [E|]; [|ring]. exfalso. apply Hne. apply (be_inj n); [exact Hx|apply ones_state|]. rewrite be_ones by lia. exact E. }
    specialize (Min (bit b)). assert (bit b < bit (S b))%N by (unfold bit; apply N.pow_lt_mono_r; lia). assert (p <= bit b)%N; [|lia]. apply Min; [lia|]. rewrite C. apply Qc_mul_nz; [apply sg_nz|exact Ha].
Qed.
Lemma nth_last_two n a0 a1 i : i < 2 ^ S n -> nth i (repeat 0%Qc (2 ^ S n - 2) ++ [a0; a1]) 0%Qc =
  if i =? 2 ^ S n - 1 then a1 else if i =? 2 ^ S n - 2 then a0 else 0%Qc.
Proof.
  intros H. assert (2 <= 2 ^ S n) by (rewrite Nat.pow_succ_r'; pose proof (Nat.pow_nonzero 2 n); lia).
  destruct (Nat.eqb_spec i (2 ^ S n - 1)) as [->|]; [|destruct (Nat.eqb_spec i (2 ^ S n - 2)) as [->|]].
  - rewrite app_nth2; rewrite repeat_length; [|lia]. replace (2 ^ S n - 1 - (2 ^ S n - 2)) with 1 by lia. reflexivity.
  - rewrite app_nth2; rewrite repeat_length; [|lia]. rewrite Nat.sub_diag. reflexivity.
  - rewrite app_nth1 by (rewrite repeat_length; lia). apply nth_repeat.
Qed.
Lemma be_ones_but n : be (S n) (N.lxor (ones (S n)) (bit n)) = 2 ^ S n - 2.
Proof.
  cbn [be]. rewrite tb_lxor, tb_ones, tb_bit, Nat.eqb_refl. destruct (Nat.ltb_spec n (S n)); [|lia]. cbn [xorb].
  assert (E : forall m, m <= n -> be m (N.lxor (ones (S n)) (bit n)) = 2 ^ m - 1).
  { induction m as [|m IH]; intros Hm; [reflexivity|]. cbn [be]. rewrite IH, tb_lxor, tb_ones, tb_bit by lia. destruct (Nat.ltb_spec m (S n)); [|lia]. destruct (Nat.eqb_spec n m); [lia|]. cbn [xorb].
    rewrite Nat.pow_succ_r'. pose proof (Nat.pow_nonzero 2 m). lia. }
  rewrite E by lia. rewrite Nat.pow_succ_r'. lia.
Qed.
Lemma two_pairs n a0 a1 b : b <= n -> least_pair (S n) (repeat 0%Qc (2 ^ S n - 2) ++ [a0; a1]) b.
Proof.
  intros Hb p Hp D Min. left. set (phs := repeat 0%Qc (2 ^ S n - 2) ++ [a0; a1]) in *. set (o := ones (S n)). set (o' := N.lxor o (bit n)).
  assert (P2 : 2 <= 2 ^ S n) by (rewrite Nat.pow_succ_r'; pose proof (Nat.pow_nonzero 2 n); lia).
  assert (So : state (S n) o) by apply ones_state. assert (So' : state (S n) o') by (apply state_lxor; [exact So|apply state_bit; lia]).
  assert (Bo : be (S n) o = 2 ^ S n - 1) by (apply be_ones; lia). assert (Bo' : be (S n) o' = 2 ^ S n - 2) by apply be_ones_but.
  assert (NE : o <> o') by (intros E; rewrite E in Bo; lia).
  assert (C : forall q, coefficient (S n) phs q = (sg (par (S n) q o) * (a1 + sg (tb q n) * a0))%Qc).
  { intros q. rewrite coefficient_bsum, (bsum_one (S n) _ o So), (bsum_one (S n) (zero_at _ o) o' So'). rewrite (bsum_ext (S n) (zero_at _ o') (fun _ => 0%Qc)), bsum_0.
    - unfold zero_at. destruct (N.eqb_spec o' o); [congruence|]. rewrite Bo, Bo'. unfold phs. rewrite !nth_last_two by lia. rewrite Nat.eqb_refl. destruct (Nat.eqb_spec (2 ^ S n - 2) (2 ^ S n - 1)); [lia|]. rewrite Nat.eqb_refl.
      unfold o'. rewrite (par_sym _ q (N.lxor o (bit n))), par_lxor, (par_sym _ o q), par_bit. destruct (Nat.ltb_spec n (S n)); [|lia]. cbn [andb]. rewrite sg_xor. ring.
    - intros x Hx. unfold zero_at. destruct (N.eqb_spec x o') as [|N1]; [reflexivity|]. destruct (N.eqb_spec x o) as [|N2]; [reflexivity|]. unfold phs. rewrite nth_last_two by apply be_lt.
      destruct (Nat.eqb_spec (be (S n) x) (2 ^ S n - 1)) as [E|]; [exfalso; apply N2, (be_inj (S n)); congruence|].
      destruct (Nat.eqb_spec (be (S n) x) (2 ^ S n - 2)) as [E|]; [exfalso; apply N1, (be_inj (S n)); congruence|]. ring. }
  assert (B1 : (bit b < bit (S b))%N) by (unfold bit; apply N.pow_lt_mono_r; lia). assert (p <= bit b)%N; [|lia]. apply Min; [lia|]. rewrite C. apply Qc_mul_nz; [apply sg_nz|]. rewrite C in D.
  assert (T : tb (bit b) n = tb p n).
  { apply block_range in Hp. destruct Hp as (y & Hy & ->). rewrite tb_lxor, (proj1 (state_bits b y) Hy), xorb_false_l by lia. reflexivity. }
  rewrite T. intros E. apply D. rewrite E. ring.
Qed.
Lemma few_qubits n phases b : n <= 2 -> b < n -> least_pair n phases b.
Proof.
  intros Hn Hb p Hp D Min. destruct b as [|b]; [left; unfold bit in *; cbn in *; lia|]. assert (b = 0) by lia. subst b. unfold bit in Hp |- *. cbn in Hp.
  assert (p = 2 \/ p = 3)%N as [->| ->] by lia; [left; reflexivity|right]. exists 0. split; [lia|reflexivity].
Qed.

(** ** phase functions of registers *)
Fixpoint flat (sizes vs : list nat) : nat :=
  match sizes, vs with s :: r, v :: vs => v * 2 ^ list_sum r + flat r vs | _, _ => 0 end.
Lemma products_length sizes : length (products sizes) = 2 ^ list_sum sizes.
Proof.
  induction sizes as [|s r IH]; [reflexivity|]. cbn [products list_sum fold_right]. fold (list_sum r). rewrite Nat.pow_add_r, <- IH.
  assert (G : forall k a, length (flat_map (fun i => map (cons i) (products r)) (seq a k)) = k * length (products r)).
  { induction k as [|k IHk]; intros a; [reflexivity|]. cbn [seq flat_map]. rewrite app_length, map_length, IHk. reflexivity. }
  apply G.
Qed.
Lemma flat_lt sizes vs : fit sizes vs -> flat sizes vs < 2 ^ list_sum sizes.
Proof.
  induction 1 as [|s v r vs Hv F IH]; [cbn; lia|]. cbn [flat list_sum fold_right]. fold (list_sum r). rewrite Nat.pow_add_r. nia.
Qed.
Lemma nth_blocks {B} (f : nat -> list B) (L : nat) (d : B) : (forall i, length (f i) = L) -> forall k a i j, i < k -> j < L ->
  nth (i * L + j) (flat_map f (seq a k)) d = nth j (f (a + i)) d.
Proof.
  intros HL. induction k as [|k IH]; intros a i j Hi Hj; [lia|]. cbn [seq flat_map]. destruct i as [|i].
  - rewrite app_nth1 by (rewrite HL; lia). rewrite Nat.add_0_r. reflexivity.
  - rewrite app_nth2 by (rewrite HL; nia). rewrite HL. replace (S i * L + j - L) with (i * L + j) by nia. rewrite IH by lia. do 2 f_equal. lia.
Qed.
Lemma products_nth sizes vs : fit sizes vs -> nth (flat sizes vs) (products sizes) [] = vs.
Proof.
  induction 1 as [|s v r vs Hv F IH]; [reflexivity|]. cbn [flat products]. rewrite (@nth_blocks (list nat) (fun i => map (cons i) (products r)) (2 ^ list_sum r)).
  - cbn [Nat.add]. rewrite (nth_indep _ [] (v :: [])) by (rewrite map_length, products_length; apply flat_lt, F). rewrite (map_nth (cons v)), IH. reflexivity.
  - intros i. rewrite map_length. apply products_length.
  - exact Hv.
  - apply flat_lt, F.
Qed.
Fixpoint bev (a : nat) (l : list bool) : nat := match l with [] => a | b :: l => bev (2 * a + if b then 1 else 0) l end.
Lemma bev_app l2 : forall l1 a, bev a (l1 ++ l2) = bev (bev a l1) l2.
Proof. induction l1 as [|b l1 IH]; intros a; cbn; [reflexivity|]. apply IH. Qed.
Lemma bev_start l : forall a, bev a l = a * 2 ^ length l + bev 0 l.
Proof. induction l as [|b l IH]; intros a; cbn [bev length]; [cbn; lia|]. rewrite IH, (IH (2 * 0 + _)), Nat.pow_succ_r'. destruct b; nia. Qed.
Lemma bev_msb s : forall v, v < 2 ^ s -> bev 0 (msb_bits s v) = v.
Proof.
  assert (L : forall s v, length (msb_bits s v) = s) by (induction s0; intros; cbn; [reflexivity|rewrite IHs0; reflexivity]).
  assert (G : forall s v, bev 0 (msb_bits s v) = v mod 2 ^ s).
  { induction s0 as [|s0 IH]; intros v; cbn [msb_bits bev]; [rewrite Nat.mod_1_r; reflexivity|]. rewrite bev_start, L, IH. rewrite Nat.testbit_odd, Nat.shiftr_div_pow2.
    rewrite Nat.pow_succ_r', (Nat.mul_comm 2 (2 ^ s0)), Nat.mod_mul_r by (try apply Nat.pow_nonzero; lia). rewrite (Nat.add_comm (v mod 2 ^ s0)). f_equal. cbn [Nat.mul Nat.add].
    rewrite (Nat.mul_comm (2 ^ s0)). f_equal. rewrite <- Nat.bit0_mod, Nat.bit0_odd. destruct (Nat.odd _); reflexivity. }
  intros v H. rewrite G. apply Nat.mod_small, H.
Qed.
Lemma index_bev l x : holds x l -> index (length l) x = bev 0 l.
Proof.
  intros (_ & H). rewrite index_be. revert H. induction l as [|b l IH] using rev_ind; intros H; [reflexivity|]. rewrite app_length, Nat.add_1_r in *. cbn [be]. rewrite IH.
  - rewrite bev_app. cbn [bev]. rewrite H by lia. rewrite app_nth2, Nat.sub_diag by lia. reflexivity.
  - intros j Hj. rewrite H by lia. apply app_nth1. exact Hj.
Qed.
Lemma msb_length s v : length (msb_bits s v) = s.
Proof. induction s; cbn; congruence. Qed.
Lemma registers_length sizes vs : fit sizes vs -> length (registers sizes vs) = list_sum sizes.
Proof. unfold registers. induction 1 as [|s v r vs Hv F IH]; [reflexivity|]. cbn [combine flat_map list_sum fold_right fst snd]. rewrite app_length, msb_length, IH. reflexivity. Qed.
Lemma registers_value sizes vs : fit sizes vs -> bev 0 (registers sizes vs) = flat sizes vs.
Proof.
  intros F0. pose proof F0 as F1. revert F1. induction F0 as [|s v r vs Hv F IH]; intros F1; [reflexivity|]. unfold registers in *. cbn [combine flat_map fst snd flat].
  rewrite bev_app, bev_msb, bev_start, IH by assumption. fold (registers r vs). rewrite registers_length by exact F. reflexivity.
Qed.
Lemma holds_0 l : Forall (eq false) l -> holds 0 l.
Proof.
  intros F. split; [apply state_0|]. intros j Hj. rewrite tb_0. rewrite Forall_forall in F. apply F, nth_In, Hj.
Qed.
Lemma fit_zeros sizes : fit sizes (map (fun _ => 0) sizes).
Proof. induction sizes as [|s r IH]; constructor; [pose proof (Nat.pow_nonzero 2 s); lia|exact IH]. Qed.
Lemma flat_zeros sizes : flat sizes (map (fun _ => 0) sizes) = 0.
Proof. induction sizes as [|s r IH]; cbn; [reflexivity|exact IH]. Qed.
Lemma products_value sizes vs (f : list nat -> Qc) : fit sizes vs -> nth (flat sizes vs) (map f (products sizes)) 0%Qc = f vs.
Proof.
  intros F. rewrite (nth_indep _ 0%Qc (f [])) by (rewrite map_length, products_length; apply flat_lt, F). rewrite map_nth, products_nth by exact F. reflexivity.
Qed.
Theorem phase_function_correct sizes phi t : let n := list_sum sizes in let phases := map (fun vs => (phi vs * t)%Qc) (products sizes) in
  (forall b, b < n -> least_pair n phases b) -> forall vs x, fit sizes vs -> holds x (registers sizes vs) ->
  action (app_phase_function sizes phi t) x = ((phi vs * t - phi (map (fun _ => 0%nat) sizes) * t)%Qc, x).
Proof.
  intros n phases H vs x F Hx. unfold app_phase_function. fold n phases. pose proof Hx as (Sx & _). rewrite registers_length in Sx by exact F. fold n in Sx.
  rewrite gray_correct by assumption. f_equal. unfold phase_of. pose proof (index_bev _ _ Hx) as E. rewrite registers_length, registers_value in E by exact F. fold n in E. rewrite E, index_0.
  unfold phases. rewrite products_value by exact F. f_equal. pose proof (products_value sizes _ (fun vs => phi vs * t)%Qc (fit_zeros sizes)) as Z. rewrite flat_zeros in Z. rewrite Z. reflexivity.
Qed.
(** control *)
Lemma be_split k : forall n x, be (k + n) x = be k x * 2 ^ n + be n (N.shiftr x (N.of_nat k)).
Proof.
  induction n as [|n IH]; intros x; [rewrite Nat.add_0_r; cbn; lia|]. rewrite Nat.add_succ_r. cbn [be]. rewrite IH, Nat.pow_succ_r'.
  replace (tb (N.shiftr x (N.of_nat k)) n) with (tb x (k + n)); [lia|]. unfold tb. rewrite N.shiftr_spec by lia. f_equal. lia.
Qed.
Lemma control_phase_of k n cs phases x : length phases = 2 ^ n ->
  phase_of (k + n) (control_phases k cs phases) x = if index k x =? cs then phase_of n phases (N.shiftr x (N.of_nat k)) else 0%Qc.
Proof.
  intros HL. unfold phase_of. rewrite !index_be, be_split. unfold control_phases. rewrite (@nth_blocks Qc _ (2 ^ n)).
  - cbn [Nat.add]. destruct (be k x =? cs); [reflexivity|]. apply nth_repeat.
  - intros i. destruct (i =? cs); [exact HL|]. rewrite repeat_length. exact HL.
  - apply be_lt.
  - apply be_lt.
Qed.
Theorem mcp_correct n a x : 0 < n -> state n x ->
  action (gray_synth_qc n (repeat 0%Qc (2 ^ n - 1) ++ [a]) false) x = (if N.eqb x (N.ones (N.of_nat n)) then a else 0%Qc, x).
Proof.
  intros Hn Hx. rewrite gray_correct by (try assumption; intros; apply mcp_pairs). f_equal. unfold phase_of. rewrite index_0, index_be.
  assert (2 <= 2 ^ n) by (destruct n; [lia|]; rewrite Nat.pow_succ_r'; pose proof (Nat.pow_nonzero 2 n); lia).
  rewrite !nth_last_phase by (try apply be_lt; lia). destruct (Nat.eqb_spec 0 (2 ^ n - 1)); [lia|]. fold (ones n).
  destruct (N.eqb_spec x (ones n)) as [->|Hne].
  - rewrite be_ones, Nat.eqb_refl by lia. ring.
  - destruct (Nat.eqb_spec (be n x) (2 ^ n - 1)) as [E|]; [|ring]. exfalso. apply Hne, (be_inj n); [exact Hx|apply ones_state|]. rewrite be_ones by lia. exact E.
Qed.
Lemma be_full n x : (be n x = 2 ^ n - 1) <-> forallb (tb x) (seq 0 n) = true.
Proof.
  induction n as [|n IH]; [cbn; tauto|]. cbn [be]. rewrite seq_S, forallb_app, Nat.pow_succ_r'. cbn [forallb Nat.add]. rewrite andb_true_r, andb_true_iff, <- IH.
  pose proof (Nat.pow_nonzero 2 n). pose proof (be_lt n x). destruct (tb x n); split; intros; try (split; [lia|reflexivity]); intuition; try lia; discriminate.
Qed.
Theorem pair_correct n a0 a1 x : 0 < n -> state (S n) x ->
  action (gray_synth_qc (S n) (repeat 0%Qc (2 ^ S n - 2) ++ [a0; a1]) false) x =
  (if forallb (tb x) (seq 0 n) then (if tb x n then a1 else a0) else 0%Qc, x).
Proof.
  intros Hn Hx. rewrite gray_correct by (try assumption; intros; apply two_pairs; lia). f_equal. unfold phase_of. rewrite index_0, index_be.
  assert (2 <= 2 ^ n) by (destruct n; [lia|]; rewrite Nat.pow_succ_r'; pose proof (Nat.pow_nonzero 2 n); lia).
  assert (E2 : 2 ^ S n = 2 * 2 ^ n) by apply Nat.pow_succ_r'. pose proof (be_full n x) as BF. pose proof (be_lt n x) as BL.
  rewrite !nth_last_two by (try apply be_lt; lia). destruct (Nat.eqb_spec 0 (2 ^ S n - 1)); [lia|]. destruct (Nat.eqb_spec 0 (2 ^ S n - 2)); [lia|]. cbn [be].
  destruct (forallb (tb x) (seq 0 n)) eqn:F.
  - rewrite (proj2 BF eq_refl), E2. destruct (tb x n).
    + destruct (Nat.eqb_spec (2 * (2 ^ n - 1) + 1) (2 * 2 ^ n - 1)); [ring|lia].
    + destruct (Nat.eqb_spec (2 * (2 ^ n - 1) + 0) (2 * 2 ^ n - 1)); [lia|]. destruct (Nat.eqb_spec (2 * (2 ^ n - 1) + 0) (2 * 2 ^ n - 2)); [ring|lia].
  - assert (NF : be n x <> 2 ^ n - 1) by (intros E; apply BF in E; discriminate). rewrite E2.
    destruct (Nat.eqb_spec (2 * be n x + (if tb x n then 1 else 0)) (2 * 2 ^ n - 1)) as [E|]; [destruct (tb x n); lia|].
    destruct (Nat.eqb_spec (2 * be n x + (if tb x n then 1 else 0)) (2 * 2 ^ n - 2)) as [E|]; [destruct (tb x n); lia|]. ring.
Qed.
