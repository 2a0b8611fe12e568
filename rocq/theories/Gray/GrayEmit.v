From Coq Require Import Field.
From Verif.Gray Require Import GrayModel GraySpec GrayProofs GrayWalk.
Local Open Scope nat_scope.

Lemma lowest_bit k : match bit k with N0 => 0 | Npos p => lowest p end = k.
Proof.
  induction k as [|k IH]; [reflexivity|]. assert (E : bit (S k) = N.double (bit k)).
  { unfold bit. rewrite Nat2N.inj_succ, N.pow_succ_r by lia. destruct (2 ^ N.of_nat k)%N; reflexivity. }
  rewrite E. destruct (bit k) as [|p] eqn:B; [unfold bit in B; pose proof (N.pow_nonzero 2 (N.of_nat k)); lia|]. cbn. rewrite IH. reflexivity.
Qed.
Lemma control_adj x k : control_of x (N.lxor x (bit k)) = k.
Proof. unfold control_of. rewrite <- N.lxor_assoc, N.lxor_nilpotent, N.lxor_0_l. apply lowest_bit. Qed.

Lemma action_app l2 : forall l1 x, action (l1 ++ l2) x =
  let (p1, y) := action l1 x in let (p2, z) := action l2 y in ((p1 + p2)%Qc, z).
Proof.
  induction l1 as [|g l1 IH]; intros x; cbn [app action].
  - destruct (action l2 x) as [p z]. f_equal. ring.
  - destruct g as [c t|a q]; [apply IH|]. rewrite IH. destruct (action l1 x) as [p1 y], (action l2 y) as [p2 z]. f_equal. destruct (tb x q); ring.
Qed.
Lemma emit_app l2 : forall l1 ph, emit None (l1 ++ l2) ph =
  let (g1, ph1) := emit None l1 ph in let (g2, ph2) := emit None l2 ph1 in (g1 ++ g2, ph2).
Proof.
  induction l1 as [|((c, t), p) l1 IH]; intros ph; cbn [app emit].
  - destruct (emit None l2 ph). reflexivity.
  - destruct (Qc_eq_bool (ph p) 0%Qc); rewrite IH.
    + destruct (emit None l1 ph) as [g1 ph1]. destruct (emit None l2 ph1). rewrite app_assoc. reflexivity.
    + destruct (emit None l1 (zero_at ph p)) as [g1 ph1]. destruct (emit None l2 ph1). rewrite <- app_assoc. reflexivity.
Qed.

Section Walk.
Variables (W op : nat) (x : N).
Hypothesis Hop : op < W.
Let B := bit op.
Definition cur (tr : N) : N := if par W tr x then N.lxor x (bit op) else x.
Definition ind (b : bool) : Qc := if b then 1%Qc else 0%Qc.
Definition left (ph : N -> Qc) : Qc := bsum op (fun y => (ph (N.lxor y (bit op)) * ind (par W (N.lxor y (bit op)) x))%Qc).
Lemma cur_op tr : tb (cur tr) op = par W (N.lxor tr B) x.
Proof.
  unfold cur, B. rewrite par_lxor, par_bit. destruct (Nat.ltb_spec op W); [|lia]. cbn [andb].
  destruct (par W tr x); [rewrite tb_lxor, tb_bit, Nat.eqb_refl; destruct (tb x op); reflexivity|destruct (tb x op); reflexivity].
Qed.
Lemma cur_other tr k : k <> op -> tb (cur tr) k = tb x k.
Proof. intros H. unfold cur. destruct (par W tr x); [|reflexivity]. rewrite tb_lxor, tb_bit. destruct (Nat.eqb_spec op k); [congruence|]. apply xorb_false_r. Qed.
Lemma cur_step tr k : k < op -> (if tb (cur tr) k then N.lxor (cur tr) (bit op) else cur tr) = cur (N.lxor tr (bit k)).
Proof.
  intros H. rewrite cur_other by lia. unfold cur. rewrite par_lxor, par_bit. destruct (Nat.ltb_spec k W); [|lia]. cbn [andb].
  destruct (tb x k), (par W tr x); cbn [xorb]; try reflexivity. apply lxor_lxor.
Qed.
Lemma left_ext ph ph' : (forall p, ph p = ph' p) -> left ph = left ph'.
Proof. intros H. apply bsum_ext. intros y _. rewrite H. reflexivity. Qed.
Lemma left_zero ph tr : state op tr -> left ph = (ph (N.lxor tr B) * ind (par W (N.lxor tr B) x) + left (zero_at ph (N.lxor tr B)))%Qc.
Proof.
  intros H. unfold left. rewrite (bsum_one op _ tr H). f_equal. apply bsum_ext. intros y Hy. unfold zero_at.
  destruct (N.eqb_spec y tr) as [->|Hne]; [rewrite N.eqb_refl; ring|]. destruct (N.eqb_spec (N.lxor y (bit op)) (N.lxor tr B)) as [E|]; [|reflexivity].
  exfalso. apply Hne. apply (f_equal (fun z => N.lxor z B)) in E. unfold B in E. rewrite !lxor_lxor in E. exact E.
Qed.
(** one step: a CNOT (already applied) followed by a phase gate *)
Definition item (c : nat) (tr : N) : nat * nat * N := (c, op, (tr + bit op)%N).
Lemma emit_item c tr l ph : state op tr -> exists ph1, (forall p, ph1 p = zero_at ph (N.lxor tr B) p) /\
  let (g, ph2) := emit None l ph1 in exists g0, emit None (item c tr :: l) ph = ((if c =? op then [] else [GCX c op]) ++ g0 ++ g, ph2) /\
    action g0 (cur tr) = ((left ph1 - left ph)%Qc, cur tr).
Proof.
  intros Htr. unfold item. cbn [emit]. rewrite (N.add_comm tr), <- lxor_bit_add by exact Htr. fold B. set (p := N.lxor tr B).
  destruct (Qc_eq_bool (ph p) 0%Qc) eqn:E.
  - apply Qc_eq_bool_correct in E. exists ph. split.
    + intros q. unfold zero_at. destruct (N.eqb_spec q p) as [->|]; [exact E|reflexivity].
    + destruct (emit None l ph) as [g ph2]. exists []. split; [reflexivity|]. cbn [action]. f_equal. ring.
  - exists (zero_at ph p). split; [reflexivity|]. destruct (emit None l (zero_at ph p)) as [g ph2]. exists [GP (- ph p)%Qc op]. split; [reflexivity|].
    cbn [action]. rewrite cur_op. f_equal. rewrite (left_zero ph tr Htr). fold p. destruct (par W p x); cbn [ind]; ring.
Qed.
Lemma emit_walk : forall tr prev ph, path op (prev :: tr) -> Forall (state op) tr ->
  let (g, ph') := emit None (map (fun ct => item (fst ct) (snd ct)) (combine (controls prev tr) tr)) ph in
  action g (cur prev) = ((left ph' - left ph)%Qc, cur (last tr prev)) /\
  (forall p, ph' p = if existsb (fun t => N.eqb p (N.lxor t B)) tr then 0%Qc else ph p).
Proof.
  induction tr as [|t tr IH]; intros prev ph HP HF.
  - cbn. split; [f_equal; ring|reflexivity].
  - destruct (proj1 (path_cons _ _ _ _) HP) as ((k & Hk & E) & HP'). inversion HF as [|? ? Ht HF']. subst.
    cbn [controls combine map fst snd]. rewrite control_adj. set (t := N.lxor prev (bit k)) in *.
    destruct (emit_item k t (map (fun ct => item (fst ct) (snd ct)) (combine (controls t tr) tr)) ph Ht) as (ph1 & E1 & R).
    specialize (IH t ph1 HP' HF'). destruct (emit None (map _ _) ph1) as [g ph2]. destruct R as (g0 & -> & A). destruct IH as (A2 & Q).
    destruct (Nat.eqb_spec k op); [lia|]. cbn [app]. split.
    + cbn [action]. rewrite cur_step by exact Hk. fold t. rewrite action_app, A, A2. rewrite last_cons. f_equal. ring.
    + intros p. rewrite Q. cbn [existsb]. rewrite E1. unfold zero_at. destruct (N.eqb_spec p (N.lxor t B)); cbn [orb]; [destruct (existsb _ tr)|]; reflexivity.
Qed.
End Walk.

Definition in_block (b : nat) (p : N) : Prop := exists y, state b y /\ p = N.lxor y (bit b).
Definition min_ok (b : nat) (ph : N -> Qc) : Prop :=
  forall y, state b y -> ph (N.lxor y (bit b)) <> 0%Qc -> (forall z, state b z -> ph (N.lxor z (bit b)) <> 0%Qc -> (y <= z)%N) -> near b y.

Lemma Qcb_true q : negb (Qc_eq_bool q 0%Qc) = true <-> q <> 0%Qc.
Proof.
  unfold Qc_eq_bool. destruct (Qc_eq_dec q 0%Qc); cbn; intuition congruence.
Qed.
Lemma block_list b (y : N) : In y (map (fun y => (bit b + N.of_nat y)%N) (rev (seq 0 (2 ^ b)))) <-> in_block b y.
Proof.
  assert (E : N.of_nat (2 ^ b) = bit b) by (unfold bit; clear; induction b as [|b IH]; [reflexivity|]; rewrite Nat.pow_succ_r', Nat2N.inj_mul, IH, (Nat2N.inj_succ b), N.pow_succ_r by lia; reflexivity).
  rewrite in_map_iff. split.
  - intros (k & <- & H). apply in_rev, in_seq in H. exists (N.of_nat k). assert (S : state b (N.of_nat k)) by (unfold state; rewrite <- E; lia). split; [exact S|]. symmetry. apply lxor_bit_add, S.
  - intros (z & S & ->). exists (N.to_nat z). rewrite N2Nat.id. split; [symmetry; apply lxor_bit_add, S|]. apply -> in_rev. apply in_seq. unfold state in S. rewrite <- E in S. lia.
Qed.
Lemma block_mod b y : state b y -> (N.lxor y (bit b) mod bit b = y)%N.
Proof.
  intros H. rewrite lxor_bit_add by exact H. assert (bit b <> 0)%N by (unfold bit; apply N.pow_nonzero; lia).
  rewrite N.add_comm, <- (N.mul_1_l (bit b)) at 1. rewrite N.mod_add by assumption. apply N.mod_small. exact H.
Qed.

(** one operation bit: all its phase shifts are spent *)
Lemma one_bit_ok W b x ph loc : b < W -> ph 0%N = 0%Qc -> (forall p, in_block b p -> loc p = negb (Qc_eq_bool (ph p) 0%Qc)) -> min_ok b ph ->
  let (g, ph') := emit None (one_bit loc b) ph in
  action g x = ((- left W b x ph)%Qc, x) /\ (forall p, ~ in_block b p -> ph' p = ph p).
Proof.
  intros Hb H0 HL HM. unfold one_bit.
  set (blk := map _ (rev (seq 0 (2 ^ b)))). assert (LS : forall p, In p (filter loc blk) <-> in_block b p /\ ph p <> 0%Qc).
  { intros p. rewrite filter_In. unfold blk. rewrite block_list. split; intros (A & C); (split; [exact A|]); rewrite HL in * by exact A; apply Qcb_true; exact C. }
  destruct (filter loc blk) as [|l0 ls0] eqn:EL.
  { cbn. split; [|auto]. f_equal. unfold left. rewrite (bsum_ext b _ (fun _ => 0%Qc)), bsum_0; [ring|]. intros y Hy.
    destruct (Qc_eq_dec (ph (N.lxor y (bit b))) 0%Qc) as [->|D]; [ring|]. destruct (proj2 (LS (N.lxor y (bit b)))); [split; [exists y; auto|exact D]]. }
  destruct (Nat.eqb_spec b 0) as [->|Hb0].
  { (* operation bit 0 *) assert (E1 : blk = [1%N]) by reflexivity. rewrite E1 in EL. cbn [filter] in EL.
    destruct (loc 1%N) eqn:E2; [|discriminate]. injection EL as <- <-. rewrite HL in E2 by (exists 0%N; split; [apply state_0|reflexivity]).
    cbn [single_qb_traversal hamming_tsp length Nat.sub Nat.pow Nat.add Nat.eqb max gray_code last hd N.eqb tl controls combine map fst snd].
    assert (C1 : control_of 0 1 = 0) by reflexivity. assert (C2 : control_of 1 0 = 0) by reflexivity.
    cbn -[Qc_eq_bool Qcopp]. rewrite H0. destruct (Qc_eq_bool 0%Qc 0%Qc) eqn:Z; [|discriminate]. apply negb_true_iff in E2. rewrite E2.
    split.
    - cbn [action]. change (par W 1 x) with (par W (bit 0) x). rewrite par_bit. destruct (Nat.ltb_spec 0 W); [|lia]. cbn [andb]. destruct (tb x 0); cbn [ind]; f_equal; ring.
    - intros p Hp. unfold zero_at. destruct (N.eqb_spec p 1) as [->|]; [|reflexivity]. exfalso. apply Hp. exists 0%N. split; [apply state_0|reflexivity]. }
  set (ls := l0 :: ls0) in *. set (ms := map (fun x0 => (x0 mod bit b)%N) ls).
  assert (MS : forall y, In y ms <-> state b y /\ ph (N.lxor y (bit b)) <> 0%Qc).
  { intros y. unfold ms. rewrite in_map_iff. split.
    - intros (p & <- & Hp). apply LS in Hp. destruct Hp as ((z & Hz & ->) & D). rewrite block_mod by exact Hz. auto.
    - intros (Hy & D). exists (N.lxor y (bit b)). split; [apply block_mod, Hy|]. apply LS. split; [exists y; auto|exact D]. }
  assert (NE : ms <> []) by (unfold ms, ls; discriminate).
  destruct (minimum_spec ms NE) as (IM & LM).
  assert (NM : near b (minimum ms)).
  { apply MS in IM. destruct IM as (A & D). apply HM; [exact A|exact D|]. intros z Hz Dz. apply LM, MS. auto. }
  assert (FM : Forall (state b) ms) by (apply Forall_forall; intros y Hy; apply MS in Hy; tauto).
  pose proof (traversal_ok b ms (S b) ltac:(lia) eq_refl NE FM NM) as T.
  unfold single_qb_traversal in *. cbn [snd fst] in T. set (tr1 := if N.eqb (hd 0%N _) 0 then _ else _) in *. clearbody tr1.
  destruct T as ((N1 & P & F) & HH & LL & C). destruct tr1 as [|t0 tr]; [contradiction|]. cbn [hd tl] in *. subst t0.
  cbn [combine map fst snd]. replace (S b - 1) with b by lia.
  inversion F as [|? ? F0 F']. subst.
  destruct (emit_item W b x Hb b 0%N (map (fun ct => item b (fst ct) (snd ct)) (combine (controls 0%N tr) tr)) ph F0) as (ph1 & E1 & R).
  pose proof (emit_walk W b x Hb tr 0%N ph1 P F') as EW. unfold item in R, EW at 1.
  change (fun ct : nat * N => (fst ct, b, (snd ct + bit b)%N)) with (fun ct : nat * N => item b (fst ct) (snd ct)).
  change ((b, b, (0 + bit b)%N)) with (item b b 0%N).
  unfold item in EW, R |- *. destruct (emit None (map _ _) ph1) as [g ph2]. destruct R as (g0 & -> & A). destruct EW as (A2 & Q).
  rewrite Nat.eqb_refl. cbn [app]. assert (C0 : cur W b x 0 = x) by (unfold cur; rewrite par_0; reflexivity).
  rewrite last_cons in LL. split.
  - rewrite action_app. rewrite C0 in A. rewrite A. rewrite C0 in A2. rewrite A2, LL, C0. f_equal.
    assert (Z : left W b x ph2 = 0%Qc); [|rewrite Z; ring]. unfold left. rewrite (bsum_ext b _ (fun _ => 0%Qc)), bsum_0; [reflexivity|]. intros y Hy.
    assert (Z : ph2 (N.lxor y (bit b)) = 0%Qc); [|rewrite Z; ring]. rewrite Q. destruct (existsb _ tr) eqn:EX; [reflexivity|]. rewrite E1. unfold zero_at.
    destruct (N.eqb_spec (N.lxor y (bit b)) (N.lxor 0 (bit b))) as [|D]; [reflexivity|].
    destruct (Qc_eq_dec (ph (N.lxor y (bit b))) 0%Qc) as [|D2]; [assumption|]. exfalso.
    assert (IY : In y (0%N :: tr)) by (apply C; right; apply MS; auto). destruct IY as [<-|IY]; [apply D; reflexivity|].
    assert (EX' : existsb (fun t => N.eqb (N.lxor y (bit b)) (N.lxor t (bit b))) tr = true) by (apply existsb_exists; exists y; split; [exact IY|apply N.eqb_refl]). congruence.
  - intros p Hp. rewrite Q, E1. unfold zero_at. destruct (existsb _ tr) eqn:EX.
    + exfalso. apply existsb_exists in EX. destruct EX as (t & It & E). apply N.eqb_eq in E. apply Hp. exists t. split; [|exact E]. rewrite Forall_forall in F'. apply F', It.
    + destruct (N.eqb_spec p (N.lxor 0 (bit b))) as [E|]; [|reflexivity]. exfalso. apply Hp. exists 0%N. split; [apply state_0|exact E].
Qed.

Lemma block_disjoint b p : in_block b p -> ~ state b p /\ state (S b) p.
Proof.
  intros (y & Hy & ->). split.
  - intros H. pose proof (proj1 (state_bits b _) H b ltac:(lia)) as T. rewrite tb_lxor, tb_bit, Nat.eqb_refl, (proj1 (state_bits b y) Hy) in T by lia. discriminate.
  - apply state_lxor; [apply (state_mono b); [lia|exact Hy]|apply state_bit; lia].
Qed.
Lemma emit_all W x loc : forall n ph, n <= W -> ph 0%N = 0%Qc -> (forall p, state n p -> loc p = negb (Qc_eq_bool (ph p) 0%Qc)) -> (forall b, b < n -> min_ok b ph) ->
  action (fst (emit None (flat_map (one_bit loc) (rev (seq 0 n))) ph)) x = ((- bsum n (fun p => ph p * ind (par W p x)))%Qc, x).
Proof.
  induction n as [|n IH]; intros ph HW H0 HL HM.
  - cbn. rewrite H0. f_equal; try ring.
  - rewrite seq_S, rev_app_distr. cbn [rev app Nat.add flat_map]. rewrite emit_app.
    pose proof (one_bit_ok W n x ph loc HW H0) as O. destruct (emit None (one_bit loc n) ph) as [g ph1]. destruct O as (A & Q).
    + intros p Hp. apply HL. apply block_disjoint, Hp.
    + apply HM. lia.
    + assert (SAME : forall p, state n p -> ph1 p = ph p) by (intros p Hp; apply Q; intros B; apply block_disjoint in B; tauto).
      specialize (IH ph1). destruct (emit None (flat_map _ _) ph1) as [g2 ph2]. cbn [fst] in *. rewrite action_app, A, IH.
      * f_equal. cbn [bsum]. unfold left. rewrite (bsum_ext n (fun p => ph1 p * ind (par W p x))%Qc (fun p => ph p * ind (par W p x))%Qc) by (intros p Hp; rewrite SAME by exact Hp; reflexivity). ring.
      * lia.
      * rewrite SAME by apply state_0. exact H0.
      * intros p Hp. rewrite SAME by exact Hp. apply HL. revert Hp. apply state_mono. lia.
      * intros b Hb y Hy D Min. assert (IB : forall z, state b z -> state n (N.lxor z (bit b))) by (intros z Hz; apply state_lxor; [apply (state_mono b); [lia|exact Hz]|apply state_bit, Hb]).
        apply (HM b ltac:(lia)); [exact Hy|rewrite <- SAME by apply IB, Hy; exact D|]. intros z Hz Dz. apply Min; [exact Hz|]. rewrite SAME by apply IB, Hz. exact Dz.
Qed.
(** phase tolerance: only the first operation bit *)
Lemma emit_top k l2 : (forall c t p, In (c, t, p) l2 -> t <> k) -> forall l1 ph, (forall c t p, In (c, t, p) l1 -> t = k) ->
  fst (emit (Some k) (l1 ++ l2) ph) = fst (emit None l1 ph).
Proof.
  intros H2. induction l1 as [|((c, t), p) l1 IH]; intros ph H1; cbn [app].
  - destruct l2 as [|((c, t), p) l2]; [reflexivity|]. cbn [emit]. destruct (Nat.eqb_spec t k) as [E|]; [exfalso; apply (H2 c t p); [left; reflexivity|exact E]|reflexivity].
  - cbn [emit]. rewrite (H1 c t p) by (left; reflexivity). rewrite Nat.eqb_refl. cbn [negb]. 
    assert (H1' : forall c t p, In (c, t, p) l1 -> t = k) by (intros; eapply H1; right; eassumption).
    destruct (Qc_eq_bool (ph p) 0%Qc).
    + specialize (IH ph H1'). destruct (emit (Some k) (l1 ++ l2) ph), (emit None l1 ph). cbn [fst] in *. rewrite IH. reflexivity.
    + specialize (IH (zero_at ph p) H1'). destruct (emit (Some k) (l1 ++ l2) (zero_at ph p)), (emit None l1 (zero_at ph p)). cbn [fst] in *. rewrite IH. reflexivity.
Qed.
Lemma one_bit_target loc b c t p : In (c, t, p) (one_bit loc b) -> t = b.
Proof.
  unfold one_bit. destruct (filter _ _); [intros []|]. destruct (single_qb_traversal _ _) as [cs tr]. intros H. apply in_map_iff in H. destruct H as (q & E & _). congruence.
Qed.
