From Coq Require Import Field.
From Verif.Gray Require Import GrayModel GraySpec.
Local Open Scope nat_scope.

(** ** bits *)
Lemma tb_lxor x y j : tb (N.lxor x y) j = xorb (tb x j) (tb y j).
Proof. apply N.lxor_spec. Qed.
Lemma tb_bit k j : tb (bit k) j = (k =? j).
Proof.
  unfold tb, bit. rewrite N.pow2_bits_eqb. destruct (Nat.eqb_spec k j) as [->|H]; [apply N.eqb_refl|]. apply N.eqb_neq. lia.
Qed.
Lemma tb_0 j : tb 0 j = false.
Proof. apply N.bits_0. Qed.
Lemma N_ext x y : (forall j, tb x j = tb y j) -> x = y.
Proof. intros H. apply N.bits_inj. intros j. specialize (H (N.to_nat j)). unfold tb in H. rewrite N2Nat.id in H. exact H. Qed.
Lemma state_bits n x : state n x <-> forall j, n <= j -> tb x j = false.
Proof.
  unfold state, bit, tb. split.
  - intros H j Hj. destruct (N.eq_dec x 0) as [->|Hx]; [apply N.bits_0|]. apply N.bits_above_log2.
    apply N.log2_lt_pow2 in H; [|lia]. lia.
  - intros H. destruct (N.lt_ge_cases x (2 ^ N.of_nat n)) as [|L]; [assumption|]. exfalso.
    assert (Hx : x <> 0%N) by (intros ->; pose proof (N.pow_nonzero 2 (N.of_nat n)); lia).
    pose proof (N.bit_log2 x Hx) as B. assert (n <= N.to_nat (N.log2 x)).
    { apply N.log2_le_mono in L. rewrite N.log2_pow2 in L by lia. lia. }
    specialize (H (N.to_nat (N.log2 x)) ltac:(assumption)). rewrite N2Nat.id in H. congruence.
Qed.
Lemma state_lxor n x y : state n x -> state n y -> state n (N.lxor x y).
Proof. rewrite !state_bits. intros Hx Hy j Hj. rewrite tb_lxor, Hx, Hy by assumption. reflexivity. Qed.
Lemma state_bit n k : k < n -> state n (bit k).
Proof. intros H. apply state_bits. intros j Hj. rewrite tb_bit. apply Nat.eqb_neq. lia. Qed.
Lemma state_0 n : state n 0.
Proof. apply state_bits. intros. apply tb_0. Qed.
Lemma state_mono n m x : n <= m -> state n x -> state m x.
Proof. rewrite !state_bits. intros H Hx j Hj. apply Hx. lia. Qed.
Lemma lxor_bit_add k y : state k y -> N.lxor y (bit k) = (bit k + y)%N.
Proof.
  intros H. rewrite N.add_comm, N.add_nocarry_lxor; [reflexivity|]. apply N_ext. intros j. unfold tb at 1. rewrite N.land_spec. fold (tb y j) (tb (bit k) j).
  rewrite tb_bit, tb_0. destruct (Nat.eqb_spec k j) as [->|]; [|apply andb_false_r]. rewrite (proj1 (state_bits j y) H) by lia. reflexivity.
Qed.
Lemma lxor_lxor x y : N.lxor (N.lxor x y) y = x.
Proof. rewrite N.lxor_assoc, N.lxor_nilpotent, N.lxor_0_r. reflexivity. Qed.

(** ** parities *)
Fixpoint par (n : nat) (p x : N) : bool := match n with O => false | S n => xorb (tb p n && tb x n) (par n p x) end.
Lemma par_lxor n p q x : par n (N.lxor p q) x = xorb (par n p x) (par n q x).
Proof. induction n as [|n IH]; [reflexivity|]. cbn [par]. rewrite tb_lxor, IH. destruct (tb p n), (tb q n), (tb x n), (par n p x), (par n q x); reflexivity. Qed.
Lemma par_sym n p x : par n p x = par n x p.
Proof. induction n as [|n IH]; [reflexivity|]. cbn [par]. rewrite IH, andb_comm. reflexivity. Qed.
Lemma par_ext n p q x y : (forall j, j < n -> tb p j = tb q j /\ tb x j = tb y j) -> par n p x = par n q y.
Proof. induction n as [|n IH]; intros H; [reflexivity|]. cbn [par]. rewrite IH by (intros; apply H; lia). destruct (H n ltac:(lia)) as [-> ->]. reflexivity. Qed.
Lemma par_0 n x : par n 0 x = false.
Proof. induction n as [|n IH]; [reflexivity|]. cbn [par]. rewrite tb_0, IH. reflexivity. Qed.
Lemma par_bit n k x : par n (bit k) x = (k <? n) && tb x k.
Proof.
  induction n as [|n IH]; [reflexivity|]. cbn [par]. rewrite IH, tb_bit. destruct (Nat.eqb_spec k n) as [->|].
  - destruct (Nat.ltb_spec n n); [lia|]. destruct (Nat.ltb_spec n (S n)); [|lia]. cbn. apply xorb_false_r.
  - cbn [andb xorb]. destruct (Nat.ltb_spec k n), (Nat.ltb_spec k (S n)); try lia; cbn [andb]; [destruct (tb x k)|]; reflexivity.
Qed.

(** ** sums over all bit sets *)
Local Open Scope Qc_scope.
Fixpoint bsum (n : nat) (f : N -> Qc) : Qc := match n with O => f 0%N | S n => bsum n f + bsum n (fun y => f (N.lxor y (bit n))) end.
Lemma bsum_ext n : forall f g, (forall y, state n y -> f y = g y) -> bsum n f = bsum n g.
Proof.
  induction n as [|n IH]; intros f g H; cbn [bsum]; [apply H; reflexivity|]. f_equal; apply IH; intros y Hy; apply H.
  - revert Hy. apply state_mono. lia.
  - apply state_lxor; [revert Hy; apply state_mono; lia|apply state_bit; lia].
Qed.
Lemma bsum_add n : forall f g, bsum n (fun y => f y + g y) = bsum n f + bsum n g.
Proof. induction n as [|n IH]; intros f g; cbn [bsum]; [reflexivity|]. rewrite IH, (IH (fun y => f (N.lxor y (bit n)))). ring. Qed.
Lemma bsum_mul n c : forall f, bsum n (fun y => c * f y) = c * bsum n f.
Proof. induction n as [|n IH]; intros f; cbn [bsum]; [reflexivity|]. rewrite IH, (IH (fun y => f (N.lxor y (bit n)))). ring. Qed.
Lemma bsum_0 n : bsum n (fun _ => 0) = 0.
Proof. induction n as [|n IH]; cbn [bsum]; [reflexivity|]. rewrite IH. ring. Qed.
Lemma bsum_swap n m : forall f, bsum n (fun x => bsum m (fun y => f x y)) = bsum m (fun y => bsum n (fun x => f x y)).
Proof.
  induction n as [|n IH]; intros f; cbn [bsum]; [reflexivity|]. rewrite IH, (IH (fun x y => f (N.lxor x (bit n)) y)), <- bsum_add. reflexivity.
Qed.
Lemma bsum_shift n : forall f z, state n z -> bsum n (fun y => f (N.lxor y z)) = bsum n f.
Proof.
  induction n as [|n IH]; intros f z Hz.
  - unfold state, bit in Hz. cbn in Hz. replace z with 0%N by lia. reflexivity.
  - cbn [bsum]. destruct (tb z n) eqn:T.
    + set (z' := N.lxor z (bit n)). assert (Hz' : state n z').
      { apply state_bits. intros j Hj. unfold z'. rewrite tb_lxor, tb_bit. destruct (Nat.eqb_spec n j) as [<-|]; [rewrite T; reflexivity|].
        rewrite (proj1 (state_bits (S n) z) Hz) by lia. reflexivity. }
      rewrite Qcplus_comm. f_equal.
      * rewrite <- (IH f z' Hz'). apply bsum_ext. intros y _. f_equal. unfold z'. rewrite N.lxor_assoc, (N.lxor_comm (bit n)). reflexivity.
      * rewrite <- (IH (fun y => f (N.lxor y (bit n))) z' Hz'). apply bsum_ext. intros y _. f_equal. unfold z'. rewrite N.lxor_assoc, lxor_lxor. reflexivity.
    + assert (Hz' : state n z).
      { apply state_bits. intros j Hj. destruct (Nat.eq_dec j n) as [->|]; [exact T|]. apply (proj1 (state_bits (S n) z) Hz). lia. }
      rewrite (IH f z Hz'). f_equal. rewrite <- (IH (fun y => f (N.lxor y (bit n))) z Hz'). apply bsum_ext. intros y _. f_equal. rewrite !N.lxor_assoc. f_equal. apply N.lxor_comm.
Qed.
(** a single term *)
Lemma bsum_one n : forall f z, state n z -> bsum n f = f z + bsum n (zero_at f z).
Proof.
  intros f z Hz. rewrite <- (bsum_shift n f z Hz), <- (bsum_shift n (zero_at f z) z Hz).
  assert (G : forall m g h, (forall y, state m y -> y <> 0%N -> g y = h y) -> h 0%N = 0 -> bsum m g = g 0%N + bsum m h).
  { intros m. induction m as [|m IH]; intros g h H H0; cbn [bsum]; [rewrite H0; ring|]. rewrite (IH g h); [|intros y Hy; apply H; revert Hy; apply state_mono; lia|exact H0].
    rewrite <- Qcplus_assoc. do 2 f_equal. apply bsum_ext. intros y Hy. apply H.
    - apply state_lxor; [revert Hy; apply state_mono; lia|apply state_bit; lia].
    - intros E. assert (T : tb (N.lxor y (bit m)) m = false) by (rewrite E; apply tb_0). rewrite tb_lxor, tb_bit, Nat.eqb_refl, (proj1 (state_bits m y) Hy) in T by lia. discriminate. }
  rewrite (G n (fun y => f (N.lxor y z)) (fun y => zero_at f z (N.lxor y z))).
  - rewrite N.lxor_0_l. reflexivity.
  - intros y _ Hy. unfold zero_at. destruct (N.eqb_spec (N.lxor y z) z) as [E|]; [|reflexivity]. exfalso. apply Hy.
    rewrite <- (lxor_lxor y z), E. apply N.lxor_nilpotent.
  - unfold zero_at. rewrite N.lxor_0_l, N.eqb_refl. reflexivity.
Qed.

(** ** the Walsh-Hadamard transform *)
Definition sg (b : bool) : Qc := if b then -(1) else 1.
Lemma sg_xor a b : sg (xorb a b) = sg a * sg b.
Proof. destruct a, b; cbn; ring. Qed.
Lemma fwht_sum n a : forall x, fwht n a x = bsum n (fun y => sg (par n (N.lxor y x) x) * a (N.lxor y x)).
Proof.
  induction n as [|n IH]; intros x; cbn [fwht bsum par sg]; [rewrite N.lxor_0_l; ring|].
  assert (P : forall y, state n y -> par n (N.lxor (N.lxor y (bit n)) x) x = par n (N.lxor y (N.lxor x (bit n))) (N.lxor x (bit n)) /\
    tb (N.lxor y x) n = tb x n /\ tb (N.lxor (N.lxor y (bit n)) x) n = negb (tb x n)).
  { intros y Hy. pose proof (proj1 (state_bits n y) Hy n ltac:(lia)) as Yn. split; [|split].
    - apply par_ext. intros j Hj. rewrite !tb_lxor, tb_bit. destruct (Nat.eqb_spec n j); [lia|]. rewrite !xorb_false_r. auto.
    - rewrite tb_lxor, Yn. apply xorb_false_l.
    - rewrite !tb_lxor, Yn, tb_bit, Nat.eqb_refl. destruct (tb x n); reflexivity. }
  assert (Q : forall y, N.lxor y (N.lxor x (bit n)) = N.lxor (N.lxor y (bit n)) x) by (intros; rewrite !N.lxor_assoc; f_equal; apply N.lxor_comm).
  unfold wht_round. rewrite !IH. destruct (tb x n) eqn:T.
  - rewrite Qcplus_comm. unfold Qcminus. f_equal.
    + apply bsum_ext. intros y Hy. destruct (P y Hy) as (P1 & _ & P3). rewrite P3, <- P1, Q. cbn [negb andb]. rewrite xorb_false_l. reflexivity.
    + transitivity (- (1) * bsum n (fun y => sg (par n (N.lxor y x) x) * a (N.lxor y x))); [ring|]. rewrite <- bsum_mul. apply bsum_ext. intros y Hy.
      destruct (P y Hy) as (_ & P2 & _). rewrite P2. cbn [andb]. rewrite sg_xor. cbn [sg]. ring.
  - f_equal.
    + apply bsum_ext. intros y Hy. destruct (P y Hy) as (_ & P2 & _). rewrite P2. cbn [andb]. rewrite xorb_false_l. reflexivity.
    + apply bsum_ext. intros y Hy. destruct (P y Hy) as (P1 & _ & P3). rewrite andb_false_r, <- P1, Q, xorb_false_l. reflexivity.
Qed.
Lemma fwht_value n a x : state n x -> fwht n a x = bsum n (fun y => sg (par n y x) * a y).
Proof. intros Hx. rewrite fwht_sum. apply (bsum_shift n (fun z => sg (par n z x) * a z) x Hx). Qed.
Lemma characters n w : state n w -> bsum n (fun p => sg (par n p w)) = if N.eqb w 0 then two_to n else 0.
Proof.
  intros Hw. assert (G : forall m, bsum m (fun p => sg (par m p w)) = if forallb (fun j => negb (tb w j)) (seq 0 m) then two_to m else 0).
  { induction m as [|m IH]; [reflexivity|]. cbn [bsum two_to]. rewrite seq_S, forallb_app. cbn [Nat.add forallb]. rewrite andb_true_r.
    rewrite (bsum_ext m _ (fun p => sg (par m p w))).
    - rewrite (bsum_ext m (fun y => sg (par (S m) (N.lxor y (bit m)) w)) (fun p => sg (tb w m) * sg (par m p w))).
      + rewrite bsum_mul, IH. destruct (forallb _ (seq 0 m)), (tb w m); cbn; ring.
      + intros y Hy. rewrite <- sg_xor. f_equal. cbn [par]. rewrite tb_lxor, tb_bit, Nat.eqb_refl, (proj1 (state_bits m y) Hy) by lia. cbn [xorb andb]. rewrite ?xorb_false_l, ?xorb_true_l. f_equal.
        apply par_ext. intros j Hj. rewrite tb_lxor, tb_bit. destruct (Nat.eqb_spec m j); [lia|]. rewrite xorb_false_r. auto.
    - intros y Hy. cbn [par]. rewrite (proj1 (state_bits m y) Hy) by lia. cbn [andb]. rewrite xorb_false_l. reflexivity. }
  rewrite G. destruct (forallb _ (seq 0 n)) eqn:F.
  - replace w with 0%N; [reflexivity|]. symmetry. apply N_ext. intros j. rewrite tb_0. destruct (Nat.lt_ge_cases j n) as [H|H]; [|apply (proj1 (state_bits n w) Hw); exact H].
    rewrite forallb_forall in F. specialize (F j ltac:(apply in_seq; lia)). destruct (tb w j); [discriminate|reflexivity].
  - destruct (N.eqb_spec w 0) as [->|]; [|reflexivity]. exfalso. assert (E : forallb (fun j => negb (tb 0 j)) (seq 0 n) = true); [|congruence].
    apply forallb_forall. intros j _. rewrite tb_0. reflexivity.
Qed.
Lemma two_to_nz n : two_to n <> 0.
Proof.
  assert (H : 0 < two_to n); [|intros E; rewrite E in H; discriminate]. induction n as [|n IH]; [reflexivity|]. cbn [two_to].
  apply Qclt_le_trans with (two_to n); [exact IH|]. rewrite <- (Qcplus_0_r (two_to n)) at 1. apply Qcplus_le_compat; [apply Qcle_refl|]. apply Qclt_le_weak, IH.
Qed.
(** the phases that the shifts add up to *)
Lemma shifts_total n t x : state n x ->
  - bsum n (fun p => phase_shifts n t p * (if par n p x then 1 else 0)) = t x - t 0%N.
Proof.
  intros Hx. set (a := fun x => t x / (two_to n / (1 + 1))). set (K := two_to n).
  assert (NK : K <> 0) by apply two_to_nz. assert (N2 : (1 + 1 : Qc) <> 0) by discriminate.
  transitivity (- bsum n (fun p => fwht n a p * (if par n p x then 1 else 0))).
  { f_equal. apply bsum_ext. intros p Hp. unfold phase_shifts, zero_at. destruct (N.eqb_spec p 0) as [->|]; [|reflexivity]. rewrite par_0. ring. }
  transitivity (- bsum n (fun p => (1 / (1 + 1)) * (fwht n a p + - (1) * (sg (par n p x) * fwht n a p)))).
  { f_equal. apply bsum_ext. intros p Hp. destruct (par n p x); cbn [sg]; field; exact N2. }
  rewrite bsum_mul, bsum_add, bsum_mul.
  assert (E : forall z, state n z -> bsum n (fun p => sg (par n p z) * fwht n a p) = K * a z).
  { intros z Hz. transitivity (bsum n (fun p => bsum n (fun y => a y * sg (par n p (N.lxor y z))))).
    { apply bsum_ext. intros p Hp. rewrite fwht_value, <- bsum_mul by exact Hp. apply bsum_ext. intros y Hy. rewrite (par_sym n p (N.lxor y z)), par_lxor, sg_xor, (par_sym n z p). ring. }
    rewrite bsum_swap. transitivity (bsum n (fun y => a y * (if N.eqb (N.lxor y z) 0 then K else 0))).
    { apply bsum_ext. intros y Hy. rewrite bsum_mul, characters by (apply state_lxor; assumption). reflexivity. }
    rewrite (bsum_one n _ z Hz), N.lxor_nilpotent. cbn [N.eqb]. rewrite (bsum_ext n _ (fun _ => 0)), bsum_0; [ring|]. intros y Hy. unfold zero_at.
    destruct (N.eqb_spec y z) as [->|Hyz]; [reflexivity|]. destruct (N.eqb_spec (N.lxor y z) 0) as [E|]; [|ring]. exfalso. apply Hyz. apply N.lxor_eq. exact E. }
  rewrite (E x Hx). rewrite (bsum_ext n (fwht n a) (fun p => sg (par n p 0) * fwht n a p)).
  - rewrite (E 0%N (state_0 n)). unfold a, K. field. repeat split; try exact N2; exact NK.
  - intros p Hp. rewrite par_sym, par_0. cbn [sg]. ring.
Qed.

(** ** paths *)
Local Open Scope nat_scope.
Definition adj (n : nat) (x y : N) : Prop := exists k, k < n /\ y = N.lxor x (bit k).
Fixpoint path (n : nat) (l : list N) : Prop :=
  match l with x :: l' => match l' with y :: _ => adj n x y | [] => True end /\ path n l' | [] => True end.
Lemma adj_sym n x y : adj n x y -> adj n y x.
Proof. intros (k & Hk & ->). exists k. rewrite lxor_lxor. auto. Qed.
Lemma path_cons n x y l : path n (x :: y :: l) <-> adj n x y /\ path n (y :: l).
Proof. cbn. tauto. Qed.
Lemma path_app n x l2 : forall l1, path n (l1 ++ [x]) -> path n (x :: l2) -> path n (l1 ++ x :: l2).
Proof.
  induction l1 as [|a l1 IH]; intros H1 H2; [exact H2|]. destruct l1 as [|b l1]; cbn [app] in *.
  - apply path_cons. split; [apply (proj1 (path_cons _ _ _ _) H1)|exact H2].
  - apply path_cons. split; [apply (proj1 (path_cons _ _ _ _) H1)|]. apply IH; [apply (proj1 (path_cons _ _ _ _) H1)|exact H2].
Qed.
Lemma path_rev n l : path n l -> path n (rev l).
Proof.
  induction l as [|x l IH]; [auto|]. destruct l as [|y l]; [auto|]. intros H. destruct (proj1 (path_cons _ _ _ _) H) as (A & P). specialize (IH P).
  cbn [rev] in *. rewrite <- app_assoc. cbn [app]. apply path_app; [exact IH|]. apply path_cons. split; [apply adj_sym, A|]. cbn. auto.
Qed.
Lemma path_mono n m l : n <= m -> path n l -> path m l.
Proof.
  intros Hn. induction l as [|x l IH]; [auto|]. destruct l as [|y l]; [auto|]. rewrite !path_cons. intros ((k & Hk & E) & P). split; [|auto]. exists k. split; [lia|exact E].
Qed.
Lemma last_cons {A} (l : list A) : forall x d, last (x :: l) d = last l x.
Proof. induction l as [|y l IH]; intros x d; [reflexivity|]. change (last (x :: y :: l) d) with (last (y :: l) d). rewrite IH. symmetry. apply IH. Qed.
Lemma last_app {A} (l2 : list A) d : forall l1, l2 <> [] -> last (l1 ++ l2) d = last l2 d.
Proof.
  induction l1 as [|x l1 IH]; intros H; [reflexivity|]. cbn [app]. rewrite last_cons, <- (IH H). destruct (l1 ++ l2) eqn:E; [apply app_eq_nil in E; tauto|].
  rewrite !last_cons. reflexivity.
Qed.
Lemma last_split {A} (l : list A) d : l <> [] -> l = removelast l ++ [last l d].
Proof. apply app_removelast_last. Qed.
Lemma last_in {A} (l : list A) d : l <> [] -> In (last l d) l.
Proof. intros H. rewrite (last_split l d H) at 2. apply in_or_app. right. left. reflexivity. Qed.

Lemma log2_bit x : x <> 0%N -> exists k, (2 ^ N.log2 x)%N = bit k /\ tb x k = true /\ (forall n, state n x -> k < n) /\ state k (N.lxor x (bit k)).
Proof.
  intros Hx. exists (N.to_nat (N.log2 x)). unfold bit at 1. rewrite N2Nat.id. split; [reflexivity|].
  assert (T : tb x (N.to_nat (N.log2 x)) = true) by (unfold tb; rewrite N2Nat.id; apply N.bit_log2, Hx). split; [exact T|]. split.
  - intros n H. destruct (Nat.lt_ge_cases (N.to_nat (N.log2 x)) n) as [|L]; [assumption|]. rewrite (proj1 (state_bits n x) H) in T by exact L. discriminate.
  - apply state_bits. intros j Hj. rewrite tb_lxor, tb_bit. destruct (Nat.eqb_spec (N.to_nat (N.log2 x)) j) as [<-|]; [rewrite T; reflexivity|].
    rewrite xorb_false_r. unfold tb. apply N.bits_above_log2. lia.
Qed.
Lemma movement_ok n target : state n target -> forall f cur, state n cur -> state f (N.lxor cur target) ->
  path n (cur :: movement f cur target) /\ last (movement f cur target) cur = target /\ Forall (state n) (movement f cur target).
Proof.
  intros Ht. induction f as [|f IH]; intros cur Hc Hf; cbn [movement].
  - unfold state, bit in Hf. cbn in Hf. assert (E : N.lxor cur target = 0%N) by lia. apply N.lxor_eq in E. cbn. auto.
  - destruct (N.eqb_spec cur target) as [->|Hne]; [cbn; auto|]. assert (Hx : N.lxor cur target <> 0%N) by (intros E; apply Hne, N.lxor_eq, E).
    destruct (log2_bit _ Hx) as (k & E & _ & K & L). rewrite E.
    assert (Kn : k < n) by (apply K, state_lxor; assumption). pose proof (K _ Hf) as Kf.
    assert (Sn : state n (N.lxor cur (bit k))) by (apply state_lxor; [assumption|apply state_bit, Kn]).
    destruct (IH (N.lxor cur (bit k)) Sn) as (P & La & F).
    + rewrite N.lxor_assoc, (N.lxor_comm (bit k)), <- N.lxor_assoc. revert L. apply state_mono. lia.
    + split; [apply path_cons; split; [exists k; auto|exact P]|]. split; [rewrite last_cons; exact La|]. constructor; assumption.
Qed.

Definition good (n : nat) (l : list N) : Prop := l <> [] /\ path n l /\ Forall (state n) l.
Lemma good_extend n b s t : good n s -> state n t -> n <= b ->
  good n (s ++ movement b (last s 0%N) t) /\ last (s ++ movement b (last s 0%N) t) 0%N = t /\ In t (s ++ movement b (last s 0%N) t).
Proof.
  intros (Hs & P & F) Ht Hn. assert (Hl : state n (last s 0%N)) by (rewrite Forall_forall in F; apply F, last_in, Hs).
  destruct (movement_ok n t Ht b (last s 0%N) Hl) as (P2 & L2 & F2); [apply (state_mono n); [exact Hn|apply state_lxor; assumption]|].
  assert (L : last (s ++ movement b (last s 0%N) t) 0%N = t).
  { destruct (movement b (last s 0%N) t) as [|y m] eqn:E; [rewrite app_nil_r; exact L2|]. rewrite last_app by discriminate. rewrite last_cons in L2 |- *. exact L2. }
  assert (NE : s ++ movement b (last s 0%N) t <> []) by (intros E; apply app_eq_nil in E; tauto).
  split; [split; [exact NE|split]|split; [exact L|]].
  - rewrite (last_split s 0%N Hs) at 1. rewrite <- app_assoc. cbn [app]. apply path_app; [rewrite <- last_split by exact Hs; exact P|exact P2].
  - apply Forall_app. auto.
  - rewrite <- L at 1. apply last_in, NE.
Qed.
Lemma closest_in cur : forall l best, In (closest cur best l) (best :: l).
Proof. induction l as [|x l IH]; intros best; cbn [closest]; [left; reflexivity|]. destruct (IH (if hamming_d cur x <? hamming_d cur best then x else best)) as [E|E]; [rewrite <- E; destruct (_ <? _); cbn; auto|cbn; auto]. Qed.
Lemma pop_in x y l : In x l -> (In y l <-> y = x \/ In y (pop x l)).
Proof.
  induction l as [|z l IH]; intros H; [destruct H|]. cbn [pop]. destruct (N.eqb_spec x z) as [->|Hne]; [cbn; intuition|].
  destruct H as [->|H]; [contradiction|]. cbn. rewrite (IH H). tauto.
Qed.
Lemma pop_length x l : In x l -> length l = S (length (pop x l)).
Proof. induction l as [|z l IH]; intros H; [destruct H|]. cbn [pop]. destruct (N.eqb_spec x z) as [->|Hne]; [reflexivity|]. destruct H as [->|H]; [contradiction|]. cbn. rewrite (IH H). reflexivity. Qed.
Lemma closest_mem cur x l : In (closest cur x (x :: l)) (x :: l).
Proof. destruct (closest_in cur (x :: l) x) as [E|E]; [left; exact E|exact E]. Qed.
Lemma hd_app {A} (s t : list A) d : s <> [] -> hd d (s ++ t) = hd d s.
Proof. destruct s; [contradiction|reflexivity]. Qed.
Lemma salesmen_ok n b : n <= b -> forall fuel l s1 s2, length l <= fuel -> Forall (state n) l -> good n s1 -> good n s2 ->
  let '(r1, r2) := salesmen fuel b l s1 s2 in
  good n r1 /\ good n r2 /\ hd 0%N r1 = hd 0%N s1 /\ hd 0%N r2 = hd 0%N s2 /\ (forall x, In x l \/ In x s1 \/ In x s2 -> In x r1 \/ In x r2).
Proof.
  intros Hn. induction fuel as [|fuel IH]; intros l s1 s2 Hf Fl G1 G2.
  { destruct l; [|cbn in Hf; lia]. cbn. intuition. }
  cbn [salesmen]. destruct l as [|x l0]; [cbn; intuition|]. set (l := x :: l0) in *. pose proof (closest_mem (last s1 0%N) x l0) as M. fold l in M.
  set (t := closest (last s1 0%N) x l) in *. pose proof (pop_in t) as PI. pose proof (pop_length t l M) as PL.
  assert (Ft : state n t) by (rewrite Forall_forall in Fl; apply Fl, M).
  destruct (good_extend n b s1 t G1 Ft Hn) as (E1 & _ & E2).
  assert (Fp : Forall (state n) (pop t l)).
  { rewrite Forall_forall in *. intros y Hy. apply Fl. apply (PI y l M). auto. }
  assert (C : forall z, In z l \/ In z s1 -> In z (s1 ++ movement b (last s1 0%N) t) \/ In z (pop t l)).
  { intros z [H|H]; [|left; apply in_or_app; auto]. apply (PI z l M) in H. destruct H as [->|H]; auto. }
  assert (HH : hd 0%N (s1 ++ movement b (last s1 0%N) t) = hd 0%N s1) by (apply hd_app, G1).
  destruct (pop t l) as [|y l1] eqn:EP.
  { split; [exact E1|]. split; [exact G2|]. split; [exact HH|]. split; [reflexivity|]. intros z Hz. assert (D : In z s2 \/ (In z l \/ In z s1)) by tauto. destruct D as [D|D]; [auto|]. destruct (C z D) as [H|[]]. auto. }
  set (l' := y :: l1) in *.
  pose proof (closest_mem (last s2 0%N) y l1) as M'. fold l' in M'. set (t' := closest (last s2 0%N) y l') in *.
  assert (Ft' : state n t') by (rewrite Forall_forall in Fp; apply Fp, M').
  destruct (good_extend n b s2 t' G2 Ft' Hn) as (E1' & _ & E2'). pose proof (pop_length t' l' M') as PL'.
  cbv zeta. fold l'. fold t'.
  specialize (IH (pop t' l') (s1 ++ movement b (last s1 0%N) t) (s2 ++ movement b (last s2 0%N) t')).
  destruct (salesmen fuel b (pop t' l') _ _) as [r1 r2]. destruct IH as (A1 & A2 & A3 & A4 & A5); [lia| |exact E1|exact E1'|].
  { rewrite Forall_forall in *. intros z Hz. apply Fp. apply (pop_in t' z l' M'). auto. }
  split; [exact A1|]. split; [exact A2|]. split; [rewrite A3; exact HH|]. split; [rewrite A4; apply hd_app, G2|].
  intros z Hz. apply A5. destruct Hz as [H|Hz].
  - destruct (C z (or_introl H)) as [H'|H']; [auto|]. apply (pop_in t' z l' M') in H'. destruct H' as [->|H']; auto.
  - destruct Hz as [H|H]; [right; left|right; right]; apply in_or_app; auto.
Qed.
