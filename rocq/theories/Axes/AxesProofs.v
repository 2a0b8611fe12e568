(** Proofs for permute_axes: the merging loop keeps the map of bits, the permuter realises it. *)
From Verif.Axes Require Import AxesModel AxesSpec.
From Coq Require Import ZArith List Lia Bool Permutation.
Import ListNotations.
Local Open Scope nat_scope.

(** blocks: target rank and width *)
Fixpoint below (l : list (nat * nat)) (v : nat) : nat :=
  match l with [] => 0 | (p, s) :: l => (if p <? v then s else 0) + below l v end.
Fixpoint expand (f : nat -> nat) (l : list (nat * nat)) : list nat :=
  match l with [] => [] | (p, s) :: l => seq (f p) s ++ expand f l end.
Definition ranks (l : list (nat * nat)) : Prop := NoDup (map fst l) /\ forall x, In x (map fst l) -> x < length l.
Definition dec (p q : nat) : nat := if p <? q then q - 1 else q.
Definition dec2 (p : nat) (x : nat * nat) : nat * nat := (dec p (fst x), snd x).

Lemma below_app a b v : below (a ++ b) v = below a v + below b v.
Proof. induction a as [|[p s] a IH]; cbn; [reflexivity|]. rewrite IH. lia. Qed.
Lemma expand_app f a b : expand f (a ++ b) = expand f a ++ expand f b.
Proof. induction a as [|[p s] a IH]; cbn; [reflexivity|]. now rewrite IH, app_assoc. Qed.
Lemma expand_ext f g l : (forall x, In x (map fst l) -> f x = g x) -> expand f l = expand g l.
Proof. induction l as [|[p s] l IH]; cbn; intros H; [reflexivity|]. rewrite (H p) by auto. f_equal. apply IH. auto. Qed.
Lemma expand_dec f p l : expand f (map (dec2 p) l) = expand (fun x => f (dec p x)) l.
Proof. induction l as [|[q s] l IH]; cbn; [reflexivity|]. now rewrite IH. Qed.

Lemma dec_ltb p q v : q <> S p -> v <> S p -> (dec p q <? dec p v) = (q <? v).
Proof. intros. unfold dec. destruct (Nat.ltb_spec p q), (Nat.ltb_spec p v), (Nat.ltb_spec q v); try reflexivity; (apply Nat.ltb_lt; lia) || (apply Nat.ltb_ge; lia). Qed.
Lemma below_dec p v l : ~ In (S p) (map fst l) -> v <> S p -> below (map (dec2 p) l) (dec p v) = below l v.
Proof.
  induction l as [|[q s] l IH]; intros NI NV; [reflexivity|]. cbn [map fst] in NI. change (map (dec2 p) ((q, s) :: l)) with ((dec p q, s) :: map (dec2 p) l).
  cbn [below]. rewrite IH by (cbn in NI; tauto || assumption). rewrite dec_ltb; [reflexivity| |exact NV]. intros ->. apply NI. now left.
Qed.
Lemma below_S p l : ~ In p (map fst l) -> below l (S p) = below l p.
Proof.
  induction l as [|[q s] l IH]; intros NI; [reflexivity|]. cbn [map fst] in NI. cbn [below]. rewrite IH by (cbn in NI; tauto). f_equal.
  destruct (Nat.ltb_spec q (S p)), (Nat.ltb_spec q p); try reflexivity; try lia. exfalso. apply NI. left. lia.
Qed.

Lemma merge_step a p s b : let l := a ++ (p, s) :: (S p, 1) :: b in ranks l ->
  let l' := map (dec2 p) a ++ (p, S s) :: map (dec2 p) b in
  ranks l' /\ expand (below l') l' = expand (below l) l.
Proof.
  intros l [ND BD] l'.
  assert (E : map fst l = map fst a ++ p :: S p :: map fst b) by (unfold l; rewrite map_app; reflexivity).
  rewrite E in ND. rewrite E in BD. clear E.
  assert (NI : ~ In (S p) (map fst a ++ p :: map fst b)).
  { replace (map fst a ++ p :: S p :: map fst b) with ((map fst a ++ [p]) ++ S p :: map fst b) in ND by (rewrite <- app_assoc; reflexivity).
    apply NoDup_remove_2 in ND. rewrite <- app_assoc in ND. exact ND. }
  assert (ND' : NoDup (map fst a ++ p :: map fst b)).
  { replace (map fst a ++ p :: S p :: map fst b) with ((map fst a ++ [p]) ++ S p :: map fst b) in ND by (rewrite <- app_assoc; reflexivity).
    apply NoDup_remove_1 in ND. rewrite <- app_assoc in ND. exact ND. }
  assert (Dp : dec p p = p) by (unfold dec; now rewrite Nat.ltb_irrefl).
  assert (E' : map fst l' = map (dec p) (map fst a ++ p :: map fst b)).
  { unfold l'. rewrite !map_app. cbn [map fst]. rewrite Dp. rewrite !map_map. reflexivity. }
  assert (BP : S p < length l) by (apply BD; rewrite in_app_iff; cbn; auto).
  assert (LL : length l = S (length l')).
  { unfold l, l'. rewrite !app_length. cbn [length]. rewrite !map_length. lia. }
  split; [split|].
  - rewrite E'. clear - ND' NI. induction (map fst a ++ p :: map fst b) as [|x L IH]; cbn; [constructor|]. inversion_clear ND' as [|? ? N1 N2].
    constructor; [|apply IH; solve [assumption | cbn in NI; tauto]]. rewrite in_map_iff. intros (y & Ey & Iy).
    cbn in NI. assert (y <> S p) by (intros ->; tauto). assert (x <> S p) by (intros ->; tauto). apply N1.
    replace x with y; [assumption|]. unfold dec in Ey. destruct (Nat.ltb_spec p y), (Nat.ltb_spec p x); lia.
  - rewrite E'. intros x I. apply in_map_iff in I. destruct I as (y & <- & I).
    assert (y < length l). { apply BD. rewrite in_app_iff in I |- *. cbn in I |- *. tauto. }
    unfold dec. destruct (Nat.ltb_spec p y); lia.
  - assert (F : forall v, v <> S p -> below l' (dec p v) = below l v).
    { intros v NV. unfold l, l'. rewrite !below_app. cbn [below]. rewrite !below_dec; try assumption; try (intros K; apply NI; rewrite in_app_iff; cbn; tauto).
      unfold dec. destruct (Nat.ltb_spec p v); repeat match goal with |- context [?a <? ?b] => destruct (Nat.ltb_spec a b) end; lia. }
    assert (Fp : below l' p = below l p) by (rewrite <- Dp at 1; apply F; lia).
    assert (F1 : below l (S p) = below l p + s).
    { unfold l. rewrite !below_app. cbn [below].
      rewrite !(below_S p). 2: { intros K. apply NoDup_remove_2 in ND'. apply ND'. rewrite in_app_iff. tauto. }
      2: { intros K. apply NoDup_remove_2 in ND'. apply ND'. rewrite in_app_iff. tauto. }
      repeat match goal with |- context [?a <? ?b] => destruct (Nat.ltb_spec a b) end; lia. }
    change (expand (below l') (map (dec2 p) a ++ (p, S s) :: map (dec2 p) b) = expand (below l) (a ++ (p, s) :: (S p, 1) :: b)).
    rewrite !expand_app. cbn [expand]. rewrite !expand_dec. rewrite Fp, F1.
    rewrite !(expand_ext (fun x => below l' (dec p x)) (below l)).
    2, 3: intros x I; apply F; intros ->; apply NI; rewrite in_app_iff; cbn; tauto.
    f_equal. rewrite seq_S. cbn [seq]. now rewrite <- !app_assoc.
Qed.

Lemma pop_at (a : list nat) x b : pop (length a) (a ++ x :: b) = a ++ b.
Proof. unfold pop. rewrite firstn_app, firstn_all, Nat.sub_diag. cbn [firstn]. rewrite app_nil_r. f_equal.
  rewrite skipn_app. rewrite skipn_all2 by lia. replace (S (length a) - length a) with 1 by lia. reflexivity. Qed.
Lemma incr_at_at (a : list nat) x b : incr_at (length a) (a ++ x :: b) = a ++ S x :: b.
Proof. unfold incr_at. rewrite firstn_app, firstn_all, Nat.sub_diag. cbn [firstn]. rewrite app_nil_r. f_equal.
  rewrite app_nth2, Nat.sub_diag by lia. cbn [nth]. f_equal.
  rewrite skipn_app. rewrite skipn_all2 by lia. replace (S (length a) - length a) with 1 by lia. reflexivity. Qed.

Lemma merge_ok : forall fuel a x b, ranks (a ++ x :: b) -> (forall y, In y b -> snd y = 1) -> length b < fuel ->
  exists l', merge fuel (S (length a)) (map fst (a ++ x :: b)) (map snd (a ++ x :: b)) = Some (map fst l', map snd l') /\
    ranks l' /\ expand (below l') l' = expand (below (a ++ x :: b)) (a ++ x :: b).
Proof.
  induction fuel as [|fuel IH]; intros a [p s] b R ONE F; [lia|]. cbn [merge].
  assert (LM : length (map fst (a ++ (p, s) :: b)) = length a + S (length b)) by (rewrite map_length, app_length; reflexivity).
  destruct (Nat.ltb_spec (S (length a)) (length (map fst (a ++ (p, s) :: b)))) as [L|L].
  2: { exists (a ++ (p, s) :: b). auto. }
  destruct b as [|[q t] b]; [cbn in LM; lia|]. assert (t = 1) by exact (ONE (q, t) (or_introl eq_refl)). subst t.
  rewrite Nat.sub_succ, Nat.sub_0_r.
  assert (N0 : nth (length a) (map fst (a ++ (p, s) :: (q, 1) :: b)) 0 = p).
  { rewrite map_app. rewrite app_nth2; rewrite map_length; [|lia]. rewrite Nat.sub_diag. reflexivity. }
  assert (N1 : nth (S (length a)) (map fst (a ++ (p, s) :: (q, 1) :: b)) 0 = q).
  { rewrite map_app. rewrite app_nth2; rewrite map_length; [|lia]. replace (S (length a) - length a) with 1 by lia. reflexivity. }
  rewrite N0, N1. destruct (Nat.eqb_spec q (S p)) as [->|NE].
  - assert (EP : pop (S (length a)) (map fst (a ++ (p, s) :: (S p, 1) :: b)) = map fst a ++ p :: map fst b).
    { rewrite map_app. cbn [map fst]. replace (map fst a ++ p :: S p :: map fst b) with ((map fst a ++ [p]) ++ S p :: map fst b) by (rewrite <- app_assoc; reflexivity).
      replace (S (length a)) with (length (map fst a ++ [p])) by (rewrite app_length, map_length; cbn; lia). rewrite pop_at, <- app_assoc. reflexivity. }
    assert (ES : incr_at (length a) (pop (S (length a)) (map snd (a ++ (p, s) :: (S p, 1) :: b))) = map snd a ++ S s :: map snd b).
    { rewrite map_app. cbn [map snd]. replace (map snd a ++ s :: 1 :: map snd b) with ((map snd a ++ [s]) ++ 1 :: map snd b) by (rewrite <- app_assoc; reflexivity).
      replace (S (length a)) with (length (map snd a ++ [s])) by (rewrite app_length, map_length; cbn; lia). rewrite pop_at, <- app_assoc. cbn [app].
      replace (length a) with (length (map snd a)) by apply map_length. apply incr_at_at. }
    rewrite EP, ES. rewrite app_nth2; rewrite map_length; [|lia]. rewrite Nat.sub_diag. cbn [nth].
    destruct (merge_step a p s b R) as [R' E'].
    assert (Dp : dec p p = p) by (unfold dec; now rewrite Nat.ltb_irrefl).
    assert (M1 : map (fun q => if p <? q then q - 1 else q) (map fst a ++ p :: map fst b) = map fst (map (dec2 p) a ++ (p, S s) :: map (dec2 p) b)).
    { change (fun q => if p <? q then q - 1 else q) with (dec p). rewrite !map_app. cbn [map fst]. rewrite Dp, !map_map. reflexivity. }
    assert (M2 : map snd a ++ S s :: map snd b = map snd (map (dec2 p) a ++ (p, S s) :: map (dec2 p) b)).
    { rewrite !map_app. cbn [map snd]. rewrite !map_map. reflexivity. }
    rewrite M1, M2. replace (S (length a)) with (S (length (map (dec2 p) a))) by (now rewrite map_length).
    destruct (IH (map (dec2 p) a) (p, S s) (map (dec2 p) b) R') as (l' & E1 & R1 & X1).
    { intros y I. apply in_map_iff in I. destruct I as (z & <- & I). apply (ONE z). right. exact I. }
    { rewrite map_length. cbn in F. lia. }
    exists l'. split; [exact E1|]. split; [exact R1|]. rewrite X1. exact E'.
  - replace (a ++ (p, s) :: (q, 1) :: b) with ((a ++ [(p, s)]) ++ (q, 1) :: b) in R |- * by (rewrite <- app_assoc; reflexivity).
    replace (S (length a)) with (length (a ++ [(p, s)])) by (rewrite app_length; cbn; lia).
    apply IH; [exact R| |cbn in F; lia]. intros y I. apply ONE. now right.
Qed.

(** inverse permutations *)
Definition is_perm (l : list nat) : Prop := NoDup l /\ forall x, In x l -> x < length l.
Lemma is_perm_all l : is_perm l -> forall x, x < length l -> In x l.
Proof.
  intros [ND BD] x L. assert (P : incl l (seq 0 (length l))). { intros y I. apply in_seq. specialize (BD y I). lia. }
  assert (Q : incl (seq 0 (length l)) l). { apply NoDup_length_incl; [exact ND|rewrite seq_length; lia|exact P]. }
  apply Q, in_seq. lia.
Qed.
Lemma index_of_nth l : NoDup l -> forall i, i < length l -> index_of l (nth i l 0) = i.
Proof.
  induction l as [|a l IH]; intros ND i L; cbn in *; [lia|]. inversion_clear ND as [|? ? N1 N2]. destruct i as [|i].
  - now rewrite Nat.eqb_refl.
  - destruct (Nat.eqb_spec a (nth i l 0)) as [->|]; [|now rewrite IH by (assumption || lia)]. exfalso. apply N1. apply nth_In. lia.
Qed.
Lemma nth_index_of l x : In x l -> nth (index_of l x) l 0 = x /\ index_of l x < length l.
Proof.
  induction l as [|a l IH]; cbn; intros I; [tauto|]. destruct (Nat.eqb_spec a x) as [->|NE]; [split; [reflexivity|lia]|].
  destruct IH as [E L]; [tauto|]. split; [exact E|lia].
Qed.
Lemma invert_length l : length (invert_perm l) = length l.
Proof. unfold invert_perm. now rewrite map_length, seq_length. Qed.
Lemma invert_nth l i : i < length l -> nth i (invert_perm l) 0 = index_of l i.
Proof.
  intros L. unfold invert_perm. rewrite (nth_indep _ 0 (index_of l 0)) by (now rewrite map_length, seq_length).
  rewrite map_nth. now rewrite seq_nth by assumption.
Qed.
Lemma invert_is_perm l : is_perm l -> is_perm (invert_perm l).
Proof.
  intros P. split.
  - apply NoDup_nth with (d := 0). rewrite invert_length. intros i j Li Lj E. rewrite !invert_nth in E by assumption.
    destruct (nth_index_of l i (is_perm_all l P i Li)) as [Ei _]. destruct (nth_index_of l j (is_perm_all l P j Lj)) as [Ej _]. congruence.
  - intros x I. apply In_nth with (d := 0) in I. rewrite invert_length in *. destruct I as (i & L & <-). rewrite invert_nth by assumption.
    apply nth_index_of, is_perm_all; assumption.
Qed.

(** partitions *)
Lemma fold_add l x : fold_left Nat.add l x = x + list_sum l.
Proof. revert x. induction l as [|a l IH]; intros x; cbn; [lia|]. rewrite IH. unfold list_sum. cbn. lia. Qed.
Lemma prefix_nth l i : i <= length l -> nth i (prefix_sums l) 0 = list_sum (firstn i l).
Proof.
  intros L. unfold prefix_sums. rewrite (nth_indep _ 0 (fold_left Nat.add (firstn 0 l) 0)) by (rewrite map_length, seq_length; lia).
  rewrite (map_nth (fun i => fold_left Nat.add (firstn i l) 0)). rewrite seq_nth by lia. rewrite fold_add. reflexivity.
Qed.
Lemma list_sum_snoc l i : i < length l -> list_sum (firstn (S i) l) = list_sum (firstn i l) + nth i l 0.
Proof.
  revert i. induction l as [|a l IH]; intros i L; [cbn in L; lia|]. destruct i as [|i]; [cbn; lia|]. cbn [length] in L. specialize (IH i ltac:(lia)).
  change (a + list_sum (firstn (S i) l) = a + list_sum (firstn i l) + nth i l 0). lia.
Qed.

Lemma below_at l i : NoDup (map fst l) -> i < length l ->
  below l (S (nth i (map fst l) 0)) = below l (nth i (map fst l) 0) + nth i (map snd l) 0.
Proof.
  revert i. induction l as [|[p s] l IH]; intros i ND L; [cbn in L; lia|]. cbn [map fst] in ND. inversion_clear ND as [|? ? N1 N2].
  destruct i as [|i]; cbn [map fst snd nth below].
  - rewrite below_S by assumption. repeat match goal with |- context [?a <? ?b] => destruct (Nat.ltb_spec a b) end; lia.
  - cbn in L. rewrite IH by (assumption || lia).
    assert (p <> nth i (map fst l) 0) by (intros ->; apply N1, nth_In; rewrite map_length; lia).
    repeat match goal with |- context [?a <? ?b] => destruct (Nat.ltb_spec a b) end; lia.
Qed.
Lemma permuted_prefix l v : ranks l -> v <= length l ->
  nth v (prefix_sums (map (fun i => nth i (map snd l) 0) (invert_perm (map fst l)))) 0 = below l v.
Proof.
  intros [ND BD] L. assert (P : is_perm (map fst l)) by (split; [exact ND|now rewrite map_length]).
  rewrite prefix_nth by (rewrite map_length, invert_length, map_length; exact L).
  induction v as [|v IH].
  - cbn. clear. induction l as [|[p s] l IH]; cbn; [reflexivity|exact IH].
  - rewrite list_sum_snoc by (rewrite map_length, invert_length, map_length; lia). rewrite IH by lia.
    rewrite (nth_indep _ 0 ((fun i => nth i (map snd l) 0) 0)) by (rewrite map_length, invert_length, map_length; lia).
    rewrite (map_nth (fun i => nth i (map snd l) 0)). rewrite invert_nth by (rewrite map_length; lia).
    assert (I : In v (map fst l)) by (apply is_perm_all; [exact P|rewrite map_length; lia]).
    destruct (nth_index_of _ _ I) as [E L2]. rewrite map_length in L2.
    pose proof (below_at l (index_of (map fst l) v) ND L2) as H. rewrite E in H. now rewrite H.
Qed.

(** machine arithmetic is exact here *)
Lemma norm_small w n z : fits w n -> (0 <= z <= 2 ^ Z.of_nat n)%Z -> norm w z = z.
Proof.
  destruct w as [w|]; [|reflexivity]. cbn [fits norm]. intros F B.
  assert (H : (2 ^ Z.of_nat n < 2 ^ (Z.of_nat w - 1))%Z) by (apply Z.pow_lt_mono_r; lia).
  assert (E : (2 ^ Z.of_nat w = 2 * 2 ^ (Z.of_nat w - 1))%Z) by (rewrite <- Z.pow_succ_r by lia; f_equal; lia).
  rewrite Z.mod_small by lia. lia.
Qed.
Lemma testbit_below z n : (0 <= z)%Z -> (forall k, (n <= k)%Z -> Z.testbit z k = false) -> (0 <= n)%Z -> (0 <= z < 2 ^ n)%Z.
Proof.
  intros P H N. split; [exact P|]. assert (z = z mod 2 ^ n)%Z.
  { apply Z.bits_inj'. intros k K. destruct (Z.ltb_spec k n); [now rewrite Z.mod_pow2_bits_low|]. rewrite Z.mod_pow2_bits_high by lia. apply H. lia. }
  rewrite H0. apply Z.mod_pos_bound, Z.pow_pos_nonneg; lia.
Qed.
Lemma move_spec w n idx from to_ width : fits w n -> from + width <= n -> to_ + width <= n ->
  (0 <= move w idx from to_ width < 2 ^ Z.of_nat n)%Z /\
  forall k, (0 <= k)%Z -> Z.testbit (move w idx from to_ width) k =
    (Z.of_nat to_ <=? k)%Z && (k <? Z.of_nat (to_ + width))%Z && Z.testbit idx (k - Z.of_nat to_ + Z.of_nat from).
Proof.
  intros F L1 L2.
  assert (P : forall a b, a <= b -> (0 < 2 ^ Z.of_nat a <= 2 ^ Z.of_nat b)%Z).
  { intros a b L. split; [apply Z.pow_pos_nonneg; lia|apply Z.pow_le_mono_r; lia]. }
  assert (M : norm w (norm w (norm w (Z.shiftl 1 (Z.of_nat width)) - 1) * 2 ^ Z.of_nat from) = Z.shiftl (Z.ones (Z.of_nat width)) (Z.of_nat from)).
  { rewrite (norm_small w n (Z.shiftl 1 (Z.of_nat width)) F). 2: { rewrite Z.shiftl_mul_pow2 by lia. specialize (P width n ltac:(lia)). lia. }
    rewrite (norm_small w n (Z.shiftl 1 (Z.of_nat width) - 1)%Z F). 2: { rewrite Z.shiftl_mul_pow2 by lia. specialize (P width n ltac:(lia)). lia. }
    replace (Z.shiftl 1 (Z.of_nat width) - 1)%Z with (Z.ones (Z.of_nat width)) by (unfold Z.ones; lia).
    rewrite <- Z.shiftl_mul_pow2 by lia. apply (norm_small w n _ F). rewrite Z.shiftl_mul_pow2, Z.ones_equiv by lia.
    pose proof (P (from + width) n L1) as Q. rewrite Nat2Z.inj_add, Z.pow_add_r in Q by lia. pose proof (P from from ltac:(lia)). pose proof (P width width ltac:(lia)).
    split; [apply Z.mul_nonneg_nonneg; lia|]. nia. }
  unfold move. rewrite M. clear M.
  set (x := Z.land idx (Z.shiftl (Z.ones (Z.of_nat width)) (Z.of_nat from))).
  assert (Tx : forall k, (0 <= k)%Z -> Z.testbit x k = (Z.of_nat from <=? k)%Z && (k <? Z.of_nat (from + width))%Z && Z.testbit idx k).
  { intros k K. unfold x. rewrite Z.land_spec. rewrite Z.shiftl_spec by lia. destruct (Z.leb_spec (Z.of_nat from) k) as [H|H].
    - rewrite Z.testbit_ones_nonneg by lia. rewrite andb_comm. cbn [andb]. f_equal. destruct (Z.ltb_spec (k - Z.of_nat from) (Z.of_nat width)), (Z.ltb_spec k (Z.of_nat (from + width))); lia || reflexivity.
    - rewrite (Z.testbit_neg_r _ (k - Z.of_nat from)) by lia. now rewrite andb_false_r. }
  assert (Bx : (0 <= x < 2 ^ Z.of_nat n)%Z).
  { apply testbit_below; [|intros k K; rewrite Tx by lia; destruct (Z.ltb_spec k (Z.of_nat (from + width))); [lia|now rewrite andb_false_r]|lia].
    apply Z.land_nonneg. right. apply Z.shiftl_nonneg. rewrite Z.ones_equiv. specialize (P width width ltac:(lia)). lia. }
  rewrite (norm_small w n x F) by lia.
  assert (By : (0 <= Z.shiftr x (Z.of_nat from) <= 2 ^ Z.of_nat n)%Z).
  { split; [apply Z.shiftr_nonneg; lia|]. rewrite Z.shiftr_div_pow2 by lia. specialize (P 0 from ltac:(lia)). apply Z.le_trans with x; [|lia].
    apply Z.div_le_upper_bound; [lia|]. change (2 ^ Z.of_nat 0)%Z with 1%Z in P. nia. }
  rewrite (norm_small w n _ F By).
  set (y := Z.shiftl (Z.shiftr x (Z.of_nat from)) (Z.of_nat to_)).
  assert (Ty : forall k, (0 <= k)%Z -> Z.testbit y k = (Z.of_nat to_ <=? k)%Z && (k <? Z.of_nat (to_ + width))%Z && Z.testbit idx (k - Z.of_nat to_ + Z.of_nat from)).
  { intros k K. unfold y. rewrite Z.shiftl_spec by lia. destruct (Z.leb_spec (Z.of_nat to_) k) as [H|H].
    - rewrite Z.shiftr_spec by lia. rewrite Tx by lia. cbn [andb]. destruct (Z.leb_spec (Z.of_nat from) (k - Z.of_nat to_ + Z.of_nat from)); [|lia]. cbn [andb]. f_equal.
      destruct (Z.ltb_spec (k - Z.of_nat to_ + Z.of_nat from) (Z.of_nat (from + width))), (Z.ltb_spec k (Z.of_nat (to_ + width))); lia || reflexivity.
    - now rewrite Z.testbit_neg_r by lia. }
  assert (BB : (0 <= y < 2 ^ Z.of_nat n)%Z).
  { apply testbit_below; [|intros k K; rewrite Ty by lia; destruct (Z.ltb_spec k (Z.of_nat (to_ + width))); [lia|now rewrite andb_false_r]|lia].
    apply Z.shiftl_nonneg. lia. }
  rewrite (norm_small w n y F) by lia. auto.
Qed.

(** the loop over the blocks *)
Definition block (l : list (nat * nat)) (w : option nat) (idx : Z) (i : nat) : Z :=
  move w idx (list_sum (firstn i (map snd l))) (below l (nth i (map fst l) 0)) (nth i (map snd l) 0).
Lemma below_mono l v v' : v <= v' -> below l v <= below l v'.
Proof. intros L. induction l as [|[p s] l IH]; cbn [below]; [lia|]. repeat match goal with |- context [?a <? ?b] => destruct (Nat.ltb_spec a b) end; lia. Qed.
Lemma below_le l v : below l v <= list_sum (map snd l).
Proof. induction l as [|[p s] l IH]; [cbn; lia|]. change (list_sum (map snd ((p, s) :: l))) with (s + list_sum (map snd l)). cbn [below]. destruct (p <? v); lia. Qed.
Lemma list_sum_firstn l i : list_sum (firstn i l) <= list_sum l.
Proof. revert i. induction l as [|a l IH]; intros [|i]; cbn; try lia. specialize (IH i). unfold list_sum in *. lia. Qed.

Lemma block_spec l w idx n i : ranks l -> fits w n -> list_sum (map snd l) = n -> i < length l ->
  (0 <= block l w idx i < 2 ^ Z.of_nat n)%Z /\
  forall k, (0 <= k)%Z -> Z.testbit (block l w idx i) k =
    Z.leb (Z.of_nat (below l (nth i (map fst l) 0))) k && Z.ltb k (Z.of_nat (below l (nth i (map fst l) 0) + nth i (map snd l) 0)) &&
    Z.testbit idx (k - Z.of_nat (below l (nth i (map fst l) 0)) + Z.of_nat (list_sum (firstn i (map snd l)))).
Proof.
  intros [ND BD] F N L. apply move_spec; [exact F| |].
  - rewrite <- list_sum_snoc by (now rewrite map_length). rewrite <- N. apply list_sum_firstn.
  - rewrite <- below_at by assumption. rewrite <- N. apply below_le.
Qed.

Lemma loop_spec l w idx n : ranks l -> fits w n -> list_sum (map snd l) = n ->
  forall m, m <= length l ->
  let r := fold_left (fun acc i => norm w (Z.lor acc (block l w idx i))) (seq 0 m) 0%Z in
  (0 <= r < 2 ^ Z.of_nat n)%Z /\
  forall k, (0 <= k)%Z -> (Z.testbit r k = true <-> exists i, i < m /\ Z.testbit (block l w idx i) k = true).
Proof.
  intros R F N. induction m as [|m IH]; intros L.
  - cbn. split; [pose proof (Z.pow_pos_nonneg 2 (Z.of_nat n)); lia|]. intros k K. rewrite Z.testbit_0_l. split; [discriminate|]. intros (i & H & _). lia.
  - rewrite seq_S, fold_left_app. cbn [fold_left Nat.add]. destruct (IH ltac:(lia)) as [B T]. clear IH.
    set (r := fold_left _ (seq 0 m) 0%Z) in *. clearbody r.
    destruct (block_spec l w idx n m R F N ltac:(lia)) as [Bb _].
    assert (BL : (0 <= Z.lor r (block l w idx m) < 2 ^ Z.of_nat n)%Z).
    { apply testbit_below; [apply Z.lor_nonneg; lia| |lia]. intros k K. rewrite Z.lor_spec.
      assert (S : forall z, (0 <= z < 2 ^ Z.of_nat n)%Z -> Z.testbit z k = false).
      { intros z Bz. destruct (Z.eq_dec z 0) as [->|]; [apply Z.testbit_0_l|]. apply Z.bits_above_log2; [lia|]. apply Z.log2_lt_pow2; [lia|]. apply Z.lt_le_trans with (2 ^ Z.of_nat n)%Z; [lia|]. apply Z.pow_le_mono_r; lia. }
      rewrite !S by assumption. reflexivity. }
    rewrite (norm_small w n) by (assumption || lia). split; [exact BL|]. intros k K. rewrite Z.lor_spec, orb_true_iff, T by assumption. split.
    + intros [(i & Li & H)|H]; [exists i; split; [lia|exact H]|exists m; split; [lia|exact H]].
    + intros (i & Li & H). destruct (Nat.eq_dec i m) as [->|]; [right; exact H|left; exists i; split; [lia|exact H]].
Qed.

Lemma permuter_blocks l w idx : ranks l ->
  permuter w idx (prefix_sums (map snd l)) (prefix_sums (map (fun i => nth i (map snd l) 0) (invert_perm (map fst l)))) (map fst l) =
  fold_left (fun acc i => norm w (Z.lor acc (block l w idx i))) (seq 0 (length l)) 0%Z.
Proof.
  intros R. unfold permuter. rewrite map_length.
  assert (G : forall L acc, (forall i, In i L -> i < length l) ->
    fold_left (fun acc i => norm w (Z.lor acc (move w idx (nth i (prefix_sums (map snd l)) 0)
      (nth (nth i (map fst l) 0) (prefix_sums (map (fun i => nth i (map snd l) 0) (invert_perm (map fst l)))) 0)
      (nth (S i) (prefix_sums (map snd l)) 0 - nth i (prefix_sums (map snd l)) 0)))) L acc =
    fold_left (fun acc i => norm w (Z.lor acc (block l w idx i))) L acc).
  { induction L as [|i L IH]; intros acc H; [reflexivity|]. cbn [fold_left]. rewrite IH by (intros j J; apply H; now right).
    assert (Li : i < length l) by (apply H; now left).
    rewrite permuted_prefix; [|exact R|apply Nat.lt_le_incl, (proj2 R), nth_In; now rewrite map_length].
    rewrite !prefix_nth by (rewrite map_length; lia). rewrite list_sum_snoc by (rewrite map_length; lia).
    rewrite (Nat.add_comm (list_sum _)), Nat.add_sub. reflexivity. }
  apply G. intros i I. apply in_seq in I. lia.
Qed.

(** positions in the expanded map *)
Lemma expand_nth f l i k : i < length l -> k < nth i (map snd l) 0 ->
  nth_error (expand f l) (list_sum (firstn i (map snd l)) + k) = Some (f (nth i (map fst l) 0) + k).
Proof.
  revert i. induction l as [|[p s] l IH]; intros i L K; [cbn in L; lia|]. cbn [map snd expand]. destruct i as [|i]; cbn [map fst snd nth firstn] in *.
  - cbn [list_sum fold_right Nat.add]. rewrite nth_error_app1 by (rewrite seq_length; lia).
    rewrite (nth_error_nth' _ 0) by (rewrite seq_length; lia). now rewrite seq_nth by lia.
  - rewrite nth_error_app2; rewrite seq_length; cbn [list_sum fold_right]; [|fold (list_sum (firstn i (map snd l))); lia].
    fold (list_sum (firstn i (map snd l))). replace (s + list_sum (firstn i (map snd l)) + k - s) with (list_sum (firstn i (map snd l)) + k) by lia.
    apply IH; [cbn in L; lia|exact K].
Qed.
Lemma expand_length f l : length (expand f l) = list_sum (map snd l).
Proof. induction l as [|[p s] l IH]; [reflexivity|]. cbn [expand map snd]. rewrite app_length, seq_length, IH. reflexivity. Qed.
Lemma locate l b : b < list_sum l -> exists i k, i < length l /\ k < nth i l 0 /\ b = list_sum (firstn i l) + k.
Proof.
  revert b. induction l as [|s l IH]; intros b L; [cbn in L; lia|]. change (list_sum (s :: l)) with (s + list_sum l) in L.
  destruct (Nat.lt_ge_cases b s).
  - exists 0, b. cbn. repeat split; lia.
  - destruct (IH (b - s)) as (i & k & L1 & L2 & E); [lia|]. exists (S i), k. cbn [length nth firstn]. split; [lia|]. split; [exact L2|].
    change (list_sum (s :: firstn i l)) with (s + list_sum (firstn i l)). lia.
Qed.

Lemma permuter_spec l w idx n : ranks l -> fits w n -> list_sum (map snd l) = n ->
  let r := permuter w idx (prefix_sums (map snd l)) (prefix_sums (map (fun i => nth i (map snd l) 0) (invert_perm (map fst l)))) (map fst l) in
  (0 <= r < 2 ^ Z.of_nat n)%Z /\
  forall k, (Z.testbit r (Z.of_nat k) = true <-> exists b, b < n /\ nth_error (expand (below l) l) b = Some k /\ Z.testbit idx (Z.of_nat b) = true).
Proof.
  intros R F N r. unfold r. rewrite permuter_blocks by exact R. destruct (loop_spec l w idx n R F N (length l) (le_n _)) as [B T]. split; [exact B|].
  intros k. rewrite T by lia. split.
  - intros (i & Li & H). destruct (block_spec l w idx n i R F N Li) as [_ SB]. rewrite SB in H by lia. rewrite !andb_true_iff in H. destruct H as [[H1 H2] H3].
    apply Z.leb_le in H1. apply Z.ltb_lt in H2. set (t := below l (nth i (map fst l) 0)) in *.
    exists (list_sum (firstn i (map snd l)) + (k - t)).
    assert (K : k - t < nth i (map snd l) 0) by lia. split.
    + rewrite <- N. pose proof (list_sum_firstn (map snd l) (S i)). rewrite list_sum_snoc in H by (rewrite map_length; lia). lia.
    + rewrite expand_nth by assumption. fold t. split; [f_equal; lia|]. rewrite <- H3. f_equal. lia.
  - intros (b & Lb & E & H). rewrite <- N in Lb. destruct (locate _ _ Lb) as (i & j & Li & Lj & ->). rewrite map_length in Li.
    rewrite expand_nth in E by assumption. injection E as E. exists i. split; [exact Li|].
    destruct (block_spec l w idx n i R F N Li) as [_ SB]. rewrite SB by lia. rewrite !andb_true_iff, Z.leb_le, Z.ltb_lt. split; [lia|].
    rewrite <- H. f_equal. lia.
Qed.

(** the complemented and reversed permutation *)
Lemma permutation_is_perm p : permutation p -> is_perm p.
Proof.
  intros P. split; [eapply Permutation_NoDup; [exact P|apply seq_NoDup]|]. intros x I. apply Permutation_sym in P. apply (Permutation_in _ P) in I. apply in_seq in I. lia.
Qed.
Lemma bit_order_length p : length (bit_order p) = length p.
Proof. unfold bit_order. now rewrite rev_length, map_length. Qed.
Lemma bit_order_nth p k : k < length p -> nth k (bit_order p) 0 = length p - 1 - nth (length p - 1 - k) p 0.
Proof.
  intros L. unfold bit_order. rewrite rev_nth by (now rewrite map_length). rewrite map_length.
  rewrite (nth_indep _ 0 (length p - 1 - 0)) by (rewrite map_length; lia). rewrite (map_nth (fun x => length p - 1 - x)). f_equal. f_equal. lia.
Qed.
Lemma bit_order_perm p : is_perm p -> is_perm (bit_order p).
Proof.
  intros [ND BD]. split.
  - apply NoDup_nth with (d := 0). rewrite bit_order_length. intros i j Li Lj E. rewrite !bit_order_nth in E by assumption.
    assert (Bi : nth (length p - 1 - i) p 0 < length p) by (apply BD, nth_In; lia). assert (Bj : nth (length p - 1 - j) p 0 < length p) by (apply BD, nth_In; lia).
    assert (EE : nth (length p - 1 - i) p 0 = nth (length p - 1 - j) p 0) by lia.
    apply (proj1 (NoDup_nth p 0) ND) in EE; lia.
  - intros x I. apply In_nth with (d := 0) in I. rewrite bit_order_length in *. destruct I as (k & L & <-). rewrite bit_order_nth by exact L. lia.
Qed.

Lemma ones_expand f perm : expand f (combine perm (repeat 1 (length perm))) = map f perm.
Proof. induction perm as [|a perm IH]; [reflexivity|]. cbn [length repeat combine expand map seq app]. now rewrite IH. Qed.
Lemma combine_fst (perm : list nat) : map fst (combine perm (repeat 1 (length perm))) = perm.
Proof. induction perm as [|a perm IH]; [reflexivity|]. cbn. now rewrite IH. Qed.
Lemma combine_snd (perm : list nat) : map snd (combine perm (repeat 1 (length perm))) = repeat 1 (length perm).
Proof. induction perm as [|a perm IH]; [reflexivity|]. cbn. now rewrite IH. Qed.
Lemma ones_below perm : is_perm perm -> forall v, v <= length perm -> below (combine perm (repeat 1 (length perm))) v = v.
Proof.
  intros P. set (l := combine perm (repeat 1 (length perm))). assert (F : map fst l = perm) by apply combine_fst.
  assert (Ll : length l = length perm) by (pose proof (f_equal (@length nat) F) as H; now rewrite map_length in H). induction v as [|v IH]; intros L.
  - clear. induction l as [|[q s] l IH]; [reflexivity|exact IH].
  - assert (I : In v perm) by (apply is_perm_all; [exact P|lia]). destruct (nth_index_of _ _ I) as [E L2].
    pose proof (below_at l (index_of perm v)) as H. rewrite F in H. specialize (H (proj1 P) ltac:(lia)). rewrite E, IH in H by lia. rewrite H.
    unfold l. rewrite combine_snd. rewrite (nth_indep _ 0 1) by (now rewrite repeat_length). rewrite nth_repeat. lia.
Qed.

Lemma permute_axes_correct w index p : permutation p -> fits w (length p) ->
  exists new, permute_axes w index p = Some new /\ Forall2 (transposed p) index new.
Proof.
  intros PP F. pose proof (permutation_is_perm p PP) as P. pose proof (bit_order_perm p P) as PB. pose proof (invert_is_perm _ PB) as PI.
  set (perm := invert_perm (bit_order p)) in *.
  assert (LP : length perm = length p) by (unfold perm; rewrite invert_length; apply bit_order_length).
  set (l0 := combine perm (repeat 1 (length perm))).
  assert (F0 : map fst l0 = perm) by apply combine_fst. assert (S0 : map snd l0 = repeat 1 (length perm)) by apply combine_snd.
  assert (L0 : length l0 = length perm) by (pose proof (f_equal (@length nat) F0) as H; now rewrite map_length in H).
  assert (R0 : ranks l0). { split; rewrite F0; [apply PI|]. rewrite L0. apply PI. }
  assert (X0 : expand (below l0) l0 = perm).
  { unfold l0 at 2. rewrite ones_expand. rewrite <- (map_id perm) at 2. apply map_ext_in. intros x I. unfold l0. apply ones_below; [exact PI|]. apply Nat.lt_le_incl, PI, I. }
  assert (M : exists l', merge (S (length perm)) 1 perm (repeat 1 (length p)) = Some (map fst l', map snd l') /\ ranks l' /\ expand (below l') l' = perm).
  { rewrite <- LP, <- S0, <- X0. replace (length (expand (below l0) l0)) with (length l0) by (rewrite X0, L0; reflexivity).
    rewrite X0. rewrite <- F0. clearbody l0. destruct l0 as [|x b]; [exists []; cbn; auto|].
    destruct (merge_ok (S (length (x :: b))) [] x b) as (l' & E & R' & X'); [exact R0| |cbn; lia|].
    - intros y I. assert (J : In (snd y) (repeat 1 (length perm))) by (rewrite <- S0; right; now apply in_map). now apply repeat_spec in J.
    - exists l'. split; [exact E|]. split; [exact R'|]. rewrite X'. rewrite F0. exact X0. }
  destruct M as (l' & E & R' & X'). unfold permute_axes. fold perm. rewrite E. eexists. split; [reflexivity|].
  assert (N : list_sum (map snd l') = length p) by (rewrite <- (expand_length (below l')), X'; exact LP).
  assert (G : forall idx, transposed p idx (permuter w idx (prefix_sums (map snd l')) (prefix_sums (map (fun i => nth i (map snd l') 0) (invert_perm (map fst l')))) (map fst l'))).
  { intros idx. destruct (permuter_spec l' w idx (length p) R' F N) as [B T]. split; [exact B|]. intros a La. unfold coordinate.
    set (r := permuter _ _ _ _ _) in *. clearbody r.
    replace (Z.of_nat (length p) - 1 - Z.of_nat a)%Z with (Z.of_nat (length p - 1 - a)) by lia.
    assert (Ba : nth a p 0 < length p) by (apply P, nth_In, La).
    replace (Z.of_nat (length p) - 1 - Z.of_nat (nth a p 0%nat))%Z with (Z.of_nat (length p - 1 - nth a p 0)) by lia.
    assert (EB : nth (length p - 1 - a) (bit_order p) 0 = length p - 1 - nth a p 0) by (rewrite bit_order_nth by lia; do 2 f_equal; lia).
    apply eq_true_iff_eq. rewrite T, X'. split.
    - intros (b & Lb & Eb & H). rewrite <- LP in Lb. apply nth_error_nth with (d := 0) in Eb. unfold perm in Eb. unfold perm in Lb. rewrite invert_length in Lb. rewrite invert_nth in Eb by exact Lb.
      destruct (nth_index_of (bit_order p) b (is_perm_all _ PB _ Lb)) as [E1 E2]. rewrite Eb in E1. rewrite <- EB, E1. exact H.
    - intros H. exists (length p - 1 - nth a p 0). split; [lia|]. split; [|exact H]. rewrite (nth_error_nth' _ 0) by lia. f_equal.
      unfold perm. rewrite invert_nth by (rewrite bit_order_length; lia). rewrite <- EB. apply index_of_nth; [apply PB|rewrite bit_order_length; lia]. }
  clear - G. induction index as [|idx index IH]; cbn [map]; constructor; [apply G|exact IH].
Qed.

Lemma transposed_injective p i j i' j' : permutation p -> transposed p i i' -> transposed p j j' ->
  (0 <= i < 2 ^ Z.of_nat (length p))%Z -> (0 <= j < 2 ^ Z.of_nat (length p))%Z -> i' = j' -> i = j.
Proof.
  intros P [_ Ti] [_ Tj] Bi Bj <-. pose proof (permutation_is_perm p P) as IP. apply Z.bits_inj'. intros k K.
  destruct (Z.lt_ge_cases k (Z.of_nat (length p))) as [L|L].
  - set (a := length p - 1 - Z.to_nat k). assert (La : a < length p) by lia.
    destruct (nth_index_of p a (is_perm_all p IP a La)) as [E Lx].
    specialize (Ti _ Lx). specialize (Tj _ Lx). rewrite E in Ti, Tj. unfold coordinate in Ti, Tj.
    replace (Z.of_nat (length p) - 1 - Z.of_nat a)%Z with k in Ti, Tj by lia. congruence.
  - assert (S : forall z, (0 <= z < 2 ^ Z.of_nat (length p))%Z -> Z.testbit z k = false).
    { intros z Bz. destruct (Z.eq_dec z 0) as [->|]; [apply Z.testbit_0_l|]. apply Z.bits_above_log2; [lia|]. apply Z.log2_lt_pow2; [lia|].
      apply Z.lt_le_trans with (2 ^ Z.of_nat (length p))%Z; [lia|]. apply Z.pow_le_mono_r; lia. }
    now rewrite !S.
Qed.
