(** Traced arithmetic. *)
From Coq Require Import List ZArith QArith Qround Bool Lia Arith.
Import ListNotations.
From Verif.QFloat Require Import QFModel QFSpec QFProofs.
From Verif.Order Require Import OrderModel OrderProofs.
From Verif.Division Require Import DivModel DivSpec DivProofs DivProofs3.
From Verif.Traced Require Import TracedModel.
Local Open Scope Z_scope.

Lemma p2 n : 0 <= n -> 0 < 2 ^ n. Proof. intros H. apply Z.pow_pos_nonneg; lia. Qed.
Lemma add_word neg a n v : add_reg neg a (word n v) = word n (v + if neg then - code a else code a).
Proof. unfold add_reg. rewrite word_length. apply word_eq. rewrite code_word. apply Zplus_mod_idemp_l. Qed.
Lemma tail_add neg a k n v : (k <= n)%nat -> on_tail k (add_reg neg a) (word n v) = word n (v + 2 ^ Z.of_nat k * (if neg then - code a else code a)).
Proof.
  intros H. unfold on_tail. rewrite firstn_word, skipn_word by exact H. rewrite add_word, word_app. f_equal. lia.
Qed.
Lemma fan_word c n v : fan c (word n v) = word n (if c then - v - 1 else v).
Proof. apply flip_word. Qed.
Lemma negb_word n v : map negb (word n v) = word n (- v - 1).
Proof. rewrite (map_ext negb (xorb true)) by (intros []; reflexivity). apply (fan_word true). Qed.
Lemma zeros_word n : repeat false n = word n 0.
Proof. rewrite <- (word_code (repeat false n) n) by apply repeat_length. rewrite code_zeros. reflexivity. Qed.
Lemma xor_zero a n : (length a <= n)%nat -> xor_list a (repeat false n) = word n (code a).
Proof.
  intros H. rewrite <- (word_code (xor_list a (repeat false n)) n).
  - f_equal. revert n H. induction a as [|x a IH]; intros n H; cbn [xor_list code]; [destruct n; apply code_zeros|]. destruct n as [|n]; [cbn in H; lia|]. cbn [repeat xor_list code]. rewrite IH by (cbn in H; lia). rewrite xorb_false_r. reflexivity.
  - revert n H. induction a as [|x a IH]; intros n H; cbn [xor_list]; [destruct n; apply repeat_length|]. destruct n as [|n]; [cbn in H; lia|]. cbn [repeat xor_list length]. rewrite IH by (cbn in H; lia). reflexivity.
Qed.
Lemma repeat_split {A} (a : A) k n : (k <= n)%nat -> firstn k (repeat a n) = repeat a k /\ skipn k (repeat a n) = repeat a (n - k).
Proof.
  revert n. induction k as [|k IH]; intros n H; [cbn; rewrite Nat.sub_0_r; split; reflexivity|]. destruct n as [|n]; [lia|]. destruct (IH n ltac:(lia)) as [E F]. cbn. rewrite E, F. split; reflexivity.
Qed.
Lemma copy_word a k n : (k + length a <= n)%nat -> copy_to k a (repeat false n) = word n (2 ^ Z.of_nat k * code a).
Proof.
  intros H. unfold copy_to, on_tail. destruct (repeat_split false k n ltac:(lia)) as [-> ->]. rewrite xor_zero by lia. rewrite zeros_word.
  replace (word (n - k) (code a)) with (word (n - k) (Z.shiftr 0 (Z.of_nat k) + code a)) by (rewrite Z.shiftr_0_l; reflexivity).
  rewrite word_app. f_equal. lia.
Qed.
Lemma cnot_length i j l : (j < length l)%nat -> length (cnot i j l) = length l.
Proof. intros H. unfold cnot. rewrite app_length, firstn_length. cbn [length]. rewrite skipn_length. lia. Qed.
Lemma cnot_bit i j l : (j < length l)%nat -> bit (cnot i j l) j = xorb (bit l i) (bit l j).
Proof. intros H. unfold cnot. apply bit_exact. rewrite firstn_length. lia. Qed.
Lemma split_at (j : nat) l : (j < length l)%nat -> l = firstn j l ++ bit l j :: skipn (S j) l.
Proof.
  revert l. induction j as [|j IH]; intros [|a l] H; try (cbn in H; lia); [reflexivity|]. cbn [firstn skipn app bit nth]. f_equal. apply IH. cbn in H. lia.
Qed.
Lemma skip_mid {A} (p : list A) a q : forall j, length p = j -> skipn (S j) (p ++ a :: q) = q.
Proof. induction p as [|b p IH]; intros j <-; [reflexivity|]. cbn [length app]. rewrite skipn_cons. apply IH. reflexivity. Qed.
Lemma cnot_twice i j l : i <> j -> (j < length l)%nat -> cnot i j (cnot i j l) = l.
Proof.
  intros N H. assert (FL : length (firstn j l) = j) by (rewrite firstn_length; lia).
  assert (BI : bit (cnot i j l) i = bit l i).
  { unfold cnot. rewrite (split_at j l H) at 5. unfold bit. destruct (Nat.lt_ge_cases i j) as [L|L].
    - rewrite !app_nth1 by lia. reflexivity.
    - rewrite !app_nth2 by lia. rewrite FL. destruct (i - j)%nat eqn:E; [lia|]. reflexivity. }
  unfold cnot at 1. rewrite BI, cnot_bit by exact H. rewrite <- xorb_assoc, xorb_nilpotent, xorb_false_l.
  unfold cnot. rewrite firstn_exact by exact FL.
  rewrite skip_mid by exact FL. symmetry. apply split_at, H.
Qed.

(** ** multiplication *)
(** the register holds V, or its complement *)
Definition comp (c : bool) (V : Z) : Z := if c then - V - 1 else V.
Lemma code_snoc l b : code (l ++ [b]) = code l + 2 ^ Z.of_nat (length l) * Z.b2z b.
Proof. rewrite code_app. cbn [code]. ring. Qed.
Lemma code_firstn l : forall i, (i < length l)%nat -> code (firstn (S i) l) = code (firstn i l) + 2 ^ Z.of_nat i * Z.b2z (bit l i).
Proof.
  intros i H. rewrite (split_at i l H) at 1. replace (S i) with (length (firstn i l) + 1)%nat by (rewrite firstn_length; lia). rewrite firstn_app_2. cbn [firstn]. rewrite code_snoc, firstn_length. rewrite Nat.min_l by lia. reflexivity.
Qed.
Section mult.
Context (x y : list bool) (L : (2 <= length x)%nat).
Let sz := (length x + length y)%nat.
Let n := (length x - 1)%nat.
(** content before round i *)
Let V (i : nat) : Z := code y * (2 ^ Z.of_nat n - 2 ^ (Z.of_nat i - 1) + code (firstn i x)).
Lemma firstn_y k : (k <= length x)%nat -> firstn (sz - k) y = y.
Proof. intros H. apply firstn_all2. unfold sz. lia. Qed.
Lemma V_step i : (1 <= i < length x)%nat -> V (S i) = (if bit x i then V i + 2 ^ Z.of_nat (i - 1) * code y else V i - 2 ^ Z.of_nat (i - 1) * code y).
Proof.
  intros H. unfold V. rewrite code_firstn by lia. replace (Z.of_nat (S i) - 1) with (Z.of_nat (i - 1) + 1) by lia. replace (Z.of_nat i) with (Z.of_nat (i - 1) + 1) by lia. replace (Z.of_nat (i - 1) + 1 - 1) with (Z.of_nat (i - 1)) by lia.
  rewrite Z.pow_add_r by lia. change (2 ^ 1) with 2. destruct (bit x i); cbn [Z.b2z]; ring.
Qed.
Lemma add_comp i c : (1 <= i < length x)%nat -> c = negb (bit x i) -> on_tail (i - 1) (add_reg false (firstn (sz - i) y)) (word sz (comp c (V i))) = word sz (comp c (V (S i))).
Proof.
  intros H ->. rewrite firstn_y by lia. rewrite tail_add by (unfold sz; lia). f_equal. rewrite V_step by exact H. destruct (bit x i); cbn [negb comp]; ring.
Qed.
Lemma rounds_ok : forall m i, (1 <= i)%nat -> (i + m < length x)%nat ->
  fold_left (fun st j => mult_round y j st) (seq i m) (x, word sz (comp (negb (bit x i)) (V i))) = (x, word sz (comp (negb (bit x (i + m))) (V (i + m)))).
Proof.
  induction m as [|m IH]; intros i H1 H2; [rewrite Nat.add_0_r; reflexivity|]. cbn [seq fold_left]. unfold mult_round at 2. rewrite word_length, add_comp by (auto; lia).
  rewrite cnot_bit by lia. rewrite cnot_twice by lia. rewrite fan_word.
  replace (i + 1)%nat with (S i) by lia. replace (if xorb (bit x i) (bit x (S i)) then _ else _) with (comp (negb (bit x (S i))) (V (S i))) by (destruct (bit x i), (bit x (S i)); cbn [xorb negb comp]; ring).
  rewrite IH by lia. replace (S i + m)%nat with (i + S m)%nat by lia. reflexivity.
Qed.
Lemma core_ok : mult_core x y (repeat false sz) = (x, word sz (code x * code y)).
Proof.
  unfold mult_core. fold n. rewrite copy_word by (unfold n, sz; lia). rewrite negb_word.
  assert (S1 : (if bit x 0 then word sz (- (2 ^ Z.of_nat n * code y) - 1) else add_reg false y (word sz (- (2 ^ Z.of_nat n * code y) - 1))) = word sz (comp true (V 1))).
  { unfold V. rewrite (code_firstn x 0) by lia. cbn [firstn code Z.of_nat]. change (Z.of_nat 1 - 1) with 0. rewrite Z.pow_0_r. destruct (bit x 0); cbn [Z.b2z comp]; [f_equal; ring|]. rewrite add_word. f_equal. ring. }
  rewrite S1, fan_word.
  replace (if bit x 1 then - comp true (V 1) - 1 else comp true (V 1)) with (comp (negb (bit x 1)) (V 1)) by (destruct (bit x 1); cbn [negb comp]; ring).
  pose proof (rounds_ok (length x - 2) 1 ltac:(lia) ltac:(lia)) as RO. rewrite RO. cbv beta iota. replace (1 + (length x - 2))%nat with n by (unfold n; lia).
  rewrite word_length. replace (length x - 2)%nat with (n - 1)%nat by (unfold n; lia). replace (sz - length x + 1)%nat with (sz - n)%nat by (unfold n, sz; lia).
  rewrite add_comp by (auto; unfold n; lia). fold n. rewrite fan_word, negb_word. f_equal. f_equal.
  replace (S n) with (length x) by (unfold n; lia). unfold V. rewrite firstn_all. replace (Z.of_nat (length x) - 1) with (Z.of_nat n) by (unfold n; lia).
  destruct (bit x n); cbn [negb comp]; ring.
Qed.
End mult.
Lemma one_code l : length l = 1%nat -> code l = Z.b2z (bit l 0).
Proof. destruct l as [|a [|b l]]; try discriminate. intros _. unfold bit. cbn [code nth]. ring. Qed.
Lemma multiplyer_ok tracing f1 f2 : (1 <= size_of f1)%nat -> (1 <= size_of f2)%nat -> (tracing = false -> (2 <= size_of f1)%nat) ->
  jasp_multiplyer tracing f1 f2 = Some (f1, mkqf (word (size_of f1 + size_of f2) (code (reg f1) * code (reg f2))) (ex f1 + ex f2) false).
Proof.
  intros H1 H2 T. unfold jasp_multiplyer, size_of in *. replace (length (reg f1) =? 0)%nat with false by (symmetry; apply Nat.eqb_neq; lia). replace (length (reg f2) =? 0)%nat with false by (symmetry; apply Nat.eqb_neq; lia). cbn [orb].
  destruct (Nat.eqb_spec (length (reg f1)) 1) as [E1|E1].
  - destruct tracing; [|specialize (T eq_refl); lia]. rewrite copy_word by lia. do 3 f_equal. rewrite (one_code _ E1), zeros_word. change (2 ^ Z.of_nat 0) with 1. destruct (bit (reg f1) 0); cbn [Z.b2z]; f_equal; ring.
  - destruct (Nat.eqb_spec (length (reg f2)) 1) as [E2|E2].
    + rewrite copy_word by lia. do 3 f_equal. rewrite (one_code _ E2), zeros_word. change (2 ^ Z.of_nat 0) with 1. destruct (bit (reg f2) 0); cbn [Z.b2z]; f_equal; ring.
    + rewrite core_ok by lia. destruct f1 as [r e s]. reflexivity.
Qed.
(** ** products by controlled additions *)
Lemma window_add a k n v : (k + (length a + 1) <= n)%nat -> 0 <= v < 2 ^ Z.of_nat (k + length a) -> on_window k (length a + 1) (add_reg false a) (word n v) = word n (v + 2 ^ Z.of_nat k * code a).
Proof.
  intros H B. unfold on_window. rewrite firstn_word, skipn_word by lia. rewrite firstn_word by lia. rewrite add_word. rewrite skipn_word by lia.
  pose proof (code_range a) as RA. pose proof (p2 (Z.of_nat k) ltac:(lia)) as Pk.
  assert (B2 : 0 <= v + 2 ^ Z.of_nat k * code a < 2 ^ Z.of_nat (k + (length a + 1))).
  { rewrite Nat2Z.inj_add in B. rewrite Z.pow_add_r in B by lia. replace (2 ^ Z.of_nat (k + (length a + 1))) with (2 * (2 ^ Z.of_nat k * 2 ^ Z.of_nat (length a))) by (rewrite <- Z.pow_add_r, <- Z.pow_succ_r by lia; f_equal; lia). nia. }
  set (w := (n - (k + (length a + 1)))%nat).
  rewrite app_assoc, word_app. replace (Z.shiftr v (Z.of_nat (k + (length a + 1)))) with (Z.shiftr (v + 2 ^ Z.of_nat k * code a) (Z.of_nat (k + (length a + 1))) + 0).
  - rewrite word_app. f_equal; [unfold w; lia|lia].
  - rewrite !Z.shiftr_div_pow2 by lia. rewrite !Z.div_small; [lia| |exact B2]. split; [lia|]. eapply Z.lt_le_trans; [apply B|]. apply Z.pow_le_mono_r; lia.
Qed.
Lemma controlled_ok a b : forall m i n, (m = length b - i)%nat -> (i <= length b)%nat -> (length a + length b <= n)%nat ->
  fold_left (fun s i => if bit b i then on_window i (length a + 1) (add_reg false a) s else s) (seq i m) (word n (code a * code (firstn i b))) = word n (code a * code b).
Proof.
  induction m as [|m IH]; intros i n E H1 H2; [cbn; rewrite firstn_all2 by lia; reflexivity|]. cbn [seq fold_left].
  replace (if bit b i then _ else _) with (word n (code a * code (firstn (S i) b))); [apply IH; lia|]. rewrite code_firstn by lia. destruct (bit b i); cbn [Z.b2z].
  - rewrite window_add; [f_equal; ring|lia|]. pose proof (code_range a) as RA. pose proof (code_range (firstn i b)) as RB. rewrite firstn_length, Nat.min_l in RB by lia. rewrite Nat2Z.inj_add, Z.pow_add_r by lia. nia.
  - f_equal. ring.
Qed.
Lemma controlling_ok a b : jasp_controlling_multiplyer a b = mkqf (word (size_of a + size_of b) (code (reg a) * code (reg b))) 0 false.
Proof.
  unfold jasp_controlling_multiplyer, size_of. f_equal. rewrite zeros_word. replace 0 with (code (reg a) * code (firstn 0 (reg b))) by (cbn [firstn code]; ring). apply controlled_ok; lia.
Qed.
Lemma squaring_ok a : jasp_squaring a = mkqf (word (2 * size_of a) (code (reg a) * code (reg a))) 0 false.
Proof.
  unfold jasp_squaring, size_of. f_equal. rewrite zeros_word. replace 0 with (code (reg a) * code (firstn 0 (reg a))) by (cbn [firstn code]; ring). apply controlled_ok; lia.
Qed.
(** ** powers *)
Lemma chain_ok tracing a : (1 <= size_of a)%nat -> (tracing = false -> (2 <= size_of a)%nat) -> forall p, exists t, chain tracing a p = Some t /\ length t = (S p * size_of a)%nat /\ code t = code (reg a) ^ Z.of_nat (S p).
Proof.
  intros H1 T. induction p as [|p (t & E & Lt & C)]; [exists (reg a); split; [reflexivity|]; split; [unfold size_of; lia|change (Z.of_nat 1) with 1; rewrite Z.pow_1_r; reflexivity]|].
  cbn [chain]. rewrite E. rewrite multiplyer_ok; [|exact H1|unfold size_of in *; cbn [reg]; lia|exact T]. cbn [reg]. unfold size_of at 2. cbn [reg].
  eexists. split; [reflexivity|]. split; [rewrite word_length, Lt; cbn [Nat.mul]; lia|]. rewrite code_word, C.
  assert (X : code (reg a) * code (reg a) ^ Z.of_nat (S p) = code (reg a) ^ Z.of_nat (S (S p))) by (rewrite <- Z.pow_succ_r by lia; f_equal; lia).
  rewrite X. apply Z.mod_small. pose proof (code_range (reg a)) as RA. fold (size_of a) in RA. split; [apply Z.pow_nonneg; lia|].
  replace (Z.of_nat (size_of a + length t)) with (Z.of_nat (size_of a) * Z.of_nat (S (S p))) by (rewrite Lt; lia). rewrite Z.pow_mul_r by lia. apply Z.pow_lt_mono_l; lia.
Qed.
Lemma power_ok tracing a p : (1 <= size_of a)%nat -> (tracing = false -> (2 <= size_of a)%nat) ->
  power tracing a p = Some (mkqf (word (S p * size_of a) (code (reg a) ^ Z.of_nat (S p))) 0 false).
Proof.
  intros H T. destruct (chain_ok tracing a H T p) as (t & E & Lt & C). unfold power. rewrite E, xor_zero by lia. rewrite Lt, C. reflexivity.
Qed.
(** ** in-place addition *)
Definition floor_grid (f : shape) (v : Q) : Z := Qfloor (v / pw (expo f)).
Lemma floor_shift m eg ef : Qfloor (inject_Z m * pw eg / pw ef) = 2 ^ (Z.max eg ef - ef) * Z.shiftr m (Z.max eg ef - eg).
Proof.
  apply floor_unique. rewrite Z.shiftr_div_pow2 by lia. destruct (Z.le_gt_cases ef eg) as [L|L].
  - rewrite Z.max_l by lia. replace (eg - eg) with 0 by lia. rewrite Z.pow_0_r, Z.div_1_r.
    assert (E : (inject_Z m * pw eg / pw ef == inject_Z (2 ^ (eg - ef) * m))%Q) by (apply div_pw; rewrite (scale m eg ef L); rewrite Z.mul_comm; reflexivity).
    rewrite E. split; [apply Qle_refl|]. rewrite <- Zlt_Qlt. lia.
  - rewrite Z.max_r by lia. replace (ef - ef) with 0 by lia. rewrite Z.pow_0_r, Z.mul_1_l. pose proof (p2 (ef - eg) ltac:(lia)) as P.
    pose proof (Z.div_mod m (2 ^ (ef - eg)) ltac:(lia)) as D. pose proof (Z.mod_pos_bound m (2 ^ (ef - eg)) P) as R.
    assert (X : forall k, (inject_Z k * pw ef == inject_Z (k * 2 ^ (ef - eg)) * pw eg)%Q) by (intros k; apply scale; lia).
    split.
    + apply Qle_shift_div_l; [apply pw_pos|]. rewrite X. apply mul_pw_le. rewrite <- Zle_Qle. lia.
    + apply Qlt_shift_div_r; [apply pw_pos|]. rewrite X. apply Qmult_lt_r; [apply pw_pos|]. rewrite <- Zlt_Qlt. lia.
Qed.
Lemma qvar_reg f c : reg (qvar f c) = word (size f) c. Proof. reflexivity. Qed.
Lemma code_tail g d j : basis g d -> (signed g = true -> (j < size g)%nat) ->
  exists q, code (skipn j (word (size g) d)) = Z.shiftr (mantissa g d) (Z.of_nat j) + q /\ (if signed g then exists r, q = 2 ^ Z.of_nat (size g - j) * r else q = 0).
Proof.
  intros B S. destruct (Nat.le_gt_cases j (size g)) as [L|L].
  - rewrite skipn_word, code_word by exact L. pose proof (p2 (Z.of_nat (size g - j)) ltac:(lia)) as P. unfold mantissa. destruct (signed g) eqn:SG.
    + eexists. split; [symmetry; apply Zplus_minus|]. rewrite !Z.shiftr_div_pow2 by lia. set (M := 2 ^ Z.of_nat (size g - j)) in *.
      assert (SZ : 2 ^ Z.of_nat (size g) = M * 2 ^ Z.of_nat j) by (unfold M; rewrite <- Z.pow_add_r by lia; f_equal; lia).
      pose proof (Z.div_mod (d / 2 ^ Z.of_nat j) M ltac:(lia)) as D. destruct (d <? _).
      * exists (- (d / 2 ^ Z.of_nat j / M)). lia.
      * rewrite SZ. replace (d - M * 2 ^ Z.of_nat j) with (d + (- M) * 2 ^ Z.of_nat j) by ring. pose proof (p2 (Z.of_nat j) ltac:(lia)). rewrite Z.div_add by lia. exists (1 - d / 2 ^ Z.of_nat j / M). lia.
    + exists 0. split; [|reflexivity]. rewrite Z.mod_small; [lia|]. rewrite Z.shiftr_div_pow2 by lia. pose proof (p2 (Z.of_nat j) ltac:(lia)) as Pj. unfold basis in B. split; [apply Z.div_pos; lia|].
      apply Z.div_lt_upper_bound; [lia|]. rewrite <- Z.pow_add_r by lia. replace (Z.of_nat j + Z.of_nat (size g - j)) with (Z.of_nat (size g)) by lia. lia.
  - destruct (signed g) eqn:SG; [specialize (S eq_refl); lia|]. exists 0. split; [|reflexivity]. rewrite skipn_all2 by (rewrite word_length; lia). cbn [code]. unfold mantissa. rewrite SG.
    rewrite Z.shiftr_div_pow2 by lia. rewrite Z.div_small; [reflexivity|]. unfold basis in B. split; [lia|]. eapply Z.lt_le_trans; [apply B|]. apply Z.pow_le_mono_r; lia.
Qed.
Definition signed_sum (neg : bool) (a b : Z) : Z := if neg then a - b else a + b.
Lemma iadd_ok neg f c g d : basis f c -> basis g d -> expo g - expo f < Z.of_nat (size f) -> (1 <= size f)%nat ->
  (signed g = true -> expo f + Z.of_nat (size f) <= expo g + Z.of_nat (size g)) ->
  traced_iadd neg (qvar f c) (qvar g d) = Some (qvar f (signed_sum neg c (floor_grid f (QFSpec.value g d)))).
Proof.
  intros B B' R1 R2 S. unfold traced_iadd. change (ex (qvar g d)) with (expo g). change (ex (qvar f c)) with (expo f). rewrite qvar_size.
  set (st := Z.max (expo g) (expo f)). set (k := Z.to_nat (st - expo f)). set (j := Z.to_nat (st - expo g)).
  assert (Hk : (k < size f)%nat) by (unfold k, st; lia). destruct (Nat.leb_spec (size f) k) as [X|_]; [lia|]. f_equal.
  rewrite !qvar_reg, tail_add by lia. unfold set_reg, qvar. cbn [ex sg]. f_equal. change (word (size f) (c + 2 ^ Z.of_nat k * (if neg then - code (skipn j (word (size g) d)) else code (skipn j (word (size g) d)))) = word (size f) (signed_sum neg c (floor_grid f (QFSpec.value g d)))).
  apply word_eq. unfold floor_grid, QFSpec.value. rewrite floor_shift. fold st. replace (st - expo f) with (Z.of_nat k) by (unfold k, st; lia). replace (st - expo g) with (Z.of_nat j) by (unfold j, st; lia).
  destruct (code_tail g d j B') as (q & -> & Q); [intros SG; specialize (S SG); unfold j, st; lia|].
  assert (QQ : exists t, 2 ^ Z.of_nat k * q = t * 2 ^ Z.of_nat (size f)).
  { destruct (signed g) eqn:SG; [|exists 0; subst q; ring]. destruct Q as (r & ->). specialize (S eq_refl).
    assert (W : (size f <= k + (size g - j))%nat) by (unfold k, j, st; lia). exists (2 ^ Z.of_nat (k + (size g - j) - size f) * r).
    replace (2 ^ Z.of_nat k * (2 ^ Z.of_nat (size g - j) * r)) with (2 ^ (Z.of_nat k + Z.of_nat (size g - j)) * r) by (rewrite Z.pow_add_r by lia; ring).
    replace (Z.of_nat k + Z.of_nat (size g - j)) with (Z.of_nat (k + (size g - j) - size f) + Z.of_nat (size f)) by lia. rewrite Z.pow_add_r by lia. ring. }
  destruct QQ as (t & QQ). set (h := Z.shiftr _ _). unfold signed_sum. destruct neg.
  - replace (c + 2 ^ Z.of_nat k * - (h + q)) with (c - 2 ^ Z.of_nat k * h + (- t) * 2 ^ Z.of_nat (size f)) by (replace (2 ^ Z.of_nat k * - (h + q)) with (- (2 ^ Z.of_nat k * h) - 2 ^ Z.of_nat k * q) by ring; rewrite QQ; ring). apply Z_mod_plus_full.
  - replace (c + 2 ^ Z.of_nat k * (h + q)) with (c + 2 ^ Z.of_nat k * h + t * 2 ^ Z.of_nat (size f)) by (rewrite Z.mul_add_distr_l, QQ; ring). apply Z_mod_plus_full.
Qed.
Definition qsum (neg : bool) (a b : Q) : Q := if neg then (a - b)%Q else (a + b)%Q.
(** the code c +- w stands for the sum *)
Lemma wrap_value neg f c w v : basis f c -> (v == inject_Z w * pw (expo f))%Q -> representable f (qsum neg (QFSpec.value f c) v) ->
  exists c', basis f c' /\ qvar f (signed_sum neg c w) = qvar f c' /\ (QFSpec.value f c' == qsum neg (QFSpec.value f c) v)%Q.
Proof.
  intros B V (k & R & E). exists (k mod 2 ^ Z.of_nat (size f)). destruct (code_of f k R) as [B2 M2]. split; [exact B2|].
  assert (K : k = signed_sum neg (mantissa f c) w).
  { apply (mul_pw_inj _ _ (expo f)). rewrite <- E. unfold qsum, signed_sum, QFSpec.value. destruct neg; rewrite V; unfold Z.sub; rewrite inject_Z_plus, ?inject_Z_opp; ring. }
  split; [|unfold QFSpec.value at 1; rewrite M2; symmetry; exact E]. rewrite <- (qvar_mod f (signed_sum neg c w)). f_equal. rewrite K. clear - c.
  unfold mantissa. destruct (signed f); [|reflexivity]. destruct (_ <? _); [reflexivity|]. unfold signed_sum. destruct neg.
  - replace (c - 2 ^ Z.of_nat (size f) - w) with (c - w + (-1) * 2 ^ Z.of_nat (size f)) by ring. symmetry. apply Z_mod_plus_full.
  - replace (c - 2 ^ Z.of_nat (size f) + w) with (c + w + (-1) * 2 ^ Z.of_nat (size f)) by ring. symmetry. apply Z_mod_plus_full.
Qed.
Lemma on_grid neg f c v : representable f (qsum neg (QFSpec.value f c) v) -> (v == inject_Z (floor_grid f v) * pw (expo f))%Q.
Proof.
  intros (k & _ & E). set (w := if neg then mantissa f c - k else k - mantissa f c).
  assert (V : (v == inject_Z w * pw (expo f))%Q).
  { unfold w. unfold qsum, QFSpec.value in E. destruct neg; unfold Z.sub; rewrite inject_Z_plus, inject_Z_opp.
    - transitivity (inject_Z (mantissa f c) * pw (expo f) - inject_Z k * pw (expo f))%Q; [rewrite <- E; ring|ring].
    - transitivity (inject_Z k * pw (expo f) - inject_Z (mantissa f c) * pw (expo f))%Q; [rewrite <- E; ring|ring]. }
  replace (floor_grid f v) with w; [exact V|]. unfold floor_grid. rewrite (div_pw v w _ V). symmetry. apply Qfloor_Z.
Qed.
Lemma traced_encoder_ok f x c : encoder f x = Some c -> traced_encoder f x = c.
Proof.
  unfold encoder, traced_encoder. cbv zeta. destruct (negb (signed f) && ltq (value_of x) 0); [discriminate|]. destruct (_ || _); [discriminate|]. intros E. injection E as E. exact E.
Qed.
Lemma duplicate_ok r n : length r = n -> map (fun '(x, y) => xorb x y) (combine r (repeat false n)) = r.
Proof. revert n. induction r as [|a r IH]; intros n <-; [reflexivity|]. cbn. rewrite xorb_false_r. f_equal. apply IH. reflexivity. Qed.
