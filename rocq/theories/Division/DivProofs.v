(** Proofs about in-place addition and division. *)
From Coq Require Import List ZArith QArith Bool Lia Lqa.
Import ListNotations.
From Verif.QFloat Require Import QFModel QFSpec QFProofs.
From Verif.Order Require Import OrderModel OrderSpec OrderProofs.
From Verif.Lib Require Rev.
From Verif.Division Require Import ThapModel ThapProofs DivModel.
Local Open Scope Z_scope.

(** ** words *)
Lemma b2z_same b : Rev.b2z b = Z.b2z b. Proof. destruct b; reflexivity. Qed.
Lemma word_S n c : word (S n) c = word n c ++ [Z.testbit c (Z.of_nat n)].
Proof. unfold word. rewrite seq_S, map_app. reflexivity. Qed.
Lemma word_eq n c d : c mod 2 ^ Z.of_nat n = d mod 2 ^ Z.of_nat n -> word n c = word n d.
Proof. intros H. rewrite <- (word_mod n c), H. apply word_mod. Qed.
Lemma word_add_high n c k : word n (c + 2 ^ Z.of_nat n * k) = word n c.
Proof. apply word_eq. rewrite Z.mul_comm. apply Z.mod_add. pose proof (p2pos (Z.of_nat n)). lia. Qed.
Lemma val_code n l : length l = n -> Rev.val n (fun i => nth i l false) = code l.
Proof.
  intros <-. rewrite <- (word_code l _ eq_refl) at 2. rewrite code_word. rewrite <- (code_word (length l) (code l)), (word_code l _ eq_refl).
  apply Z.bits_inj'. intros i Hi. replace i with (Z.of_nat (Z.to_nat i)) by lia. set (j := Z.to_nat i). rewrite code_bit.
  destruct (lt_dec j (length l)) as [L|L]; [apply Rev.val_testbit, L|].
  unfold bit. rewrite nth_overflow by lia. pose proof (Rev.val_bounds (length l) (fun i => nth i l false)) as B.
  apply Z.testbit_false; [lia|]. rewrite Z.div_small; [reflexivity|]. split; [lia|]. eapply Z.lt_le_trans; [apply B|]. apply Z.pow_le_mono_r; lia.
Qed.
Lemma map_nth_word n l : length l = n -> map (fun i => nth i l false) (seq 0 n) = l.
Proof. intros <-. clear. induction l as [|b l IH]; [reflexivity|]. cbn [length seq map nth]. f_equal. rewrite <- seq_shift, map_map. exact IH. Qed.

(** ** the adder on lists *)
Lemma thap_list la lb out : length la = length lb -> (2 <= length la)%nat ->
  thapliyal_procedure la lb out = Some (la, word (length la) (code la + code lb), xorb out (Z.testbit (code la + code lb) (Z.of_nat (length la)))).
Proof.
  intros L N. unfold thapliyal_procedure. rewrite L, Nat.eqb_refl. cbn [negb]. destruct la as [|a0 la0]; [cbn in N; lia|]. set (la := a0 :: la0) in *. clearbody la. cbv zeta. rewrite <- L. set (n := length la) in *.
  pose proof (thapliyal_exec n (place la lb out) 0 (fun i => nth i la false) (fun i => nth i lb false) out N) as E.
  eapply Rev.exec_pre in E; [|intros q; symmetry; instantiate (1 := place la lb out); destruct q as [[|[|[|[|[|[|r]]]]]] i]; cbn; try reflexivity; destruct (i =? 0)%nat; reflexivity].
  apply Rev.exec_run in E. destruct E as (s' & R & Q). rewrite R. cbn [snd fst] in *.
  assert (Va : Rev.val n (fun i => nth i la false) = code la) by (apply val_code; reflexivity).
  assert (Vb : Rev.val n (fun i => nth i lb false) = code lb) by (apply val_code; symmetry; exact L).
  do 2 f_equal; [f_equal|].
  - rewrite (map_ext _ (fun i => nth i la false)) by (intros i; rewrite Q; reflexivity). apply map_nth_word. reflexivity.
  - unfold word. apply map_ext_in. intros i Hi. apply in_seq in Hi. rewrite Q. unfold Done, St. replace (i <? n)%nat with true by (symmetry; apply Nat.ltb_lt; lia).
    rewrite <- (Rev.val_testbit n (Rev.sumbit (fun i => nth i la false) (fun i => nth i lb false) false) i) by lia. rewrite Rev.adder_mod, Va, Vb. cbn [Rev.b2z]. rewrite Z.add_0_r.
    rewrite Z.mod_pow2_bits_low by lia. reflexivity.
  - rewrite Q. cbn. f_equal. rewrite Rev.adder_carry, Va, Vb. cbn [Rev.b2z]. rewrite Z.add_0_r.
    pose proof (code_range la) as C1. pose proof (code_range lb) as C2. rewrite <- L in C2. fold n in C1, C2. set (x := code la + code lb) in *.
    destruct (Z.leb_spec (2 ^ Z.of_nat n) x) as [G|G]; symmetry.
    + apply Z.testbit_true; [lia|]. replace (x / 2 ^ Z.of_nat n) with 1; [reflexivity|]. apply (Z.div_unique x _ 1 (x - 2 ^ Z.of_nat n)); lia.
    + apply Z.testbit_false; [lia|]. rewrite Z.div_small by lia. reflexivity.
Qed.
(** with the final CNOT: addition modulo 2^(n+1) *)
Lemma b2z_top n x (u v : bool) : 0 <= x < 2 * 2 ^ Z.of_nat n -> Z.testbit (x + 2 ^ Z.of_nat n * (Z.b2z u + Z.b2z v)) (Z.of_nat n) = xorb u (xorb v (Z.testbit x (Z.of_nat n))).
Proof.
  intros H. pose proof (p2pos (Z.of_nat n) ltac:(lia)) as P. rewrite !Z.testbit_eqb by lia. rewrite Z.mul_comm, Z.div_add by lia.
  assert (D : x / 2 ^ Z.of_nat n = 0 \/ x / 2 ^ Z.of_nat n = 1).
  { assert (0 <= x / 2 ^ Z.of_nat n) by (apply Z.div_pos; lia). assert (x / 2 ^ Z.of_nat n < 2) by (apply Z.div_lt_upper_bound; lia). lia. }
  destruct D as [-> | ->]; destruct u, v; reflexivity.
Qed.
Lemma window la lb u v : length la = length lb ->
  word (length la) (code la + code lb) ++ [xorb u (xorb v (Z.testbit (code la + code lb) (Z.of_nat (length la))))] = word (S (length la)) (code (la ++ [u]) + code (lb ++ [v])).
Proof.
  intros L. rewrite !code_app, <- L. cbn [code]. rewrite !Z.mul_0_r, !Z.add_0_r. set (P := 2 ^ Z.of_nat (length la)).
  replace (code la + P * Z.b2z u + (code lb + P * Z.b2z v)) with (code la + code lb + P * (Z.b2z u + Z.b2z v)) by ring.
  rewrite word_S. unfold P. rewrite word_add_high, b2z_top; [reflexivity|]. pose proof (code_range la). pose proof (code_range lb). rewrite <- L in *. lia.
Qed.
Lemma flip_word c n z : flip_by c (word n z) = word n (if c then - z - 1 else z).
Proof.
  unfold flip_by, word. rewrite map_map. apply map_ext. intros i. destruct c; [|destruct (Z.testbit z (Z.of_nat i)); reflexivity].
  replace (- z - 1) with (Z.lnot z) by (unfold Z.lnot; lia). rewrite Z.lnot_spec by lia. reflexivity.
Qed.
Lemma flip_length c l : length (flip_by c l) = length l. Proof. apply map_length. Qed.
Lemma flip_flip_by c d l : flip_by c (flip_by d l) = flip_by (xorb c d) l.
Proof. unfold flip_by. rewrite map_map. apply map_ext. intros x. destruct c, d, x; reflexivity. Qed.
Lemma flip_false l : flip_by false l = l.
Proof. unfold flip_by. rewrite (map_ext _ (fun x => x)) by (intros []; reflexivity). apply map_id. Qed.
Lemma nth_flip c l i : (i < length l)%nat -> bit (flip_by c l) i = xorb c (bit l i).
Proof. intros H. unfold bit, flip_by. rewrite (nth_indep _ false (xorb c false)) by (rewrite map_length; exact H). apply map_nth. Qed.
Lemma nth_skip {A} k i (l : list A) d : nth i (skipn k l) d = nth (k + i) l d.
Proof. revert l. induction k as [|k IH]; intros [|x l]; cbn; try reflexivity; [destruct i; reflexivity|apply IH]. Qed.
Lemma skipn_word n k c : (k <= n)%nat -> skipn k (word n c) = word (n - k) (Z.shiftr c (Z.of_nat k)).
Proof.
  intros H. apply (nth_ext _ _ false false); [rewrite skipn_length, !word_length; reflexivity|]. intros i Hi. rewrite skipn_length, word_length in Hi.
  change (bit (skipn k (word n c)) i = bit (word (n - k) (Z.shiftr c (Z.of_nat k))) i). rewrite bit_word by lia. rewrite Z.shiftr_spec by lia.
  unfold bit. rewrite nth_skip. change (bit (word n c) (k + i) = Z.testbit c (Z.of_nat i + Z.of_nat k)). rewrite bit_word by lia. f_equal. lia.
Qed.
Lemma slice_word n k j c : (k <= j <= n)%nat -> slice k j (word n c) = word (j - k) (Z.shiftr c (Z.of_nat k)).
Proof. intros H. unfold slice. rewrite skipn_word, firstn_word by lia. reflexivity. Qed.
Lemma word_last n c : last (word (S n) c) false = Z.testbit c (Z.of_nat n).
Proof. rewrite word_S. apply last_last. Qed.
Lemma word_removelast n c : removelast (word (S n) c) = word n c.
Proof. rewrite word_S. apply removelast_last. Qed.

Lemma word_app k w c x : word k c ++ word w (Z.shiftr c (Z.of_nat k) + x) = word (k + w) (c + 2 ^ Z.of_nat k * x).
Proof.
  replace (Z.shiftr c (Z.of_nat k) + x) with (Z.shiftr (c + 2 ^ Z.of_nat k * x) (Z.of_nat k)).
  2:{ rewrite !Z.shiftr_div_pow2 by lia. rewrite Z.mul_comm. apply Z.div_add. pose proof (p2pos (Z.of_nat k)). lia. }
  rewrite <- (word_add_high k c x). rewrite <- (firstn_word (k + w)) by lia. replace w with (k + w - k)%nat at 2 by lia. rewrite <- skipn_word by lia. apply firstn_skipn.
Qed.
Definition mant (b : qf) : Z := mantissa (form b) (code (reg b)).
Lemma wf_split b : wf b -> sg b = true -> exists m s, reg b = m ++ [s].
Proof. intros W S. specialize (W S). destruct (exists_last W) as (m & s & E). eauto. Qed.
Lemma mant_unsigned b : sg b = false -> mant b = code (reg b).
Proof. intros S. unfold mant, mantissa. change (signed (form b)) with (sg b). rewrite S. reflexivity. Qed.
Lemma mant_signed b m s : sg b = true -> reg b = m ++ [s] -> mant b = amount m s.
Proof. intros S E. destruct b as [r e g]. cbn in S, E. subst. apply mantissa_signed. Qed.
Lemma mant_bits b i : wf b -> Z.testbit (mant b) (Z.of_nat i) = if (i <? size_of b)%nat then bit (reg b) i else sg b && sign_of b.
Proof.
  intros W. destruct (sg b) eqn:S.
  - destruct (wf_split b W S) as (m & s & E). rewrite (mant_signed b m s S E). unfold sign_of, size_of. rewrite E, last_last, app_length. cbn [length andb]. replace (length m + 1)%nat with (1 + length m)%nat by lia. unfold amount. pose proof (code_range m) as C.
    assert (P : 2 ^ Z.of_nat (1 + length m) = 2 * 2 ^ Z.of_nat (length m)) by (replace (Z.of_nat (1 + length m)) with (Z.succ (Z.of_nat (length m))) by lia; apply Z.pow_succ_r; lia).
    destruct (Nat.ltb_spec i (1 + length m)) as [L|L].
    + rewrite <- code_bit, code_app. cbn [code]. rewrite Z.mul_0_r, Z.add_0_r.
      rewrite <- (Z.mod_pow2_bits_low (code m - _) (Z.of_nat (1 + length m))) by lia. rewrite <- (Z.mod_pow2_bits_low (code m + _) (Z.of_nat (1 + length m))) by lia. f_equal.
      destruct s; cbn [Z.b2z]; [|f_equal; lia]. rewrite <- (Z.mod_add (code m - _) 1) by lia. f_equal. lia.
    + assert (G : 2 ^ Z.of_nat (1 + length m) <= 2 ^ Z.of_nat i) by (apply Z.pow_le_mono_r; lia). destruct s.
      * apply Z.testbit_true; [lia|]. assert (E' : (code m - 2 ^ Z.of_nat (length m)) / 2 ^ Z.of_nat i = -1); [|rewrite E'; reflexivity]. symmetry. apply (Z.div_unique _ _ (-1) (code m - 2 ^ Z.of_nat (length m) + 2 ^ Z.of_nat i)); lia.
      * apply Z.testbit_false; [lia|]. rewrite Z.div_small by lia. reflexivity.
  - rewrite mant_unsigned by exact S. rewrite code_bit. destruct (Nat.ltb_spec i (size_of b)) as [L|L]; [reflexivity|]. apply nth_overflow. exact L.
Qed.
Lemma reg_word b : wf b -> reg b = word (size_of b) (mant b).
Proof.
  intros W. apply (nth_ext _ _ false false); [rewrite word_length; reflexivity|]. intros i Hi. change (bit (reg b) i = bit (word (size_of b) (mant b)) i). rewrite bit_word, mant_bits by assumption.
  replace (i <? size_of b)%nat with true by (symmetry; apply Nat.ltb_lt; exact Hi). reflexivity.
Qed.
Lemma aug_word b k : wf b -> reg b ++ repeat (sg b && sign_of b) k = word (size_of b + k) (mant b).
Proof.
  intros W. induction k as [|k IH]; [rewrite Nat.add_0_r, app_nil_r; apply reg_word, W|]. replace (size_of b + S k)%nat with (S (size_of b + k)) by lia. rewrite word_S, <- IH. rewrite mant_bits by exact W.
  replace (size_of b + k <? size_of b)%nat with false by (symmetry; apply Nat.ltb_ge; lia). rewrite <- app_assoc. f_equal. cbn [repeat]. symmetry. apply repeat_snoc.
Qed.
Lemma top_eq a : top a = ex a + Z.of_nat (msize (form a)). Proof. reflexivity. Qed.
Lemma msize_eq a : wf a -> Z.of_nat (msize (form a)) = Z.of_nat (size_of a) - Z.b2z (sg a).
Proof. intros W. unfold form, size_of. cbn [msize]. destruct (sg a) eqn:S; cbn [Z.b2z]; [|lia]. specialize (W S). destruct (reg a); [congruence|]. cbn [length]. lia. Qed.
Lemma code_form a : code (word (size_of a) (code (reg a))) = code (reg a).
Proof. rewrite word_code; reflexivity. Qed.
Lemma word_code_add n x y : word n (code (word n x) + code (word n y)) = word n (x + y).
Proof. apply word_eq. rewrite !code_word. symmetry. apply Zplus_mod. Qed.
Lemma map_xor_self s k : flip_by s (repeat s k) = repeat false k.
Proof. unfold flip_by. induction k as [|k IH]; [reflexivity|]. cbn [repeat map]. rewrite IH, xorb_nilpotent. reflexivity. Qed.
Lemma clean_zeros k : Forall (fun q => q = false) (repeat false k).
Proof. apply Forall_forall. intros x Hx. apply repeat_spec in Hx. exact Hx. Qed.

Lemma skip_nil {A B} (l : list A) (x : option B) : l <> [] -> match l with [] => None | _ :: _ => x end = x.
Proof. destruct l; [congruence|reflexivity]. Qed.
Lemma word_nonempty n c : word (S n) c <> []. Proof. discriminate. Qed.

(** ** in-place addition *)
Lemma inpl_add_ok ir io a b : wf a -> wf b -> (ir = false -> ex a <= ex b) -> top b <= top a -> (sg b = true -> sg a = true) -> ex a <= top b ->
  3 <= top a - Z.max (ex a) (ex b) + Z.b2z (sg a) ->
  exists gone, inpl_add ir io a b = Some (set_reg a (word (size_of a) (code (reg a) + Z.shiftl (mant b) (ex b - ex a))), b, gone) /\ Forall (fun q => q = false) gone.
Proof.
  intros Wa Wb IR T SG I W3. unfold inpl_add.
  replace (negb ir && (ex b <? ex a)) with false by (destruct ir; [reflexivity|]; specialize (IR eq_refl); symmetry; apply Z.ltb_ge; lia).
  replace (negb io && (top a <? top b)) with false by (destruct io; [reflexivity|]; symmetry; apply Z.ltb_ge; lia).
  set (lo := Z.max (ex a) (ex b)) in *. pose proof (top_eq a) as Ta. pose proof (top_eq b) as Tb. pose proof (msize_eq a Wa) as Ma. pose proof (msize_eq b Wb) as Mb.
  replace (Z.min (top a) (top b) <? lo) with false by (symmetry; apply Z.ltb_ge; lia).
  replace (sg b && negb (sg a)) with false by (destruct (sg b); [rewrite SG by reflexivity|]; reflexivity).
  set (wide := top b <? top a). set (s := sg b && sign_of b). set (k := if wide then Z.to_nat (top a - top b - Z.b2z (sg b)) else 0%nat).
  set (w1 := Z.to_nat (lo - ex a)). set (w2 := Z.to_nat (lo - ex b)).
  cbv zeta. rewrite (aug_word b k Wb : reg b ++ repeat s k = _). rewrite word_length.
  set (w2' := if wide then (size_of b + k)%nat else Z.to_nat (top a - ex b)).
  assert (K : w2' = Z.to_nat (top a - ex b) /\ (w2' <= size_of b + k)%nat).
  { unfold w2', k, wide. destruct (Z.ltb_spec (top b) (top a)); destruct (sg b); cbn [Z.b2z] in *; lia. }
  destruct K as [K1 K2].
  assert (S2 : s = Z.testbit (mant b) (Z.of_nat w2')).
  { unfold s. rewrite mant_bits by exact Wb. destruct (Nat.ltb_spec w2' (size_of b)) as [L|L]; [|reflexivity].
    destruct (sg b) eqn:SB; cbn [Z.b2z] in *; [|lia]. destruct (wf_split b Wb SB) as (m & u & E). unfold sign_of, size_of in *. rewrite E in *. rewrite app_length in *. cbn [length] in *. rewrite last_last.
    cbn [andb]. replace w2' with (length m) by lia. symmetry. apply bit_exact. reflexivity. }
  set (n := (Z.to_nat (top a - lo + Z.b2z (sg a)) - 1)%nat). assert (Hn : (2 <= n)%nat) by (unfold n; lia).
  set (X1 := Z.shiftr (code (reg a)) (Z.of_nat w1)). set (X2 := Z.shiftr (mant b) (Z.of_nat w2)).
  assert (L1 : slice w1 (Z.to_nat (top a - ex a)) (reg a) ++ (if sg a then [sign_of a] else []) = word (S n) X1).
  { transitivity (skipn w1 (reg a)).
    - unfold slice. destruct (sg a) eqn:SA; cbn [Z.b2z] in *.
      + destruct (wf_split a Wa SA) as (m & u & E). unfold sign_of, size_of in *. rewrite E in *. rewrite app_length in *. cbn [length] in *. rewrite last_last. rewrite skipn_app. replace (w1 - length m)%nat with 0%nat by lia. cbn [skipn]. f_equal.
        rewrite firstn_app. rewrite (firstn_all2 (skipn w1 m)) by (rewrite skipn_length; lia). rewrite skipn_length. replace (Z.to_nat (top a - ex a) - w1 - (length m - w1))%nat with 0%nat by lia. cbn [firstn]. apply app_nil_r.
      + rewrite app_nil_r. apply firstn_all2. rewrite skipn_length. unfold size_of in *. lia.
    - rewrite <- (word_code (reg a) (size_of a)) at 1 by reflexivity. rewrite skipn_word by lia. unfold X1. f_equal. unfold n, w1. destruct (sg a); cbn [Z.b2z] in *; lia. }
  assert (L2 : slice w2 w2' (word (size_of b + k) (mant b)) ++ (if sg a then [s] else []) = word (S n) X2).
  { rewrite slice_word by lia. fold X2. destruct (sg a) eqn:SA; cbn [Z.b2z] in *.
    - replace n with (w2' - w2)%nat by lia. rewrite word_S. f_equal. f_equal. rewrite S2. unfold X2. rewrite Z.shiftr_spec by lia. f_equal. lia.
    - rewrite app_nil_r. f_equal. lia. }
  rewrite L1, L2. rewrite (skip_nil (word (S n) X1)) by apply word_nonempty.
  rewrite !word_removelast, !word_last. rewrite thap_list by (rewrite !word_length; lia). rewrite !word_length.
  set (AUG := firstn w2 (word (size_of b + k) (mant b)) ++ (if sg a then word n X2 else word n X2 ++ [Z.testbit X2 (Z.of_nat n)]) ++ skipn w2' (word (size_of b + k) (mant b))).
  assert (EA : AUG = reg b ++ repeat s k).
  { unfold AUG. transitivity (word (size_of b + k) (mant b)); [|symmetry; apply aug_word, Wb].
    replace (if sg a then word n X2 else word n X2 ++ [Z.testbit X2 (Z.of_nat n)]) with (slice w2 w2' (word (size_of b + k) (mant b))).
    - unfold slice. transitivity (firstn w2 (word (size_of b + k) (mant b)) ++ skipn w2 (word (size_of b + k) (mant b))); [|apply firstn_skipn]. f_equal.
      rewrite <- (firstn_skipn (w2' - w2) (skipn w2 (word (size_of b + k) (mant b)))) at 2. f_equal. rewrite <- (firstn_skipn w2 (word (size_of b + k) (mant b))) at 1.
      rewrite skipn_app, firstn_length, word_length. replace (Nat.min w2 (size_of b + k)) with w2 by lia. rewrite skipn_all2 by (rewrite firstn_length, word_length; lia). reflexivity.
    - rewrite slice_word by lia. fold X2. destruct (sg a) eqn:SA; cbn [Z.b2z] in *; [|rewrite <- word_S]; f_equal; lia. }
  clearbody AUG. subst AUG. rewrite firstn_exact, skipn_exact by reflexivity.
  assert (EB : set_reg b (reg b) = b) by (destruct b; reflexivity). rewrite EB. fold s. rewrite map_xor_self.
  eexists. split.
  - f_equal. f_equal. f_equal. f_equal. unfold set_reg. f_equal.
    assert (CT : (if sg a then s else Z.testbit X2 (Z.of_nat n)) = Z.testbit X2 (Z.of_nat n)).
    { destruct (sg a) eqn:SA; cbn [Z.b2z] in *; [|reflexivity]. rewrite S2. unfold X2. rewrite Z.shiftr_spec by lia. f_equal. lia. }
    rewrite CT. pose proof (window (word n X2) (word n X1) (Z.testbit X2 (Z.of_nat n)) (Z.testbit X1 (Z.of_nat n)) ltac:(rewrite !word_length; reflexivity)) as Wd. rewrite !word_length in Wd. rewrite Wd. rewrite <- !word_S, word_code_add.
    rewrite <- (word_code (reg a) (size_of a)) at 1 by reflexivity. rewrite firstn_word by lia. rewrite Z.add_comm. unfold X1. rewrite word_app. f_equal; [destruct (sg a); cbn [Z.b2z] in *; lia|]. f_equal.
    unfold X2, w1, w2, lo. destruct (Z.max_spec (ex a) (ex b)) as [[L ->]|[L ->]].
    + replace (Z.to_nat (ex b - ex b)) with 0%nat by lia. change (Z.of_nat 0) with 0. rewrite Z.shiftr_0_r, Z.shiftl_mul_pow2 by lia. rewrite Z2Nat.id by lia. ring.
    + replace (Z.to_nat (ex a - ex a)) with 0%nat by lia. change (2 ^ Z.of_nat 0) with 1. rewrite Z2Nat.id by lia. rewrite Z.mul_1_l. unfold Z.shiftr. f_equal. lia.
  - apply Forall_app. split; [apply clean_zeros|]. destruct (sg a && negb (sg b)); constructor; [reflexivity|constructor].
Qed.

(** ** division *)
Lemma mant_set_ex b e : mant (set_ex b e) = mant b. Proof. reflexivity. Qed.
Lemma wf_set_ex b e : wf b -> wf (set_ex b e). Proof. intros W. exact W. Qed.
Lemma sign_mant b : wf b -> sg b && sign_of b = (mant b <? 0).
Proof.
  intros W. destruct (sg b) eqn:S; cbn [andb].
  - destruct (wf_split b W S) as (m & s & E). rewrite (mant_signed b m s S E). unfold sign_of. rewrite E, last_last. unfold amount. pose proof (code_range m). destruct s; symmetry; [apply Z.ltb_lt|apply Z.ltb_ge]; lia.
  - rewrite mant_unsigned by exact S. symmetry. apply Z.ltb_ge. apply code_range.
Qed.
Lemma mant_range b : wf b -> - 2 ^ Z.of_nat (msize (form b)) <= mant b <= 2 ^ Z.of_nat (msize (form b)).
Proof.
  intros W. pose proof (mantissa_range (form b) (code (reg b)) (form_basis b W)) as R. unfold in_range in R. fold (mant b) in R. pose proof (p2pos (Z.of_nat (msize (form b))) ltac:(lia)). destruct (signed (form b)); lia.
Qed.
Lemma mant_range_top b : wf b -> mant b < 2 ^ Z.of_nat (msize (form b)).
Proof. intros W. pose proof (mantissa_range (form b) (code (reg b)) (form_basis b W)) as R. unfold in_range in R. fold (mant b) in R. lia. Qed.

Lemma init_ok L re num : wf num -> (1 <= msize (form num))%nat -> re <= ex num -> top num + 1 <= re + Z.of_nat L ->
  init_from (mkqf (repeat false L) re true) num = Some (mkqf (word L (mant num * 2 ^ (ex num - re))) re true).
Proof.
  intros W M E T. pose proof (top_eq num) as Tn. pose proof (msize_eq num W) as Mn. unfold init_from, set_reg. cbv zeta. rewrite (repeat_length false L : size_of (mkqf (repeat false L) re true) = L). cbn [reg ex sg].
  assert (LM : (size_of num - (if sg num then 1 else 0))%nat = msize (form num)) by (unfold form, size_of; reflexivity). rewrite LM.
  replace ((L =? 0)%nat || (size_of num =? 0)%nat) with false by (symmetry; apply orb_false_iff; split; apply Nat.eqb_neq; destruct (sg num); cbn [Z.b2z] in *; lia).
  replace (re + Z.of_nat L - 1 <? ex num + Z.of_nat (size_of num) - 1) with false by (symmetry; apply Z.ltb_ge; destruct (sg num); cbn [Z.b2z] in *; lia).
  replace (ex num <? re) with false by (symmetry; apply Z.ltb_ge; lia). rewrite andb_false_r.
  replace (msize (form num) =? 0)%nat with false by (symmetry; apply Nat.eqb_neq; lia). f_equal. f_equal.
  assert (B : forall i, Z.testbit (mant num * 2 ^ (ex num - re)) (Z.of_nat i) = let j := re + Z.of_nat i - ex num in
     if (0 <=? j) && (j <? Z.of_nat (msize (form num))) then bit (reg num) (Z.to_nat j) else if (Z.of_nat (msize (form num)) - 1 <? j) && sg num then sign_of num else false).
  { intros i. cbv zeta. set (j := re + Z.of_nat i - ex num). rewrite Z.mul_pow2_bits by lia. replace (Z.of_nat i - (ex num - re)) with j by lia.
    destruct (Z.leb_spec 0 j) as [J|J]; cbn [andb].
    - replace j with (Z.of_nat (Z.to_nat j)) at 1 by lia. rewrite mant_bits by exact W.
      destruct (Z.ltb_spec j (Z.of_nat (msize (form num)))) as [J'|J'].
      + replace (Z.to_nat j <? size_of num)%nat with true by (symmetry; apply Nat.ltb_lt; destruct (sg num); cbn [Z.b2z] in *; lia). reflexivity.
      + replace (Z.of_nat (msize (form num)) - 1 <? j) with true by (symmetry; apply Z.ltb_lt; lia). cbn [andb].
        destruct (Nat.ltb_spec (Z.to_nat j) (size_of num)) as [J2|J2]; [|destruct (sg num); reflexivity].
        destruct (sg num) eqn:SN; cbn [Z.b2z] in *; [|lia]. destruct (wf_split num W SN) as (m & u & Em). unfold sign_of, size_of in *. rewrite Em in *. rewrite app_length in *. cbn [length] in *. rewrite last_last. apply bit_exact. lia.
    - rewrite Z.testbit_neg_r by lia. replace (Z.of_nat (msize (form num)) - 1 <? j) with false by (symmetry; apply Z.ltb_ge; lia). reflexivity. }
  assert (BR : forall i, bit (repeat false L) i = false) by (intros i; unfold bit; apply nth_repeat).
  assert (MAP : forall k, map (fun i => if (0 <=? re + Z.of_nat i - ex num) && (re + Z.of_nat i - ex num <? Z.of_nat (msize (form num))) then xorb (bit (reg num) (Z.to_nat (re + Z.of_nat i - ex num))) (bit (repeat false L) i)
       else if (Z.of_nat (msize (form num)) - 1 <? re + Z.of_nat i - ex num) && sg num then xorb (sign_of num) (bit (repeat false L) i) else bit (repeat false L) i) (seq 0 k) = word k (mant num * 2 ^ (ex num - re))).
  { intros k. unfold word. apply map_ext. intros i. rewrite BR, B. cbv zeta. rewrite !xorb_false_r. reflexivity. }
  rewrite MAP. destruct (sg num) eqn:SN.
  - destruct L as [|L]; [lia|]. replace (S L - 1)%nat with L by lia. rewrite word_S. f_equal. f_equal. unfold sign_of at 2. cbn [reg]. replace (last (repeat false (S L)) false) with false.
    2:{ cbn [repeat]. rewrite <- repeat_snoc, last_last. reflexivity. }
    rewrite xorb_false_r. rewrite B. cbv zeta. cbn [Z.b2z] in *.
    replace ((0 <=? re + Z.of_nat L - ex num) && (re + Z.of_nat L - ex num <? Z.of_nat (msize (form num)))) with false by (symmetry; apply andb_false_iff; right; apply Z.ltb_ge; lia).
    replace (Z.of_nat (msize (form num)) - 1 <? re + Z.of_nat L - ex num) with true by (symmetry; apply Z.ltb_lt; lia). reflexivity.
  - rewrite app_nil_r, Nat.sub_0_r. reflexivity.
Qed.

Lemma word_add_code n x y : word n (code (word n x) + y) = word n (x + y).
Proof. apply word_eq. rewrite code_word. rewrite Z.add_mod_idemp_l; [reflexivity|]. pose proof (p2pos (Z.of_nat n)). lia. Qed.
Lemma add_words L e d z : wf d -> (1 <= msize (form d))%nat -> e <= ex d -> top d + 2 <= e + Z.of_nat L ->
  exists g, inpl_add true true (mkqf (word L z) e true) d = Some (mkqf (word L (z + mant d * 2 ^ (ex d - e))) e true, d, g) /\ Forall (fun q => q = false) g.
Proof.
  intros W M E T. pose proof (top_eq d) as Td. destruct L as [|L]; [lia|].
  assert (T1 : top (mkqf (word (S L) z) e true) = e + Z.of_nat L) by (rewrite top_eq; cbn [ex form msize reg sg]; rewrite word_length; f_equal; lia).
  destruct (inpl_add_ok true true (mkqf (word (S L) z) e true) d) as (g & G & C).
  - intros _. cbn. discriminate.
  - exact W.
  - discriminate.
  - rewrite T1. lia.
  - reflexivity.
  - cbn [ex]. lia.
  - rewrite T1. cbn [ex sg Z.b2z]. lia.
  - exists g. split; [|exact C]. rewrite G. unfold set_reg, size_of. cbn [ex sg reg]. rewrite word_length, word_add_code, Z.shiftl_mul_pow2 by lia. reflexivity.
Qed.
Lemma flip_app c x y : flip_by c (x ++ y) = flip_by c x ++ flip_by c y. Proof. apply map_app. Qed.

Lemma step_ok first d e qr L z : wf d -> (1 <= msize (form d))%nat -> e <= ex d - 1 -> top d + 1 <= e + Z.of_nat L -> - 2 ^ Z.of_nat L <= z < 2 ^ Z.of_nat L ->
  (first = true -> hd false qr = false) ->
  let p := if first then false else hd false qr in
  let q := negb (xorb (z <? 0) (mant d <? 0)) in
  let A := mant d * 2 ^ (ex d - 1 - e) in
  exists g, div_step first d (mkqf (flip_by p (word (S L) z)) e true) qr =
    Some (set_ex d (ex d - 1), mkqf (flip_by q (word L (if q then z - A else z + A))) e true, q :: (if first then tl qr else qr), g) /\ Forall (fun q => q = false) g.
Proof.
  intros W M E T Z F p q A. unfold div_step. cbn [reg]. rewrite skip_nil by discriminate.
  assert (S1 : sign_of (mkqf (flip_by p (word (S L) z)) e true) = xorb p (z <? 0)).
  { unfold sign_of. cbn [reg]. rewrite word_S, flip_app. cbn [flip_by map]. rewrite last_last, sign_bit by exact Z. reflexivity. }
  cbv zeta. rewrite S1. unfold set_reg. cbn [reg ex sg].
  assert (R1 : removelast (flip_by p (word (S L) z)) = flip_by p (word L z)) by (rewrite word_S, flip_app; apply removelast_last). rewrite R1.
  set (q0 := if sg d then xorb (sign_of d) (negb (xorb p (z <? 0))) else negb (xorb p (z <? 0))).
  assert (Q0 : q0 = xorb q p).
  { unfold q0, q. pose proof (sign_mant d W) as SM. rewrite <- SM. destruct (sg d); cbn [andb]; [destruct (sign_of d)|]; destruct p, (z <? 0); reflexivity. }
  clearbody q0. subst q0. rewrite flip_flip_by. replace (xorb (xorb q p) p) with q by (destruct q, p; reflexivity). rewrite flip_word.
  destruct (add_words L e (set_ex d (ex d - 1)) (if q then - z - 1 else z)) as (g & G & C).
  - exact W.
  - exact M.
  - cbn [ex set_ex]. lia.
  - rewrite top_eq in *. cbn [ex set_ex]. change (form (set_ex d (ex d - 1))) with (mk (msize (form d)) (ex d - 1) (sg d)). cbn [msize]. lia.
  - rewrite G. cbn [ex set_ex]. rewrite mant_set_ex. fold A. exists ((if first then [hd false qr] else []) ++ g). split.
    + f_equal. f_equal. f_equal; [f_equal|].
      * f_equal. rewrite flip_word. f_equal. destruct q; lia.
      * unfold p in *. destruct first; [rewrite xorb_false_r; reflexivity|]. f_equal. destruct q, (hd false qr); reflexivity.
    + apply Forall_app. split; [|exact C]. destruct first; constructor; [apply F; reflexivity|constructor].
Qed.

Lemma set_ex_twice d x y : set_ex (set_ex d x) y = set_ex d y. Proof. reflexivity. Qed.
Lemma msize_set_ex d x : msize (form (set_ex d x)) = msize (form d). Proof. reflexivity. Qed.
Lemma next_bound D (k : Z) z : 0 <= k -> D <> 0 -> - (Z.abs D * 2 ^ (k + 1)) <= z < Z.abs D * 2 ^ (k + 1) -> let q := negb (xorb (z <? 0) (D <? 0)) in
  let z' := if q then z - D * 2 ^ k else z + D * 2 ^ k in - (Z.abs D * 2 ^ k) <= z' < Z.abs D * 2 ^ k.
Proof.
  intros K N B q z'. rewrite two_step in B by exact K. unfold z', q. assert (X : D * 2 ^ k = if D <? 0 then - (Z.abs D * 2 ^ k) else Z.abs D * 2 ^ k) by (destruct (Z.ltb_spec D 0); [rewrite Z.abs_neq by lia|rewrite Z.abs_eq by lia]; ring).
  rewrite X. set (Y := Z.abs D * 2 ^ k) in *. replace (Z.abs D * (2 * 2 ^ k)) with (2 * Y) in B by (unfold Y; ring). clearbody Y. destruct (Z.ltb_spec D 0), (Z.ltb_spec z 0); cbn [xorb negb]; lia.
Qed.
Lemma loop_ok d e K D : wf d -> (1 <= msize (form d))%nat -> e <= ex d - 1 -> (3 <= K)%nat -> top d + 1 <= e + Z.of_nat K -> D = mant d * 2 ^ (ex d - 1 - e) -> D <> 0 -> Z.abs D <= 2 ^ (Z.of_nat K - 2) ->
  forall k qr z, - (Z.abs D * 2 ^ Z.of_nat k) <= z < Z.abs D * 2 ^ Z.of_nat k ->
  exists bits R g, div_loop k false (set_ex d (ex d + Z.of_nat k - 1)) (mkqf (flip_by (hd false qr) (word (K + k) z)) e true) qr =
      Some (set_ex d (ex d - 1), mkqf (flip_by (hd false (bits ++ qr)) (word K R)) e true, bits ++ qr, g) /\ Forall (fun q => q = false) g /\
    length bits = k /\ z = D * (2 * code bits - 2 ^ Z.of_nat k + 1) + R /\ - Z.abs D <= R < Z.abs D.
Proof.
  intros W M E K3 T DE D0 DK. induction k as [|k IH]; intros qr z B.
  - exists [], z, []. cbn [div_loop app length code]. rewrite Nat.add_0_r. replace (ex d + Z.of_nat 0 - 1) with (ex d - 1) by lia. change (2 ^ Z.of_nat 0) with 1 in *. repeat split; try constructor; lia.
  - cbn [div_loop]. replace (K + S k)%nat with (S (K + k)) by lia.
    destruct (step_ok false (set_ex d (ex d + Z.of_nat (S k) - 1)) e qr (K + k) z) as (g1 & G1 & C1).
    + exact W.
    + exact M.
    + cbn [ex set_ex]. lia.
    + rewrite top_eq in *. rewrite msize_set_ex. cbn [ex set_ex]. lia.
    + replace (Z.of_nat (S k)) with (Z.of_nat k + 1) in B by lia. assert (P : Z.abs D * 2 ^ (Z.of_nat k + 1) <= 2 ^ (Z.of_nat K - 2) * 2 ^ (Z.of_nat k + 1)) by (apply Z.mul_le_mono_nonneg_r; [apply Z.pow_nonneg; lia|exact DK]).
      rewrite <- Z.pow_add_r in P by lia. assert (P2 : 2 ^ (Z.of_nat K - 2 + (Z.of_nat k + 1)) <= 2 ^ Z.of_nat (K + k)) by (apply Z.pow_le_mono_r; lia). lia.
    + discriminate.
    + cbv iota zeta in G1. rewrite G1. cbn [ex set_ex]. rewrite !mant_set_ex, !set_ex_twice in *. change (mkqf (reg d) (ex d + Z.of_nat (S k) - 1 - 1) (sg d)) with (set_ex d (ex d + Z.of_nat (S k) - 1 - 1)) in *.
      replace (ex d + Z.of_nat (S k) - 1 - 1) with (ex d + Z.of_nat k - 1) in * by lia.
      assert (A : mant d * 2 ^ (ex d + Z.of_nat k - 1 - e) = D * 2 ^ Z.of_nat k) by (rewrite DE, <- Z.mul_assoc, <- Z.pow_add_r by lia; f_equal; f_equal; lia). rewrite A.
      assert (SD : (mant d <? 0) = (D <? 0)). { pose proof (p2pos (ex d - 1 - e) ltac:(lia)) as P. rewrite DE. destruct (Z.ltb_spec (mant d) 0), (Z.ltb_spec (mant d * 2 ^ (ex d - 1 - e)) 0); try reflexivity; nia. }
      rewrite SD. set (q := negb (xorb (z <? 0) (D <? 0))). replace (Z.of_nat (S k)) with (Z.of_nat k + 1) in B by lia.
      pose proof (next_bound D (Z.of_nat k) z ltac:(lia) D0 B) as NB. cbv zeta in NB. fold q in NB. set (z' := if q then z - D * 2 ^ Z.of_nat k else z + D * 2 ^ Z.of_nat k) in *.
      destruct (IH (q :: qr) z' NB) as (bits & R & g2 & G2 & C2 & LB & Z2 & RB). cbn [hd] in G2. rewrite G2. exists (bits ++ [q]), R, (g1 ++ g2). split; [|split; [|split; [|split]]].
      * rewrite <- app_assoc. reflexivity.
      * apply Forall_app. split; assumption.
      * rewrite app_length. cbn. lia.
      * rewrite code_app, LB. cbn [code]. replace (Z.of_nat (S k)) with (Z.of_nat k + 1) by lia. rewrite two_step by lia. unfold z' in Z2. clearbody q. destruct q; cbn [Z.b2z]; [assert (z = D * (2 * code bits - 2 ^ Z.of_nat k + 1) + R + D * 2 ^ Z.of_nat k) by lia|assert (z = D * (2 * code bits - 2 ^ Z.of_nat k + 1) + R - D * 2 ^ Z.of_nat k) by lia]; rewrite H; ring.
      * exact RB.
Qed.
