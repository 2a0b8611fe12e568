(** Proofs for the comparisons of QuantumFloats. *)
From Coq Require Import List ZArith QArith Bool Lia Lqa.
Import ListNotations.
From Verif.QFloat Require Import QFModel QFSpec QFProofs SbpProofs.
From Verif.Order Require Import OrderModel OrderSpec.
Local Open Scope Z_scope.

(** ** words *)
Lemma code_range l : 0 <= code l < 2 ^ Z.of_nat (length l).
Proof.
  induction l as [|b l IH]; [cbn; lia|]. cbn [code length]. rewrite Nat2Z.inj_succ, Z.pow_succ_r by lia. destruct b; cbn [Z.b2z]; lia.
Qed.
Lemma code_app x y : code (x ++ y) = code x + 2 ^ Z.of_nat (length x) * code y.
Proof.
  induction x as [|b x IH]; [cbn [app code length]; change (2 ^ Z.of_nat 0) with 1; lia|]. cbn [app code length]. rewrite IH, Nat2Z.inj_succ, Z.pow_succ_r by lia. ring.
Qed.
Lemma code_bit l i : Z.testbit (code l) (Z.of_nat i) = bit l i.
Proof.
  revert i. induction l as [|b l IH]; intros i; [cbn [code]; rewrite Z.testbit_0_l; destruct i; reflexivity|].
  cbn [code]. destruct i as [|i]; [cbn [bit nth]; rewrite Z.add_comm; change (Z.of_nat 0) with 0; rewrite Z.testbit_0_r; reflexivity|].
  rewrite Nat2Z.inj_succ, Z.add_comm, Z.testbit_succ_r by lia. apply IH.
Qed.
Lemma word_length n c : length (word n c) = n.
Proof. unfold word. rewrite map_length, seq_length. reflexivity. Qed.
Lemma bit_word n c i : (i < n)%nat -> bit (word n c) i = Z.testbit c (Z.of_nat i).
Proof.
  intros H. unfold bit, word. rewrite (nth_indep _ false (Z.testbit c (Z.of_nat 0))) by (rewrite map_length, seq_length; exact H).
  rewrite (map_nth (fun i => Z.testbit c (Z.of_nat i))). rewrite seq_nth by exact H. reflexivity.
Qed.
Lemma word_code l n : length l = n -> word n (code l) = l.
Proof.
  intros <-. apply (nth_ext _ _ false false); [apply word_length|]. rewrite word_length. intros i H. change (bit (word (length l) (code l)) i = bit l i).
  rewrite bit_word by exact H. apply code_bit.
Qed.
Lemma code_word n c : code (word n c) = c mod 2 ^ Z.of_nat n.
Proof.
  apply Z.bits_inj'. intros i Hi. rewrite Z.testbit_mod_pow2 by lia. replace i with (Z.of_nat (Z.to_nat i)) by lia. set (j := Z.to_nat i). rewrite code_bit.
  destruct (lt_dec j n) as [L|L]; [rewrite bit_word by exact L; replace (Z.of_nat j <? Z.of_nat n) with true by (symmetry; apply Z.ltb_lt; lia); reflexivity|].
  unfold bit. rewrite nth_overflow by (rewrite word_length; lia). replace (Z.of_nat j <? Z.of_nat n) with false by (symmetry; apply Z.ltb_ge; lia). reflexivity.
Qed.
Lemma firstn_word n k c : (k <= n)%nat -> firstn k (word n c) = word k c.
Proof.
  intros H. unfold word. rewrite firstn_map. f_equal. revert n H. generalize 0%nat. induction k as [|k IH]; intros s [|n] H; try reflexivity; [lia|]. cbn. f_equal. apply IH. lia.
Qed.
Lemma word_mod n c : word n (c mod 2 ^ Z.of_nat n) = word n c.
Proof. rewrite <- code_word. apply word_code, word_length. Qed.
Lemma code_repeat s u : code (repeat s u ++ [s]) = if s then 2 ^ (Z.of_nat u + 1) - 1 else 0.
Proof.
  induction u as [|u IH]; [destruct s; reflexivity|]. cbn [repeat app code]. rewrite IH. rewrite Nat2Z.inj_succ. replace (Z.succ (Z.of_nat u) + 1) with (Z.succ (Z.of_nat u + 1)) by lia. rewrite Z.pow_succ_r by lia.
  destruct s; cbn [Z.b2z]; lia.
Qed.
Lemma code_zeros l : code (repeat false l) = 0.
Proof. induction l as [|l IH]; [reflexivity|]. cbn [repeat code]. rewrite IH. reflexivity. Qed.

(** ** adding and subtracting in place *)
Lemma encode_mod (neg : bool) f g c cg : basis f c -> basis g cg -> expo f <= expo g ->
  encode_monomials f (let p := poly_of g (size f) cg in if neg then map (fun '(k, bs) => ((- k)%Q, bs)) p else p) c =
  (c + (if neg then -1 else 1) * (mantissa g cg * 2 ^ (expo g - expo f))) mod 2 ^ Z.of_nat (size f).
Proof.
  intros B Bg E. destruct (poly_value g (size f) cg Bg) as (t & T). set (m' := match size f with 0%nat => size g | _ => size f end) in T.
  assert (PS : exists q, 2 ^ (Z.of_nat m' + 1) = q * 2 ^ Z.of_nat (size f)).
  { apply pow_split. unfold m'. destruct (size f); lia. }
  destruct PS as [q Q]. set (s := if neg then -1 else 1).
  assert (P : (pw (expo g) == inject_Z (2 ^ (expo g - expo f)) * pw (expo f))%Q).
  { rewrite <- pw_Z by lia. rewrite <- pw_add. replace (expo g - expo f + expo f) with (expo g) by lia. reflexivity. }
  set (ms := let p := poly_of g (size f) cg in if neg then map (fun '(k, bs) => ((- k)%Q, bs)) p else p).
  assert (F : Forall (integral (expo f)) ms).
  { pose proof (poly_integral g (size f) cg (expo f) E) as F. unfold ms. destruct neg; [apply integral_neg|]; exact F. }
  assert (S : (SbpProofs.qsum ms == inject_Z (s * (mantissa g cg * 2 ^ (expo g - expo f)) + s * t * q * 2 ^ (expo g - expo f) * 2 ^ Z.of_nat (size f)) * pw (expo f))%Q).
  { assert (X : (SbpProofs.qsum (poly_of g (size f) cg) == inject_Z (mantissa g cg * 2 ^ (expo g - expo f) + t * q * 2 ^ (expo g - expo f) * 2 ^ Z.of_nat (size f)) * pw (expo f))%Q).
    { rewrite T, Q, P. rewrite !inject_Z_plus, !inject_Z_mult. ring. }
    unfold ms, s. destruct neg; cbv zeta; [rewrite SbpProofs.qsum_neg|]; rewrite X; rewrite !inject_Z_plus, !inject_Z_mult; cbn [inject_Z]; ring. }
  destruct (encode_ok f ms F) as (u & U & EN). rewrite EN by exact B.
  assert (W : u = s * (mantissa g cg * 2 ^ (expo g - expo f)) + s * t * q * 2 ^ (expo g - expo f) * 2 ^ Z.of_nat (size f)) by (apply (mul_pw_inj _ _ (expo f)); rewrite <- U; exact S).
  subst u. rewrite Z.add_assoc. apply Z.mod_add. pose proof (p2pos (Z.of_nat (size f)) ltac:(lia)). lia.
Qed.

(** signed registers have a sign qubit *)
Definition wf (a : qf) : Prop := sg a = true -> reg a <> [].
Lemma form_size a : wf a -> size (form a) = size_of a.
Proof. intros W. unfold size, form, size_of, wf in *. cbn. destruct (sg a); [|lia]. specialize (W eq_refl). destruct (reg a); [congruence|cbn; lia]. Qed.
Lemma form_basis a : wf a -> basis (form a) (code (reg a)).
Proof. intros W. unfold basis. rewrite form_size by exact W. apply code_range. Qed.
(** the other operand stands for B * 2^e *)
Definition stands (o : other) (e B : Z) : Prop :=
  match o with
  | Reg b => wf b /\ e <= ex b /\ B = mantissa (form b) (code (reg b)) * 2 ^ (ex b - e)
  | Num x => (x == inject_Z B * pw e)%Q
  end.
Lemma inplace_ok (neg : bool) a o B : wf a -> sg a = true -> stands o (ex a) B ->
  inplace neg a o = Some (set_reg a (word (size_of a) (code (reg a) + (if neg then -1 else 1) * B))).
Proof.
  intros W S H. unfold inplace. change (signed (form a)) with (sg a). rewrite S. cbn [negb andb].
  pose proof (form_size a W) as Z. pose proof (form_basis a W) as Bs. destruct o as [b|x]; cbn [stands] in H.
  - destruct H as (Wb & E & ->). pose proof (encode_mod neg (form a) (form b) _ _ Bs (form_basis b Wb) E) as M. cbv zeta in M. rewrite M, Z. rewrite word_mod. reflexivity.
  - assert (D : (x / pw (ex a) == inject_Z B)%Q) by (apply div_pw, H).
    replace (Qeq_bool _ _) with true by (symmetry; apply Qeq_bool_iff; rewrite (qtrunc_eq _ _ D), qtrunc_Z, D; reflexivity).
    destruct (encode_ok (form a) [((if neg then - x else x)%Q, [])]) as (t & T & EN).
    { constructor; [|constructor]. exists ((if neg then -1 else 1) * B). cbn [fst]. change (expo (form a)) with (ex a). rewrite inject_Z_mult. destruct neg; rewrite H; cbn [inject_Z]; ring. }
    rewrite EN by exact Bs. rewrite Z, word_mod.
    assert (X : t = (if neg then -1 else 1) * B); [|rewrite X; reflexivity].
    apply (mul_pw_inj _ _ (ex a)). change (ex a) with (expo (form a)). rewrite <- T. cbn [SbpProofs.qsum allb forallb]. change (expo (form a)) with (ex a). rewrite inject_Z_mult. destruct neg; rewrite H; cbn [inject_Z]; ring.
Qed.

(** ** lists *)
Lemma firstn_exact {A} n (x y : list A) : length x = n -> firstn n (x ++ y) = x.
Proof. intros <-. rewrite firstn_app, Nat.sub_diag, firstn_all. cbn. apply app_nil_r. Qed.
Lemma skipn_exact {A} n (x y : list A) : length x = n -> skipn n (x ++ y) = y.
Proof. intros <-. rewrite skipn_app, Nat.sub_diag, skipn_all. reflexivity. Qed.
Lemma bit_exact n x b y : length x = n -> bit (x ++ b :: y) n = b.
Proof. intros <-. unfold bit. rewrite app_nth2, Nat.sub_diag by lia. reflexivity. Qed.
Lemma extend_at x y e s i : i = length x -> extend (mkqf (x ++ y) e s) i = mkqf (x ++ false :: y) e s.
Proof. intros ->. unfold extend, set_reg. cbn. rewrite firstn_exact, skipn_exact by reflexivity. reflexivity. Qed.
Lemma reduce_at x b y e s i : i = length x -> reduce (mkqf (x ++ b :: y) e s) i = (mkqf (x ++ y) e s, b).
Proof.
  intros ->. unfold reduce, set_reg. cbn [reg ex sg]. rewrite firstn_exact, bit_exact by reflexivity. f_equal. f_equal. f_equal.
  change (b :: y) with ([b] ++ y). rewrite app_assoc. apply skipn_exact. rewrite app_length. cbn. lia.
Qed.
Lemma cx_top_at x b s e g : cx_top (mkqf (x ++ [b; s]) e g) = mkqf (x ++ [xorb b s; s]) e g.
Proof.
  unfold cx_top, set_reg, size_of. cbn [reg ex sg]. rewrite app_length. cbn [length]. replace (length x + 2 - 2)%nat with (length x) by lia. replace (length x + 2 - 1)%nat with (length x + 1)%nat by lia.
  rewrite firstn_exact, bit_exact by reflexivity. change [b; s] with ([b] ++ [s]). rewrite !app_assoc. rewrite bit_exact, skipn_exact by (rewrite app_length; cbn; lia). reflexivity.
Qed.
Lemma repeat_snoc {A} (s : A) k : repeat s k ++ [s] = s :: repeat s k.
Proof. induction k as [|k IH]; [reflexivity|]. cbn. rewrite IH. reflexivity. Qed.
Lemma repeat_one {A} (s : A) k j : repeat s k ++ repeat s j = repeat s (k + j).
Proof. symmetry. apply repeat_app. Qed.

(** ** extending and shrinking *)
Definition top_of (o : other) (t : Z) : Z := match o with Reg b => top b + 1 | Num _ => t end.
Lemma upper_ok fuel added o x s e : (added = true -> s = false) -> forall k count, top_of o 0 - (e + Z.of_nat (length x + k)) <= Z.of_nat fuel -> (1 <= fuel)%nat ->
  exists j, (1 <= j)%nat /\ upper fuel added o (mkqf (x ++ repeat s k ++ [s]) e true) count = Some (mkqf (x ++ repeat s (k + j) ++ [s]) e true, (count + j)%nat) /\
    top_of o (e + Z.of_nat (length x + k + j)) <= e + Z.of_nat (length x + k + j).
Proof.
  intros AS. induction fuel as [|fuel IH]; intros k count F F1; [lia|]. cbn [upper].
  set (a := extend _ _). assert (Ea : a = mkqf (x ++ repeat s k ++ [false; s]) e true).
  { unfold a, size_of. cbn [reg]. rewrite !app_assoc. rewrite extend_at by (rewrite !app_length; cbn; lia). reflexivity. }
  set (a' := if added then a else cx_top a). assert (Ea' : a' = mkqf (x ++ repeat s (S k) ++ [s]) e true).
  { unfold a'. rewrite Ea. replace (x ++ repeat s (S k) ++ [s]) with ((x ++ repeat s k) ++ [s; s]) by (rewrite <- app_assoc; f_equal; cbn [repeat]; rewrite <- repeat_snoc, <- app_assoc; reflexivity).
    rewrite app_assoc. destruct added; [rewrite (AS eq_refl); reflexivity|]. rewrite cx_top_at. destruct s; reflexivity. }
  assert (T : top a' = e + Z.of_nat (length x + k + 1)).
  { rewrite Ea'. unfold top, form. cbn [reg ex sg msize]. rewrite !app_length, repeat_length. cbn [length]. f_equal. lia. }
  clearbody a'. destruct o as [b|q].
  - destruct (Z.ltb_spec (top a') (top b + 1)) as [L|L].
    + rewrite Ea'. destruct (IH (S k) (S count)) as (j & J & U & TT).
      * cbn [top_of] in *. lia.
      * cbn [top_of] in *. lia.
      * exists (S j). split; [lia|]. rewrite U. cbn [top_of] in *. split; [f_equal; f_equal; [|lia]; f_equal; f_equal; f_equal; f_equal; lia|lia].
    + exists 1%nat. split; [lia|]. rewrite Ea'. cbn [top_of]. split; [f_equal; f_equal; [|lia]; f_equal; f_equal; f_equal; f_equal; lia|lia].
  - exists 1%nat. split; [lia|]. rewrite Ea'. cbn [top_of]. split; [f_equal; f_equal; [|lia]; f_equal; f_equal; f_equal; f_equal; lia|lia].
Qed.
Lemma lower_ok b s : forall fuel x e count, e - ex b < Z.of_nat fuel -> (1 <= fuel)%nat ->
  lower fuel b (mkqf x e s) count = Some (let l := Z.to_nat (e - ex b) in (mkqf (repeat false l ++ x) (e - Z.of_nat l) s, (count + l)%nat)).
Proof.
  induction fuel as [|fuel IH]; intros x e count F F1; [lia|].
  cbn [lower ex]. destruct (Z.ltb_spec (ex b) e) as [L|L].
  - unfold extend, set_reg, set_ex. cbn [reg ex sg firstn skipn app]. rewrite IH by lia. cbv zeta. f_equal.
    replace (Z.to_nat (e - ex b)) with (S (Z.to_nat (e - 1 - ex b))) by lia. set (l := Z.to_nat (e - 1 - ex b)). f_equal; [|lia]. f_equal; [|lia].
    cbn [repeat app]. change (false :: x) with ([false] ++ x). rewrite app_assoc. rewrite repeat_snoc. reflexivity.
  - cbv zeta. replace (Z.to_nat (e - ex b)) with 0%nat by lia. cbn [repeat app]. f_equal. f_equal; [f_equal|]; lia.
Qed.
Definition clean (l : list bool) : Prop := Forall (fun q => q = false) l.
Lemma clean_cons l : clean l -> clean (false :: l).
Proof. intros H. constructor; [reflexivity|exact H]. Qed.
Lemma unupper_added u : forall x e g gone, clean gone -> exists gone', unupper u true (mkqf (x ++ repeat false u) e g) gone = (mkqf x e g, gone') /\ clean gone'.
Proof.
  induction u as [|u IH]; intros x e g gone C; [exists gone; cbn; rewrite app_nil_r; auto|].
  cbn [unupper]. cbn [repeat]. rewrite <- repeat_snoc. rewrite app_assoc. rewrite reduce_at by (unfold size_of; cbn [reg]; rewrite !app_length; cbn; lia).
  rewrite app_nil_r. apply IH, clean_cons, C.
Qed.
Lemma unupper_signed s u : forall x e g gone, clean gone -> exists gone', unupper u false (mkqf (x ++ repeat s u ++ [s]) e g) gone = (mkqf (x ++ [s]) e g, gone') /\ clean gone'.
Proof.
  induction u as [|u IH]; intros x e g gone C; [exists gone; auto|].
  cbn [unupper]. replace (x ++ repeat s (S u) ++ [s]) with ((x ++ repeat s u) ++ [s; s]) by (rewrite <- app_assoc; f_equal; cbn [repeat]; rewrite <- repeat_snoc, <- app_assoc; reflexivity).
  rewrite cx_top_at. rewrite reduce_at by (unfold size_of; cbn [reg]; rewrite !app_length; cbn; lia).
  rewrite <- app_assoc. rewrite xorb_nilpotent. apply IH, clean_cons, C.
Qed.
Lemma unlower_ok l : forall x e g gone, clean gone -> exists gone', unlower l (mkqf (repeat false l ++ x) e g) gone = (mkqf x (e + Z.of_nat l) g, gone') /\ clean gone'.
Proof.
  induction l as [|l IH]; intros x e g gone C; [exists gone; cbn; rewrite Z.add_0_r; auto|].
  cbn [unlower repeat app]. change (reduce (mkqf (false :: repeat false l ++ x) e g) 0) with (mkqf (repeat false l ++ x) e g, false). unfold set_ex. cbn [reg ex sg].
  destruct (IH x (e + 1) g (false :: gone) (clean_cons _ C)) as (gone' & U & C'). exists gone'. rewrite U. split; [|exact C']. f_equal. f_equal. lia.
Qed.

(** ** the gate *)
(** the number held by a signed register with magnitude bits m and sign bit s *)
Definition amount (m : list bool) (s : bool) : Z := code m - (if s then 2 ^ Z.of_nat (length m) else 0).
Lemma amount_range m s : - 2 ^ Z.of_nat (length m) <= amount m s < 2 ^ Z.of_nat (length m).
Proof. unfold amount. pose proof (code_range m). destruct s; lia. Qed.
Lemma code_wide l m s u : code (repeat false l ++ m ++ repeat s u ++ [s]) = 2 ^ Z.of_nat l * amount m s + (if s then 2 ^ Z.of_nat (l + length m + u + 1) else 0).
Proof.
  rewrite (code_app (repeat false l)), code_zeros, repeat_length, (code_app m), code_repeat. unfold amount.
  replace (Z.of_nat (l + length m + u + 1)) with (Z.of_nat l + (Z.of_nat (length m) + (Z.of_nat u + 1))) by lia. rewrite !Z.pow_add_r by lia. destruct s; ring.
Qed.
Lemma sign_bit d n : - 2 ^ Z.of_nat n <= d < 2 ^ Z.of_nat n -> Z.testbit d (Z.of_nat n) = (d <? 0).
Proof.
  intros H. pose proof (p2pos (Z.of_nat n) ltac:(lia)). destruct (Z.ltb_spec d 0) as [L|L].
  - apply Z.testbit_true; [lia|]. assert (E : d / 2 ^ Z.of_nat n = -1); [|rewrite E; reflexivity]. symmetry. apply (Z.div_unique d _ (-1) (d + 2 ^ Z.of_nat n)); lia.
  - apply Z.testbit_false; [lia|]. rewrite Z.div_small by lia. reflexivity.
Qed.
Lemma gate_core (added : bool) l m s u e o B : (added = true -> s = false) -> (1 <= u)%nat -> stands o e B ->
  - 2 ^ Z.of_nat (l + length m + u) <= 2 ^ Z.of_nat l * amount m s - B < 2 ^ Z.of_nat (l + length m + u) ->
  let x := repeat false l ++ m ++ repeat s u in
  exists a1, inplace true (mkqf (x ++ [s]) e true) o = Some a1 /\
  let '(a2, res) := if added then reduce a1 (size_of a1 - 1) else (a1, bit (reg a1) (size_of a1 - 1)) in
  res = (2 ^ Z.of_nat l * amount m s - B <? 0) /\
  inplace false a2 o = Some (mkqf (if added then x else x ++ [s]) e true).
Proof.
  intros AS U H R x. set (n := (l + length m + u)%nat) in *.
  assert (Ln : length x = n) by (unfold x, n; rewrite !app_length, !repeat_length; lia).
  assert (Lx : length (x ++ [s]) = S n) by (rewrite app_length, Ln; cbn; lia).
  set (D := 2 ^ Z.of_nat l * amount m s - B) in *.
  assert (Cx : code (x ++ [s]) = 2 ^ Z.of_nat l * amount m s + (if s then 1 else 0) * 2 ^ Z.of_nat (S n)).
  { unfold x. rewrite <- !app_assoc. rewrite code_wide. replace (l + length m + u + 1)%nat with (S n) by (unfold n; lia). destruct s; lia. }
  rewrite (inplace_ok true _ o B) by (try exact H; try reflexivity; intros _; cbn; destruct x; discriminate).
  eexists. split; [reflexivity|]. unfold set_reg. cbn [reg ex sg]. unfold size_of at 1 2 3 4 5. cbn [reg]. rewrite !word_length. unfold size_of. cbn [reg]. rewrite !Lx.
  set (d := code (x ++ [s]) + -1 * B).
  assert (Ed : word (S n) d = word (S n) D).
  { rewrite <- (word_mod _ d), <- (word_mod _ D). f_equal. unfold d, D. rewrite Cx. replace (2 ^ Z.of_nat l * amount m s + (if s then 1 else 0) * 2 ^ Z.of_nat (S n) + -1 * B) with (2 ^ Z.of_nat l * amount m s - B + (if s then 1 else 0) * 2 ^ Z.of_nat (S n)) by ring.
    apply Z.mod_add. pose proof (p2pos (Z.of_nat (S n)) ltac:(lia)). lia. }
  rewrite Ed. replace (S n - 1)%nat with n by lia. assert (Sb : bit (word (S n) D) n = (D <? 0)) by (rewrite bit_word by lia; apply sign_bit, R).
  destruct added.
  - unfold reduce, set_reg. cbn [reg ex sg]. rewrite firstn_word by lia. rewrite skipn_all2 by (rewrite word_length; lia). rewrite app_nil_r.
    split; [exact Sb|]. rewrite (inplace_ok false _ o B); [|intros _ K; cbn [reg] in K; apply (f_equal (@length _)) in K; rewrite word_length in K; cbn in K; unfold n in K; lia|reflexivity|exact H].
    unfold set_reg, size_of. cbn [reg ex sg]. rewrite word_length. rewrite code_word. f_equal. f_equal. rewrite <- (word_code x n Ln). rewrite <- word_mod. rewrite Z.add_mod_idemp_l by (pose proof (p2pos (Z.of_nat n) ltac:(lia)); lia). rewrite word_mod. unfold D.
    rewrite (AS eq_refl) in *. rewrite code_app in Cx. cbn [code Z.b2z] in Cx. f_equal. lia.
  - split; [rewrite ?word_length; replace (S n - 1)%nat with n by lia; exact Sb|]. rewrite (inplace_ok false _ o B); [|intros _ K; cbn [reg] in K; apply (f_equal (@length _)) in K; rewrite word_length in K; cbn in K; lia|reflexivity|exact H].
    unfold set_reg, size_of. cbn [reg ex sg]. rewrite word_length. rewrite code_word. f_equal. f_equal. rewrite <- (word_code (x ++ [s]) (S n) Lx) at 1. rewrite <- word_mod. rewrite Z.add_mod_idemp_l by (pose proof (p2pos (Z.of_nat (S n)) ltac:(lia)); lia).
    rewrite <- (word_mod _ (code (x ++ [s]))). f_equal. rewrite Cx. rewrite Z.mod_add by (pose proof (p2pos (Z.of_nat (S n)) ltac:(lia)); lia). f_equal. unfold D. ring.
Qed.

(** what a comparison partner is worth, and how far a is extended downwards for it *)
Definition worth (o : other) : Q := match o with Reg b => QFSpec.value (form b) (code (reg b)) | Num x => x end.
Definition low (o : other) (e : Z) : nat := match o with Reg b => Z.to_nat (e - ex b) | Num _ => 0%nat end.
(** a partner for magnitudes of n bits and exponent e *)
Definition partner (o : other) (n : nat) (e : Z) : Prop :=
  match o with Reg b => wf b | Num x => exists K, (x == inject_Z K * pw e)%Q /\ - 2 ^ Z.of_nat n <= K < 2 ^ Z.of_nat n end.
Lemma mantissa_signed m s e : mantissa (form (mkqf (m ++ [s]) e true)) (code (m ++ [s])) = amount m s.
Proof.
  unfold mantissa, form, size. cbn [signed msize reg ex sg]. rewrite app_length. cbn [length]. replace (length m + 1 - 1)%nat with (length m) by lia.
  rewrite code_app. cbn [code Z.b2z]. unfold amount. pose proof (code_range m) as C. rewrite Nat2Z.inj_succ, Z.pow_succ_r by lia.
  destruct s; cbn [Z.b2z]; destruct (Z.ltb_spec (code m + 2 ^ Z.of_nat (length m) * (1 + 2 * 0)) (2 ^ Z.of_nat (length m))); destruct (Z.ltb_spec (code m + 2 ^ Z.of_nat (length m) * (0 + 2 * 0)) (2 ^ Z.of_nat (length m))); lia.
Qed.
Lemma stands_low o n e : partner o n e -> exists B, stands o (e - Z.of_nat (low o e)) B /\ (worth o == inject_Z B * pw (e - Z.of_nat (low o e)))%Q /\
  forall t : nat, top_of o (e + Z.of_nat n + 1) <= e + Z.of_nat t -> - 2 ^ (Z.of_nat (low o e) + Z.of_nat t - 1) <= B <= 2 ^ (Z.of_nat (low o e) + Z.of_nat t - 1).
Proof.
  destruct o as [b|x]; cbn [partner stands worth low top_of].
  - intros W. set (l := Z.to_nat (e - ex b)). assert (E : e - Z.of_nat l <= ex b) by lia.
    exists (mantissa (form b) (code (reg b)) * 2 ^ (ex b - (e - Z.of_nat l))). split; [auto|]. split.
    { unfold QFSpec.value. change (expo (form b)) with (ex b). rewrite (scale _ (ex b) (e - Z.of_nat l) E). reflexivity. }
    intros t T. pose proof (mantissa_range _ _ (form_basis b W)) as R. unfold in_range in R. change (signed (form b)) with (sg b) in R. unfold top in T. set (k := Z.of_nat (msize (form b))) in *. set (M := mantissa _ _) in *.
    set (d := ex b - (e - Z.of_nat l)) in *. assert (P : 0 < 2 ^ d) by (apply p2pos; lia).
    assert (K : 2 ^ k * 2 ^ d <= 2 ^ (Z.of_nat l + Z.of_nat t - 1)) by (rewrite <- Z.pow_add_r by lia; apply Z.pow_le_mono_r; lia).
    assert (R' : - 2 ^ k <= M <= 2 ^ k) by (pose proof (p2pos k ltac:(lia)); destruct (sg b); lia). split; [|]; nia.
  - intros (K & V & R). rewrite Z.sub_0_r. exists K. split; [exact V|]. split; [exact V|]. intros t T.
    assert (2 ^ Z.of_nat n <= 2 ^ (Z.of_nat 0 + Z.of_nat t - 1)) by (apply Z.pow_le_mono_r; lia). lia.
Qed.
Lemma gate_ok a o : wf a -> partner o (msize (form a)) (ex a) -> exists n, forall fuel, (n <= fuel)%nat ->
  exists res gone, less_than_gate fuel a o = Some (res, a, gone) /\ (res = true <-> (QFSpec.value (form a) (code (reg a)) < worth o)%Q) /\ clean gone.
Proof.
  intros W P. destruct a as [r e g]. cbn [ex reg sg] in *. unfold wf in W. cbn [reg sg] in W.
  set (added := negb g).
  assert (N : exists m s, (added = true -> s = false) /\ r = (if added then m else m ++ [s]) /\ (if added then set_sg (extend (mkqf r e g) (size_of (mkqf r e g))) true else mkqf r e g) = mkqf (m ++ [s]) e true /\
    msize (form (mkqf r e g)) = length m /\ mantissa (form (mkqf r e g)) (code r) = amount m s).
  { unfold added. destruct g; cbn [negb].
    - destruct (exists_last (W eq_refl)) as (m & s & ->). exists m, s. split; [discriminate|]. split; [reflexivity|]. split; [reflexivity|]. split; [cbn; rewrite app_length; cbn; lia|apply mantissa_signed].
    - exists r, false. split; [reflexivity|]. split; [reflexivity|]. split; [|split; [cbn; lia|unfold amount, mantissa; cbn; lia]].
      unfold size_of. cbn [reg]. rewrite <- (app_nil_r r) at 1. rewrite extend_at by reflexivity. reflexivity. }
  destruct N as (m & s & AS & Er & Ea & Em & EM).
  rewrite Em in P. destruct (stands_low o (length m) e P) as (B & St & Wo & Bd). set (l := low o e) in *.
  exists (Z.to_nat (top_of o 0 - e) + Z.to_nat (Z.of_nat l) + 1)%nat. intros fuel F.
  unfold less_than_gate. cbn [sg]. fold added. rewrite Ea.
  destruct (upper_ok fuel added o m s e AS 0 0) as (u & U & Up & T); [lia|lia|]. cbn [repeat app plus] in Up. rewrite Up. cbn [plus] in T. rewrite Nat.add_0_r in T.
  assert (Lw : (match o with Reg b => lower fuel b (mkqf (m ++ repeat s u ++ [s]) e true) 0 | Num _ => Some (mkqf (m ++ repeat s u ++ [s]) e true, 0%nat) end) =
    Some (mkqf ((repeat false l ++ m ++ repeat s u) ++ [s]) (e - Z.of_nat l) true, l)).
  { unfold l, low. destruct o as [b|x]; [rewrite lower_ok by (unfold l, low in F; lia)|]; cbv zeta; rewrite <- !app_assoc; [reflexivity|]. cbn [repeat app]. rewrite Z.sub_0_r. reflexivity. }
  rewrite Lw. clear Lw Up.
  assert (R : - 2 ^ Z.of_nat (l + length m + u) <= 2 ^ Z.of_nat l * amount m s - B < 2 ^ Z.of_nat (l + length m + u)).
  { specialize (Bd (length m + u)%nat). assert (T' : top_of o (e + Z.of_nat (length m) + 1) <= e + Z.of_nat (length m + u)) by (destruct o; cbn [top_of] in *; lia). apply Bd in T'.
    replace (Z.of_nat (l + length m + u)) with (Z.succ (Z.of_nat l + Z.of_nat (length m + u) - 1)) by lia. rewrite Z.pow_succ_r by lia.
    pose proof (amount_range m s) as A. assert (A' : 2 ^ Z.of_nat l * 2 ^ Z.of_nat (length m) <= 2 ^ (Z.of_nat l + Z.of_nat (length m + u) - 1)) by (rewrite <- Z.pow_add_r by lia; apply Z.pow_le_mono_r; lia).
    pose proof (p2pos (Z.of_nat l) ltac:(lia)). nia. }
  destruct (gate_core added l m s u (e - Z.of_nat l) o B AS U St R) as (a1 & S1 & S2). cbv zeta in S1. rewrite S1.
  destruct (if added then reduce a1 (size_of a1 - 1) else (a1, bit (reg a1) (size_of a1 - 1))) as [a2 res] eqn:E2. destruct S2 as [Er2 S2]. rewrite S2.
  assert (Un : exists gone, unupper u added (mkqf (if added then repeat false l ++ m ++ repeat s u else (repeat false l ++ m ++ repeat s u) ++ [s]) (e - Z.of_nat l) true) [] = (mkqf (repeat false l ++ r) (e - Z.of_nat l) true, gone) /\ clean gone).
  { rewrite Er. destruct added.
    - rewrite (AS eq_refl). rewrite app_assoc. apply unupper_added. constructor.
    - rewrite <- !app_assoc. rewrite (app_assoc (repeat false l) m (repeat s u ++ [s])). rewrite (app_assoc (repeat false l) m [s]). apply unupper_signed. constructor. }
  destruct Un as (gone & Un & C). change (0 + u)%nat with u. rewrite Un.
  destruct (unlower_ok l r (e - Z.of_nat l) true gone C) as (gone' & Ul & C'). rewrite Ul.
  exists res, gone'. split; [|split; [|exact C']].
  - replace (e - Z.of_nat l + Z.of_nat l) with e by lia. unfold added. destruct g; reflexivity.
  - rewrite Er2, Wo. unfold QFSpec.value. rewrite EM. change (expo (form (mkqf r e g))) with e. rewrite (scale (amount m s) e (e - Z.of_nat l)) by lia. replace (e - (e - Z.of_nat l)) with (Z.of_nat l) by lia.
    rewrite Z.ltb_lt. rewrite Qlt_alt. split.
    + intros H. apply Qlt_alt. apply Qmult_lt_r; [apply pw_pos|]. rewrite <- Zlt_Qlt. lia.
    + intros H. apply Qlt_alt in H. apply Qmult_lt_r in H; [|apply pw_pos]. rewrite <- Zlt_Qlt in H. lia.
Qed.

(** ** comparing with a number *)
Definition sorted (l : list Q) : Prop := forall p y q z, l = p ++ y :: q -> In z q -> (y <= z)%Q.
Lemma sorted_nil : sorted [].
Proof. intros p y r z E. destruct p; discriminate. Qed.
Lemma sorted_cons x l : sorted (x :: l) <-> (forall z, In z l -> (x <= z)%Q) /\ sorted l.
Proof.
  split.
  - intros S. split; [intros z I; apply (S [] x l z eq_refl I)|]. intros p y q z E I. apply (S (x :: p) y q z); [rewrite E; reflexivity|exact I].
  - intros [H S] [|w p] y q z E I; injection E as <- ->; [apply H, I|apply (S p y q z eq_refl I)].
Qed.
Lemma insert_In x l y : In y (insert x l) <-> y = x \/ In y l.
Proof. induction l as [|z l IH]; cbn [insert]; [cbn; intuition congruence|]. destruct (Qle_bool x z); cbn [In]; [|rewrite IH]; intuition congruence. Qed.
Lemma insert_sorted x l : sorted l -> sorted (insert x l).
Proof.
  induction l as [|z l IH]; intros S; cbn [insert]; [apply sorted_cons; split; [intros ? []|apply sorted_nil]|].
  destruct (Qle_bool x z) eqn:E.
  - apply Qle_bool_iff in E. apply sorted_cons. split; [|exact S]. apply sorted_cons in S as [H S]. intros w [<-|I]; [exact E|]. apply Qle_trans with z; [exact E|apply H, I].
  - assert (L : (z <= x)%Q) by (apply Qlt_le_weak, ltq_spec; unfold ltq; rewrite E; reflexivity). apply sorted_cons in S as [H S]. apply sorted_cons. split; [|apply IH, S].
    intros w I. apply insert_In in I as [->|I]; [exact L|apply H, I].
Qed.
Lemma sort_In l y : In y (sort l) <-> In y l.
Proof. induction l as [|z l IH]; [reflexivity|]. unfold sort in *. cbn [fold_right In]. rewrite insert_In, IH. intuition congruence. Qed.
Lemma sort_sorted l : sorted (sort l).
Proof. induction l as [|z l IH]; [apply sorted_nil|]. apply insert_sorted, IH. Qed.
Lemma last_In (l : list Q) d : l <> [] -> In (last l d) l.
Proof. intros H. destruct (exists_last H) as (p & y & ->). rewrite last_last. apply in_or_app. right. left. reflexivity. Qed.
Lemma last_max l d y : sorted l -> In y l -> (y <= last l d)%Q.
Proof.
  intros S I. destruct l as [|w l'] eqn:E; [destruct I|]. rewrite <- E in *. assert (N : l <> []) by (rewrite E; discriminate). destruct (exists_last N) as (p & x & Ex). rewrite Ex, last_last. rewrite Ex in I.
  apply in_app_or in I as [I|[<-|[]]]; [|apply Qle_refl]. apply in_split in I as (p1 & p2 & ->). apply (S p1 y (p2 ++ [x])); [rewrite Ex, <- app_assoc; reflexivity|apply in_or_app; right; left; reflexivity].
Qed.
Lemma next_ok x : forall l, sorted l -> l <> [] -> (x <= last l 0)%Q -> (hd 0 l < x)%Q ->
  In (next_label l x) l /\ (x <= next_label l x)%Q /\ forall y, In y l -> (y < x)%Q <-> (y < next_label l x)%Q.
Proof.
  induction l as [|y [|z l] IH]; intros S N L H; [congruence|cbn in L, H; lra|].
  change (next_label (y :: z :: l) x) with (if ltq y x && Qle_bool x z then z else next_label (z :: l) x). cbn [hd] in H.
  apply sorted_cons in S as [Sy S]. assert (Ly : ltq y x = true) by (apply ltq_spec, H). rewrite Ly. cbn [andb]. destruct (Qle_bool x z) eqn:E.
  - apply Qle_bool_iff in E. split; [right; left; reflexivity|]. split; [exact E|]. intros w [<-|I]; [split; intros; lra|]. apply sorted_cons in S as [Sz _]. assert (z <= w)%Q by (destruct I as [<-|I]; [apply Qle_refl|apply Sz, I]). split; intros; lra.
  - assert (Lz : (z < x)%Q) by (apply ltq_spec; unfold ltq; rewrite E; reflexivity). destruct (IH S ltac:(discriminate) L Lz) as (I1 & I2 & I3).
    split; [right; exact I1|]. split; [exact I2|]. intros w [<-|I]; [split; intros; lra|]. apply I3, I.
Qed.
Lemma labels_of a v : wf a -> In v (map (fun i => decoder (form a) (Z.of_nat i)) (seq 0 (2 ^ size_of a))) <-> exists c, basis (form a) c /\ v = decoder (form a) c.
Proof. intros W. rewrite <- (form_size a W). apply labels_In. Qed.
Lemma number_ok a x : wf a -> (msize (form a) <= 53)%nat -> exists n, forall fuel, (n <= fuel)%nat ->
  exists res gone, less_than_number fuel a x = Some (res, a, gone) /\ (res = true <-> (QFSpec.value (form a) (code (reg a)) < value_of x)%Q) /\ clean gone.
Proof.
  intros W M. unfold less_than_number. set (ls := sort _).
  assert (S : sorted ls) by apply sort_sorted.
  assert (I : forall v, In v ls <-> exists c, basis (form a) c /\ v = decoder (form a) c) by (intros v; unfold ls; rewrite sort_In; apply labels_of, W).
  assert (Own : In (decoder (form a) (code (reg a))) ls) by (apply I; exists (code (reg a)); split; [apply form_basis, W|reflexivity]).
  pose proof (decoder_value (form a) _ M (form_basis a W)) as DV. set (v := QFSpec.value (form a) (code (reg a))) in *.
  assert (N : ls <> []) by (intros E; rewrite E in Own; destruct Own).
  destruct (ltq (last ls 0%Q) (value_of x)) eqn:E1.
  { apply ltq_spec in E1. exists 0%nat. intros fuel _. exists true, []. split; [reflexivity|]. split; [|constructor]. split; [intros _|reflexivity].
    pose proof (last_max ls 0%Q _ S Own). lra. }
  apply ltq_false in E1. destruct (Qle_bool (value_of x) (hd 0%Q ls)) eqn:E2.
  { apply Qle_bool_iff in E2. exists 0%nat. intros fuel _. exists false, []. split; [reflexivity|]. split; [|constructor]. split; [discriminate|]. intros H. exfalso.
    assert (hd 0 ls <= decoder (form a) (code (reg a)))%Q; [|lra]. destruct ls as [|y q]; [congruence|]. cbn [hd]. apply sorted_cons in S as [S _]. destruct Own as [<-|O]; [apply Qle_refl|apply S, O]. }
  assert (L : (hd 0 ls < value_of x)%Q) by (apply ltq_spec; unfold ltq; rewrite E2; reflexivity).
  destruct (next_ok (value_of x) ls S N E1 L) as (I1 & I2 & I3). set (b := next_label ls (value_of x)) in *.
  apply I in I1 as (c & Bc & Eb). pose proof (decoder_value _ c M Bc) as DB. pose proof (mantissa_range _ _ Bc) as Rg.
  destruct (gate_ok a (Num b) W) as (n & G).
  { exists (mantissa (form a) c). split; [rewrite Eb, DB; reflexivity|]. unfold in_range in Rg. pose proof (p2pos (Z.of_nat (msize (form a))) ltac:(lia)). destruct (signed (form a)); lia. }
  exists n. intros fuel F. destruct (G fuel F) as (res & gone & E & R & C). exists res, gone. split; [exact E|]. split; [|exact C]. rewrite R. cbn [worth]. fold v. specialize (I3 _ Own). rewrite DV in I3. symmetry. exact I3.
Qed.

(** ** a number compared with a QuantumFloat *)
Lemma code_negb l : code (map negb l) = 2 ^ Z.of_nat (length l) - 1 - code l.
Proof. induction l as [|b l IH]; [reflexivity|]. cbn [map code length]. rewrite IH, Nat2Z.inj_succ, Z.pow_succ_r by lia. destruct b; cbn [negb Z.b2z]; lia. Qed.
Lemma amount_negb m s : amount (map negb m) (negb s) = - amount m s - 1.
Proof. unfold amount. rewrite code_negb, map_length. destruct s; cbn [negb]; lia. Qed.
Lemma flip_flip a : flip_all (flip_all a) = a.
Proof. destruct a as [r e s]. unfold flip_all, set_reg. cbn. f_equal. rewrite map_map. rewrite <- (map_id r) at 2. apply map_ext. intros b. apply negb_involutive. Qed.
Lemma flip_value m s e : let a := mkqf (m ++ [s]) e true in (QFSpec.value (form (flip_all a)) (code (reg (flip_all a))) == - QFSpec.value (form a) (code (reg a)) - pw e)%Q.
Proof.
  intros a. unfold a, flip_all, set_reg, QFSpec.value. cbn [reg ex sg]. rewrite map_app. cbn [map]. rewrite !mantissa_signed, amount_negb. cbn [form expo ex reg sg]. unfold Z.sub. rewrite inject_Z_plus, inject_Z_opp. cbn [inject_Z]. change (inject_Z (-(1))) with (-(1))%Q. ring.
Qed.
Lemma qpow_two p : Qpower_positive 2 p = ((2 ^ Zpos p)%Z # 1)%Q.
Proof.
  unfold Qpower_positive. induction p as [p IH|p IH|]; cbn [pow_pos]; [| |reflexivity]; rewrite IH; unfold Qmult; cbn [Qnum Qden]; f_equal.
  - replace (Zpos p~1) with (1 + (Zpos p + Zpos p)) by lia. rewrite !Z.pow_add_r by lia. reflexivity.
  - replace (Zpos p~0) with (Zpos p + Zpos p) by lia. rewrite !Z.pow_add_r by lia. reflexivity.
Qed.
Lemma pw_dyadic e : dyadic (pw e).
Proof.
  unfold pw, dyadic. destruct e as [|p|p]; cbn [Qpower].
  - exists 0. split; [lia|reflexivity].
  - exists 0. split; [lia|]. rewrite qpow_two. reflexivity.
  - exists (Zpos p). split; [lia|]. rewrite qpow_two. unfold Qinv. cbn [Qnum Qden]. destruct (2 ^ Zpos p) eqn:E; [|reflexivity|]; exfalso; pose proof (p2pos (Zpos p) ltac:(lia)); lia.
Qed.
Lemma dyadic_opp q : dyadic q -> dyadic (- q).
Proof. intros H. exact H. Qed.
Lemma dyadic_minus a b : dyadic a -> dyadic b -> dyadic (a - b).
Proof. intros (p & P & A) (q & Q & B). exists (p + q). split; [lia|]. unfold Qminus, Qplus, Qopp. cbn [Qden]. rewrite Pos2Z.inj_mul, A, B, Z.pow_add_r by lia. reflexivity. Qed.
Lemma rnd53_double z k j : Z.abs k <= 2 ^ 53 -> (inject_Z z == inject_Z k * pw j)%Q -> rnd53 z = z.
Proof.
  intros K E. destruct (Z.le_gt_cases 0 j) as [L|L].
  - rewrite pw_Z, <- inject_Z_mult in E by exact L. apply inj_eq in E. rewrite E. apply rnd53_exact; assumption.
  - assert (E' : (inject_Z (z * 2 ^ (- j)) == inject_Z k)%Q).
    { rewrite inject_Z_mult, E, <- pw_Z by lia. rewrite <- Qmult_assoc, <- pw_add. replace (j + - j) with 0 by lia. change (pw 0) with 1%Q. ring. }
    apply inj_eq in E'. apply rnd53_53. pose proof (p2pos (- j) ltac:(lia)). nia.
Qed.
Lemma rndq_exact q : dyadic q -> double q -> (rndq q == q)%Q.
Proof.
  intros (p & P & D) (k & j & K & E). unfold rndq.
  assert (Z : (inject_Z (Zpos (Qden q)) == pw p)%Q) by (rewrite D, <- pw_Z by exact P; reflexivity).
  assert (Q : (inject_Z (Qnum q) == q * inject_Z (Zpos (Qden q)))%Q) by (destruct q as [n d]; unfold Qeq, inject_Z, Qmult; cbn; lia).
  rewrite (rnd53_double (Qnum q) k (j + p) K) by (rewrite Q, Z, E, pw_add; ring). rewrite Q. field. rewrite Z. apply pw_nz.
Qed.
Lemma mirror_exact x e : exact_below x e -> (value_of (mirror x e) == - value_of x - pw e)%Q.
Proof.
  destruct x as [z|q]; cbn [exact_below mirror value_of].
  - intros [H|[D H]].
    + replace (0 <=? e) with true by (symmetry; apply Z.leb_le, H). cbn [value_of]. rewrite pw_Z by exact H. unfold Z.sub. rewrite inject_Z_plus, !inject_Z_opp. reflexivity.
    + destruct (Z.leb_spec 0 e) as [L|L]; cbn [value_of]; [rewrite pw_Z by exact L; unfold Z.sub; rewrite inject_Z_plus, !inject_Z_opp; reflexivity|].
      destruct D as (k & j & K & E). rewrite (rnd53_double (- z) (- k) j); [|lia|rewrite !inject_Z_opp, E; ring]. rewrite rndq_exact; [rewrite inject_Z_opp; reflexivity| |].
      * apply dyadic_minus; [exists 0; split; [lia|reflexivity]|apply pw_dyadic].
      * destruct H as (k' & j' & K' & E'). exists k', j'. split; [exact K'|]. rewrite inject_Z_opp. exact E'.
  - intros [D H]. apply rndq_exact; [|exact H]. apply dyadic_minus; [apply dyadic_opp, D|apply pw_dyadic].
Qed.
Lemma mirrored_ok b x : wf b -> (msize (form b) <= 53)%nat -> exact_below x (ex b) -> exists n, forall fuel, (n <= fuel)%nat ->
  decides (value_of x < QFSpec.value (form b) (code (reg b)))%Q (NU x) (QF b) (less_than fuel (NU x) (QF b)).
Proof.
  intros W M X. unfold less_than.
  assert (N : exists m s, (sg b = false -> s = false) /\ reg b = (if sg b then m ++ [s] else m) /\ (if negb (sg b) then set_sg (extend b (size_of b)) true else b) = mkqf (m ++ [s]) (ex b) true /\ length m = msize (form b) /\
    (QFSpec.value (form b) (code (reg b)) == QFSpec.value (form (mkqf (m ++ [s]) (ex b) true)) (code (m ++ [s])))%Q).
  { destruct b as [r e g]. cbn [reg sg ex] in *. destruct g; cbn [negb].
    - destruct (exists_last (W eq_refl)) as (m & s & Em). cbn [reg] in Em. subst r. exists m, s. split; [discriminate|]. split; [reflexivity|]. split; [reflexivity|]. split; [cbn; rewrite app_length; cbn; lia|reflexivity].
    - exists r, false. split; [reflexivity|]. split; [reflexivity|]. split; [unfold size_of; cbn [reg]; rewrite <- (app_nil_r r) at 1; rewrite extend_at by reflexivity; reflexivity|]. split; [cbn; lia|].
      unfold QFSpec.value. rewrite mantissa_signed. unfold amount. rewrite Z.sub_0_r. reflexivity. }
  destruct N as (m & s & S0 & Er & E & Lm & V). rewrite E. set (a := mkqf (m ++ [s]) (ex b) true) in *. change (ex a) with (ex b).
  assert (Wf : wf (flip_all a)) by (intros _; unfold a, flip_all, set_reg; cbn; destruct m; discriminate).
  assert (Mf : (msize (form (flip_all a)) <= 53)%nat) by (unfold a, flip_all, set_reg, form; cbn [msize reg sg]; rewrite map_length, app_length; cbn; lia).
  destruct (number_ok (flip_all a) (mirror x (ex b)) Wf Mf) as (n & G). exists n. intros fuel F. destruct (G fuel F) as (res & gone & R & I & C). rewrite R, flip_flip.
  assert (I' : res = true <-> (value_of x < QFSpec.value (form b) (code (reg b)))%Q).
  { rewrite I, (mirror_exact x (ex b) X), V. pose proof (flip_value m s (ex b)) as FV. cbv zeta in FV. fold a in FV. rewrite FV. cbn [reg]. change (reg a) with (m ++ [s]). split; intros; lra. }
  destruct (sg b) eqn:Sb; cbn [negb].
  - exists res, gone. split; [|split; [exact I'|exact C]]. f_equal. f_equal. f_equal. f_equal. unfold a. destruct b as [r e g]. cbn in *. congruence.
  - unfold a at 1. rewrite reduce_at by (unfold a, size_of; cbn [reg]; rewrite app_length; cbn; lia). rewrite (S0 eq_refl). exists res, (false :: gone). split; [|split; [exact I'|apply clean_cons, C]].
    f_equal. f_equal. f_equal. f_equal. rewrite app_nil_r. destruct b as [r e g]. unfold set_sg. cbn in *. congruence.
Qed.

(** ** basis states *)
Definition of_shape (f : shape) (c : Z) : qf := mkqf (word (size f) c) (expo f) (signed f).
Lemma float_of f c : float f c = QF (of_shape f c). Proof. reflexivity. Qed.
Lemma of_shape_form f c : form (of_shape f c) = f.
Proof. destruct f as [n e g]. unfold form, of_shape. cbn [reg ex sg size msize signed expo]. rewrite word_length. f_equal. unfold size. cbn [signed msize]. destruct g; lia. Qed.
Lemma of_shape_wf f c : wf (of_shape f c).
Proof. intros S K. unfold of_shape in *. cbn [reg sg] in *. apply (f_equal (@length _)) in K. rewrite word_length in K. unfold size in K. rewrite S in K. discriminate. Qed.
Lemma of_shape_code f c : basis f c -> code (reg (of_shape f c)) = c.
Proof. intros B. unfold of_shape. cbn [reg]. rewrite code_word. apply Z.mod_small, B. Qed.
(** the number an operand stands for, and when it can be compared exactly *)
Lemma float_float f c g d : basis f c -> basis g d -> exists n, forall fuel, (n <= fuel)%nat ->
  decides (QFSpec.value f c < QFSpec.value g d)%Q (float f c) (float g d) (less_than fuel (float f c) (float g d)).
Proof.
  intros B B'. rewrite !float_of. destruct (gate_ok (of_shape f c) (Reg (of_shape g d)) (of_shape_wf f c) (of_shape_wf g d)) as (n & G). exists n. intros fuel F.
  destruct (G fuel F) as (res & gone & E & I & C). exists res, gone. cbn [less_than]. rewrite E. split; [reflexivity|]. split; [|exact C].
  cbn [worth] in I. rewrite !of_shape_form, !of_shape_code in I by assumption. exact I.
Qed.
Lemma float_number f c x : basis f c -> (msize f <= 53)%nat -> exists n, forall fuel, (n <= fuel)%nat ->
  decides (QFSpec.value f c < value_of x)%Q (float f c) (NU x) (less_than fuel (float f c) (NU x)).
Proof.
  intros B M. rewrite !float_of. destruct (number_ok (of_shape f c) x (of_shape_wf f c)) as (n & G); [rewrite of_shape_form; exact M|]. exists n. intros fuel F.
  destruct (G fuel F) as (res & gone & E & I & C). exists res, gone. cbn [less_than]. rewrite E. split; [reflexivity|]. split; [|exact C].
  rewrite !of_shape_form, !of_shape_code in I by assumption. exact I.
Qed.
Lemma number_float f c x : basis f c -> (msize f <= 53)%nat -> exact_below x (expo f) -> exists n, forall fuel, (n <= fuel)%nat ->
  decides (value_of x < QFSpec.value f c)%Q (NU x) (float f c) (less_than fuel (NU x) (float f c)).
Proof.
  intros B M X. rewrite !float_of. pose proof (mirrored_ok (of_shape f c) x (of_shape_wf f c)) as H. rewrite of_shape_form, of_shape_code in H by exact B. exact (H M X).
Qed.
Lemma decides_swap P a b o : decides P a b o -> decides P b a (swap_out o).
Proof. intros (r & g & -> & I & C). exists r, g. auto. Qed.
Lemma decides_flip (x y : Q) a b o : decides (x < y)%Q a b o -> decides (y <= x)%Q a b (flip_out o).
Proof. intros (r & g & -> & I & C). exists (negb r), g. split; [reflexivity|]. split; [|exact C]. destruct r; cbn [negb]; split; intros H; try discriminate; try reflexivity; [destruct I as [I _]; specialize (I eq_refl); lra|]. destruct (Qlt_le_dec x y) as [L|L]; [apply I in L; discriminate|exact L]. Qed.
