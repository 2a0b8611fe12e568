(** Proofs about division, third part: values. *)
From Coq Require Import List ZArith QArith Qround Qabs Bool Lia Lqa.
Import ListNotations.
From Verif.QFloat Require Import QFModel QFSpec QFProofs.
From Verif.Order Require Import OrderModel OrderSpec OrderProofs.
From Verif.Division Require Import ThapModel ThapProofs DivModel DivSpec DivProofs DivProofs2.
Local Open Scope Z_scope.

Lemma qvar_of f c : qvar f c = of_shape f c. Proof. reflexivity. Qed.
Lemma qvar_wf f c : wf (qvar f c). Proof. apply of_shape_wf. Qed.
Lemma qvar_form f c : form (qvar f c) = f. Proof. apply of_shape_form. Qed.
Lemma qvar_code f c : basis f c -> code (reg (qvar f c)) = c. Proof. apply of_shape_code. Qed.
Lemma qvar_mant f c : basis f c -> mant (qvar f c) = mantissa f c.
Proof. intros B. unfold mant. rewrite qvar_form, qvar_code by exact B. reflexivity. Qed.
Lemma qvar_top f c : top (qvar f c) = upto f. Proof. rewrite top_eq, qvar_form. reflexivity. Qed.
Lemma qvar_size f c : size_of (qvar f c) = size f.
Proof. rewrite <- (form_size _ (qvar_wf f c)), qvar_form. reflexivity. Qed.
Lemma qvar_mod f c : qvar f (c mod 2 ^ Z.of_nat (size f)) = qvar f c.
Proof. unfold qvar. f_equal. apply word_mod. Qed.
Lemma floor_unique x k : (inject_Z k <= x < inject_Z (k + 1))%Q -> Qfloor x = k.
Proof.
  intros [H1 H2]. pose proof (Qfloor_le x) as F1. pose proof (Qlt_floor x) as F2. rewrite inject_Z_plus in F2, H2. change (inject_Z 1) with 1%Q in *.
  assert (A : (inject_Z (Qfloor x) < inject_Z k + 1)%Q) by lra. assert (B : (inject_Z k < inject_Z (Qfloor x) + 1)%Q) by lra.
  change 1%Q with (inject_Z 1) in A, B. rewrite <- inject_Z_plus, <- Zlt_Qlt in A. rewrite <- inject_Z_plus, <- Zlt_Qlt in B. lia.
Qed.
Lemma pw_sub a b : (pw (a - b) * pw b == pw a)%Q.
Proof. rewrite <- pw_add. replace (a - b + b) with a by lia. reflexivity. Qed.
Lemma pw_quot a b : (pw a / pw b == pw (a - b))%Q.
Proof. rewrite <- (pw_sub a b) at 1. field. apply pw_nz. Qed.
Lemma floor_shift m e f : Qfloor (inject_Z m * pw e / pw f) = Z.shiftl m (e - f).
Proof.
  assert (X : (inject_Z m * pw e / pw f == inject_Z m * pw (e - f))%Q) by (rewrite <- pw_quot; field; apply pw_nz). rewrite X.
  destruct (Z.le_gt_cases 0 (e - f)) as [H|H].
  - rewrite pw_Z, <- inject_Z_mult by exact H. rewrite Qfloor_Z, Z.shiftl_mul_pow2 by exact H. reflexivity.
  - set (k := f - e). replace (e - f) with (- k) by lia. rewrite Z.shiftl_div_pow2 by lia. replace (- - k) with k by lia. apply floor_unique.
    pose proof (p2pos k ltac:(lia)) as P. pose proof (Z.div_mod m (2 ^ k) ltac:(lia)) as DM. pose proof (Z.mod_pos_bound m (2 ^ k) P) as MB.
    assert (Pk : (pw (- k) * inject_Z (2 ^ k) == 1)%Q) by (rewrite <- pw_Z by lia; rewrite <- pw_add; replace (- k + k) with 0 by lia; reflexivity).
    assert (Pp : (0 < pw (- k))%Q) by apply pw_pos. set (y := pw (- k)) in *. set (P2 := 2 ^ k) in *.
    assert (E1 : (inject_Z (m / P2) == inject_Z (m / P2 * P2) * y)%Q) by (rewrite inject_Z_mult, <- Qmult_assoc, (Qmult_comm (inject_Z P2)), Pk; ring).
    assert (E2 : (inject_Z (m / P2 + 1) == inject_Z ((m / P2 + 1) * P2) * y)%Q) by (rewrite inject_Z_mult, <- Qmult_assoc, (Qmult_comm (inject_Z P2)), Pk; ring).
    rewrite E1, E2. split; [apply Qmult_le_compat_r; [rewrite <- Zle_Qle; lia|lra]|]. apply Qmult_lt_r; [exact Pp|]. rewrite <- Zlt_Qlt. lia.
Qed.
Lemma add_value f c g d : basis f c -> expo f <= expo g -> representable f (value f c + value g d) ->
  (value f ((c + Qfloor (value g d / pw (expo f))) mod 2 ^ Z.of_nat (size f)) == value f c + value g d)%Q.
Proof.
  intros B E (k & K & V). unfold value at 2. rewrite floor_shift, Z.shiftl_mul_pow2 by lia.
  assert (X : k = mantissa f c + mantissa g d * 2 ^ (expo g - expo f)).
  { apply (mul_pw_inj _ _ (expo f)). rewrite <- V. unfold value. rewrite inject_Z_plus, Qmult_plus_distr_l. rewrite (QFProofs.scale (mantissa g d) (expo g) (expo f)) by exact E. reflexivity. }
  destruct (code_of f k K) as [B' M]. assert (C : (c + mantissa g d * 2 ^ (expo g - expo f)) mod 2 ^ Z.of_nat (size f) = k mod 2 ^ Z.of_nat (size f)).
  { rewrite X. rewrite <- (Zplus_mod_idemp_l (mantissa f c)). f_equal. f_equal. unfold mantissa. unfold basis in B. destruct (signed f); [destruct (c <? _)|]; try (symmetry; apply Z.mod_small, B).
    rewrite <- (Z.mod_add (c - _) 1) by (pose proof (p2pos (Z.of_nat (size f))); lia). rewrite Z.mul_1_l, Z.sub_add. symmetry. apply Z.mod_small, B. }
  rewrite C. unfold value at 1. rewrite M. symmetry. exact V.
Qed.
Lemma add_qvar ir io f c g d : basis f c -> basis g d -> (ir = false -> expo f <= expo g) -> upto g <= upto f -> (signed g = true -> signed f = true) -> expo f <= upto g ->
  3 <= upto f - Z.max (expo f) (expo g) + (if signed f then 1 else 0) ->
  exists gone, inpl_add ir io (qvar f c) (qvar g d) = Some (qvar f ((c + Qfloor (value g d / pw (expo f))) mod 2 ^ Z.of_nat (size f)), qvar g d, gone) /\ zeros gone.
Proof.
  intros B B' IR T S I W. destruct (inpl_add_ok ir io (qvar f c) (qvar g d)) as (gone & G & C); try apply qvar_wf; try exact IR; try exact S.
  - rewrite !qvar_top. exact T.
  - rewrite qvar_top. exact I.
  - rewrite qvar_top. exact W.
  - exists gone. split; [|exact C]. rewrite G. unfold value. rewrite floor_shift. rewrite qvar_size, qvar_code, qvar_mant by assumption. cbn [ex qvar]. rewrite qvar_mod. reflexivity.
Qed.

Lemma mk_qvar m e q : - 2 ^ Z.of_nat m <= q < 2 ^ Z.of_nat m -> let f := mk m e true in
  exists c, basis f c /\ mkqf (word (S m) q) e true = qvar f c /\ (value f c == inject_Z q * pw e)%Q.
Proof.
  intros R f. destruct (code_of f q R) as [B M]. exists (q mod 2 ^ Z.of_nat (size f)). split; [exact B|]. split; [rewrite qvar_mod; reflexivity|]. unfold value. rewrite M. reflexivity.
Qed.
Lemma abs_mul_pos x e : (Qabs (inject_Z x * pw e) == inject_Z (Z.abs x) * pw e)%Q.
Proof. rewrite Qabs_Qmult, (Qabs_pos (pw e)) by (pose proof (pw_pos e); lra). reflexivity. Qed.
Lemma quotient_error n q d r p : ~ (d == 0)%Q -> (n == q * d + r)%Q -> (0 <= r)%Q -> (r < Qabs d * p)%Q -> (Qabs (q - n / d) < p)%Q.
Proof.
  intros D E R0 R1. assert (X : (q - n / d == - (r / d))%Q) by (rewrite E; field; exact D). rewrite X, Qabs_opp. unfold Qdiv. rewrite Qabs_Qmult, (Qabs_pos r) by exact R0.
  assert (P : (0 < Qabs d)%Q). { destruct (Qlt_le_dec 0 (Qabs d)) as [L|L]; [exact L|]. exfalso. apply D. pose proof (Qabs_nonneg d). assert (Z : (Qabs d == 0)%Q) by lra. destruct (Qlt_le_dec d 0) as [N|N]; [rewrite Qabs_neg in Z by lra; lra|rewrite Qabs_pos in Z by exact N; exact Z]. }
  assert (I : (Qabs (/ d) == / Qabs d)%Q). { apply (Qmult_inj_r _ _ (Qabs d)); [lra|]. rewrite <- Qabs_Qmult. rewrite (Qmult_comm (/ d)), Qmult_inv_r by exact D. rewrite (Qmult_comm (/ Qabs d)), Qmult_inv_r by lra. reflexivity. }
  rewrite I. apply (Qmult_lt_r _ _ (Qabs d)); [exact P|]. rewrite <- Qmult_assoc, (Qmult_comm (/ Qabs d)), Qmult_inv_r by lra. lra.
Qed.
Lemma divmod_qvar f c g d prec : basis f c -> basis g d -> (1 <= msize f)%nat -> (1 <= msize g)%nat -> ~ (value g d == 0)%Q ->
  Z.min (expo f) (expo g) - expo f <= prec -> expo g <= upto f + prec ->
  let fq := quotient_shape f g prec in let fr := remainder_shape f g prec in
  exists cq cr gone, q_divmod (qvar f c) (qvar g d) prec = Some (qvar fq cq, qvar fr cr, qvar f c, qvar g d, gone) /\ zeros gone /\
    basis fq cq /\ basis fr cr /\
    (value f c == value fq cq * value g d + value fr cr)%Q /\ (0 <= value fr cr)%Q /\ (value fr cr < Qabs (value g d) * pw (- prec))%Q.
Proof.
  intros B B' M M' D P T fq fr. unfold q_divmod. cbv zeta. change (ex (qvar f c)) with (expo f). change (ex (qvar g d)) with (expo g). set (s := - Z.min (expo f) (expo g)).
  set (N' := set_ex (qvar f c) (expo f + (s + prec))). set (D' := set_ex (qvar g d) (expo g + s)).
  assert (MN : mant N' = mantissa f c) by (apply qvar_mant, B). assert (MD : mant D' = mantissa g d) by (apply qvar_mant, B').
  assert (D0 : mantissa g d <> 0). { intros E. apply D. unfold value. rewrite E. ring. }
  destruct (int_div_ok N' D') as (m & q & K & R & gone & G & C & M1 & K1 & Q & RK & EQ & RR).
  - exact (qvar_wf f c).
  - exact (qvar_wf g d).
  - change (form N') with (mk (msize (form (qvar f c))) (expo f + (s + prec)) (signed f)). rewrite qvar_form. exact M.
  - change (form D') with (mk (msize (form (qvar g d))) (expo g + s) (signed g)). rewrite qvar_form. exact M'.
  - change (ex N') with (expo f + (s + prec)). unfold s. lia.
  - change (ex D') with (expo g + s). unfold s. lia.
  - rewrite top_eq. change (msize (form N')) with (msize (form (qvar f c))). rewrite qvar_form. change (ex N') with (expo f + (s + prec)). change (ex D') with (expo g + s). unfold upto in T. lia.
  - rewrite MD. exact D0.
  - set (re := Z.min (ex N') (ex D' - 1)) in *. rewrite G. cbn [ex set_ex]. unfold N', D'. rewrite !set_ex_twice. cbn [set_ex ex]. rewrite !Z.add_simpl_r.
    change (set_ex (qvar f c) (expo f)) with (qvar f c). change (set_ex (qvar g d) (expo g)) with (qvar g d).
    unfold set_ex at 1 2. cbn [reg sg].
    destruct (mk_qvar m (0 - prec) q Q) as (cq & Bq & Eq & Vq). destruct (mk_qvar K (re - (s + prec)) R ltac:(pose proof (p2pos (Z.of_nat K)); lia)) as (cr & Br & Er & Vr). rewrite Eq, Er.
    assert (FQ : mk m (0 - prec) true = fq) by (unfold fq, quotient_shape; f_equal; [rewrite M1, top_eq; f_equal; change (msize (form N')) with (msize (form (qvar f c))); rewrite qvar_form; change (ex N') with (expo f + (s + prec)); change (ex D') with (expo g + s); unfold upto; clear; lia]).
    assert (FR : mk K (re - (s + prec)) true = fr).
    { unfold fr, remainder_shape. change (msize (form D')) with (msize (form (qvar g d))) in K1. rewrite qvar_form in K1. unfold re in *. change (ex N') with (expo f + (s + prec)) in *. change (ex D') with (expo g + s) in *. f_equal; clear - K1; lia. }
    rewrite FQ in *. rewrite FR in *.
    exists cq, cr, gone. split; [reflexivity|]. split; [exact C|]. split; [exact Bq|]. split; [exact Br|].
    rewrite Vq, Vr. change (ex N') with (expo f + (s + prec)) in EQ. change (ex D') with (expo g + s) in EQ, RR. rewrite MN, MD in EQ. rewrite MD in RR.
    assert (re1 : re <= expo f + (s + prec)) by apply Z.le_min_l. assert (re2 : re <= expo g + s) by (change (ex D') with (expo g + s) in re; unfold re; lia).
    set (E := pw (re - (s + prec))). assert (PE : (0 < E)%Q) by apply pw_pos.
    assert (VN : (value f c == inject_Z (mantissa f c * 2 ^ (expo f + (s + prec) - re)) * E)%Q).
    { unfold value, E. rewrite inject_Z_mult, <- (pw_Z (expo f + (s + prec) - re)) by lia. rewrite <- Qmult_assoc, <- pw_add. replace (expo f + (s + prec) - re + (re - (s + prec))) with (expo f) by lia. reflexivity. }
    assert (VD : (pw (0 - prec) * value g d == inject_Z (mantissa g d * 2 ^ (expo g + s - re)) * E)%Q).
    { unfold value, E. rewrite inject_Z_mult, <- (pw_Z (expo g + s - re)) by lia. rewrite <- Qmult_assoc, <- pw_add. rewrite (Qmult_comm (pw (0 - prec))), <- Qmult_assoc, <- pw_add.
      replace (expo g + (0 - prec)) with (expo g + s - re + (re - (s + prec))) by lia. reflexivity. }
    split; [|split].
    + rewrite VN, EQ, <- Qmult_assoc, VD. rewrite inject_Z_plus, inject_Z_mult. ring.
    + apply Qmult_le_0_compat; [change 0%Q with (inject_Z 0); rewrite <- Zle_Qle; lia|lra].
    + assert (VA : (Qabs (value g d) * pw (- prec) == inject_Z (Z.abs (mantissa g d) * 2 ^ (expo g + s - re)) * E)%Q).
      { unfold value at 1. rewrite abs_mul_pos. unfold E. rewrite inject_Z_mult, <- (pw_Z (expo g + s - re)) by lia. rewrite <- !Qmult_assoc, <- !pw_add. replace (expo g + - prec) with (expo g + s - re + (re - (s + prec))) by lia. reflexivity. }
      rewrite VA. apply Qmult_lt_r; [exact PE|]. rewrite <- Zlt_Qlt. lia.
Qed.
