(** Proofs about continued fractions: the number-theoretic facts and the refinement of the
    BigInteger loop to them. *)
From Verif.BigInt Require Import BigIntSpec BigIntModel BigIntLemmas BigIntArith BigIntBits BigIntDiv BigIntKnuth BigIntDivTop.
From Verif.ContFrac Require Import CFSpec CFModel.
From Coq Require Import ZArith List Lia Znumtheory.
Import ListNotations.
Local Open Scope Z_scope.

(** ** Partial quotients *)
Lemma cf_digits_exists : forall n a b, 0 < b -> b <= Z.of_nat n -> exists l, cf_digits a b l.
Proof.
  induction n as [|n IH]; intros a b Hb Hn; [lia|].
  destruct (Z.eq_dec (a mod b) 0) as [E|E].
  - exists [a / b]. now apply cf_last.
  - pose proof (Z.mod_pos_bound a b Hb).
    destruct (IH b (a mod b)) as [l Hl]; [lia|lia|].
    exists (a / b :: l). now apply cf_next.
Qed.
Lemma cf_digits_ex a b : 0 < b -> exists l, cf_digits a b l.
Proof. intros H. apply (cf_digits_exists (Z.to_nat b)); lia. Qed.
Lemma cf_digits_fun : forall a b l, cf_digits a b l -> forall l', cf_digits a b l' -> l = l'.
Proof.
  induction 1; intros l' H'; inversion H'; subst; try congruence; try lia.
  f_equal. now apply IHcf_digits.
Qed.

(** ** The recurrence over the integers *)
Fixpoint zconv (l : list Z) (p0 p1 q0 q1 : Z) : list (Z * Z) :=
  match l with
  | [] => []
  | x :: t => let pn := x * p1 + p0 in let qn := x * q1 + q0 in (pn, qn) :: zconv t p1 pn q1 qn
  end.
Lemma zconv_length : forall l p0 p1 q0 q1, length (zconv l p0 p1 q0 q1) = length l.
Proof. induction l; intros; cbn [zconv length]; [reflexivity|]. now rewrite IHl. Qed.
Lemma zconv_nth : forall l p0 p1 q0 q1 k, (k < length l)%nat ->
  nth k (zconv l p0 p1 q0 q1) (0, 0) =
  let '(n, d) := cf_value (firstn (S k) l) in (p1 * n + p0 * d, q1 * n + q0 * d).
Proof.
  induction l as [|x l IH]; intros p0 p1 q0 q1 k H; [cbn in H; lia|].
  cbn [zconv]. destruct k as [|k].
  - cbn [nth firstn cf_value]. f_equal; ring.
  - cbn [nth]. rewrite IH by (cbn in H; lia).
    change (firstn (S (S k)) (x :: l)) with (x :: firstn (S k) l). cbn [cf_value].
    destruct (cf_value (firstn (S k) l)) as [n d]. f_equal; ring.
Qed.
Lemma zconv_spec l : zconv l 0 1 1 0 = map (convergent l) (seq 0 (length l)).
Proof.
  apply nth_ext with (d := (0, 0)) (d' := (0, 0)); [now rewrite zconv_length, map_length, seq_length|].
  intros k Hk. rewrite zconv_length in Hk. rewrite zconv_nth by exact Hk.
  rewrite (nth_indep _ (0, 0) (convergent l 0)) by (rewrite map_length, seq_length; exact Hk).
  rewrite map_nth, seq_nth by exact Hk. rewrite Nat.add_0_l. unfold convergent.
  destruct (cf_value (firstn (S k) l)) as [n d]. f_equal; ring.
Qed.

(** State of the expansion of A / B. *)
Definition st_inv (A B a0 b0 p0 p1 q0 q1 : Z) : Prop :=
  A = a0 * p1 + b0 * p0 /\ B = a0 * q1 + b0 * q0 /\ (p1 * q0 - p0 * q1) * (p1 * q0 - p0 * q1) = 1 /\
  0 <= p0 /\ 0 <= p1 /\ 0 <= q0 /\ 0 <= q1.
Lemma st_inv_init A B : st_inv A B A B 0 1 1 0.
Proof. unfold st_inv. repeat split; lia. Qed.
Lemma st_inv_step A B a0 b0 p0 p1 q0 q1 : 0 < b0 -> 0 <= a0 -> st_inv A B a0 b0 p0 p1 q0 q1 ->
  st_inv A B b0 (a0 mod b0) p1 (a0 / b0 * p1 + p0) q1 (a0 / b0 * q1 + q0).
Proof.
  intros Hb Ha (HA & HB & HD & H1 & H2 & H3 & H4).
  pose proof (Z.div_mod a0 b0 ltac:(lia)) as E. pose proof (Z.div_pos a0 b0 Ha Hb) as Q.
  set (x := a0 / b0) in *. set (r := a0 mod b0) in *.
  unfold st_inv. split; [rewrite HA; rewrite E; ring|]. split; [rewrite HB; rewrite E; ring|].
  split; [rewrite <- HD; ring|]. repeat split; try lia; apply Z.add_nonneg_nonneg; try lia; apply Z.mul_nonneg_nonneg; lia.
Qed.

(** the new numerator and denominator are bounded by A and B *)
Lemma st_bound A B a0 b0 p0 p1 q0 q1 : 0 < b0 -> 0 <= a0 -> st_inv A B a0 b0 p0 p1 q0 q1 ->
  a0 / b0 * p1 + p0 <= A /\ a0 / b0 * q1 + q0 <= B.
Proof.
  intros Hb Ha HI. pose proof (st_inv_step _ _ _ _ _ _ _ _ Hb Ha HI) as (HA & HB & _ & P1 & P2 & P3 & P4).
  pose proof (Z.mod_pos_bound a0 b0 Hb).
  set (pn := a0 / b0 * p1 + p0) in *. set (qn := a0 / b0 * q1 + q0) in *. set (r := a0 mod b0) in *.
  assert (0 <= r * p1) by (apply Z.mul_nonneg_nonneg; lia).
  assert (0 <= r * q1) by (apply Z.mul_nonneg_nonneg; lia).
  split; nia.
Qed.

Lemma det_sq_cases d : d * d = 1 -> d = 1 \/ d = -1.
Proof. intros H. assert (-1 <= d <= 1) by nia. assert (d <> 0) by nia. lia. Qed.

Lemma det_gcd a b c d : (a * d - b * c) * (a * d - b * c) = 1 -> Z.gcd a c = 1.
Proof.
  intros H. apply det_sq_cases in H. apply Zgcd_1_rel_prime. apply bezout_rel_prime.
  destruct H as [H|H].
  - apply Bezout_intro with d (-b). lia.
  - apply Bezout_intro with (-d) b. lia.
Qed.

Lemma zconv_coprime : forall A B l a0 b0 p0 p1 q0 q1, cf_digits a0 b0 l -> 0 <= a0 -> st_inv A B a0 b0 p0 p1 q0 q1 ->
  Forall (fun '(p, q) => Z.gcd p q = 1 /\ 0 <= p <= A /\ 0 <= q <= B) (zconv l p0 p1 q0 q1).
Proof.
  intros A B l a0 b0 p0 p1 q0 q1 H. revert p0 p1 q0 q1.
  induction H; intros p0 p1 q0 q1 Ha HI; cbn [zconv]; apply Forall_cons; try apply Forall_nil.
  1,2: pose proof (st_inv_step _ _ _ _ _ _ _ _ H Ha HI) as (HA & HB & HD & P1 & P2 & P3 & P4);
    pose proof (st_bound _ _ _ _ _ _ _ _ H Ha HI) as [Q1 Q2];
    split; [eapply det_gcd; exact HD|lia].
  apply IHcf_digits; [lia|]. now apply st_inv_step.
Qed.

Lemma zconv_last : forall A B l a0 b0 p0 p1 q0 q1, cf_digits a0 b0 l -> 0 <= a0 -> 0 < A \/ 0 < B ->
  st_inv A B a0 b0 p0 p1 q0 q1 ->
  last (zconv l p0 p1 q0 q1) (0, 0) = (A / Z.gcd A B, B / Z.gcd A B).
Proof.
  intros A B l a0 b0 p0 p1 q0 q1 H. revert p0 p1 q0 q1.
  induction H; intros p0 p1 q0 q1 Ha HP HI; cbn [zconv].
  - cbn [last]. pose proof (st_inv_step _ _ _ _ _ _ _ _ H Ha HI) as (HA & HB & HD & P1 & P2 & P3 & P4).
    rewrite H0 in HA, HB. set (pn := a / b * p1 + p0) in *. set (qn := a / b * q1 + q0) in *.
    assert (G : Z.gcd A B = b).
    { replace A with (b * pn) by lia. replace B with (b * qn) by lia.
      rewrite Z.gcd_mul_mono_l_nonneg by lia.
      replace (Z.gcd pn qn) with 1; [lia|]. symmetry. eapply det_gcd; exact HD. }
    rewrite G. f_equal; symmetry.
    + replace A with (pn * b) by lia. apply Z.div_mul. lia.
    + replace B with (qn * b) by lia. apply Z.div_mul. lia.
  - assert (NE : zconv l p1 (a / b * p1 + p0) q1 (a / b * q1 + q0) <> []).
    { intros E. apply (f_equal (@length _)) in E. rewrite zconv_length in E. inversion H1; subst; discriminate. }
    change (last ((a / b * p1 + p0, a / b * q1 + q0) :: zconv l p1 (a / b * p1 + p0) q1 (a / b * q1 + q0)) (0, 0)
      = (A / Z.gcd A B, B / Z.gcd A B)).
    destruct (zconv l p1 (a / b * p1 + p0) q1 (a / b * q1 + q0)) as [|z zs] eqn:EZ; [congruence|].
    change (last (z :: zs) (0, 0) = (A / Z.gcd A B, B / Z.gcd A B)).
    rewrite <- EZ. apply IHcf_digits; [lia|exact HP|]. now apply st_inv_step.
Qed.

(** ** Approximation quality: |A q_k - B p_k| q_(k+1) <= B *)
Lemma zconv_error : forall A B l a0 b0 p0 p1 q0 q1, cf_digits a0 b0 l -> 0 <= a0 -> st_inv A B a0 b0 p0 p1 q0 q1 ->
  Z.abs (A * q1 - B * p1) * snd (hd (0, 0) (zconv l p0 p1 q0 q1)) <= B /\
  forall k p q p' q', nth_error (zconv l p0 p1 q0 q1) k = Some (p, q) ->
    nth_error (zconv l p0 p1 q0 q1) (S k) = Some (p', q') -> Z.abs (A * q - B * p) * q' <= B.
Proof.
  intros A B l a0 b0 p0 p1 q0 q1 H. revert p0 p1 q0 q1.
  assert (base : forall a b p0 p1 q0 q1, 0 < b -> 0 <= a -> st_inv A B a b p0 p1 q0 q1 ->
            Z.abs (A * q1 - B * p1) * (a / b * q1 + q0) <= B).
  { intros a b p0 p1 q0 q1 Hb Ha HI.
    pose proof (st_inv_step _ _ _ _ _ _ _ _ Hb Ha HI) as (HA & HB & HD & P1 & P2 & P3 & P4).
    destruct HI as (HA0 & HB0 & HD0 & _). apply det_sq_cases in HD0.
    assert (Z.abs (A * q1 - B * p1) = b) as ->.
    { replace (A * q1 - B * p1) with (- b * (p1 * q0 - p0 * q1)) by (rewrite HA0, HB0; ring).
      rewrite Z.abs_mul. destruct HD0 as [E|E]; rewrite E; lia. }
    pose proof (Z.mod_pos_bound a b Hb).
    assert (0 <= a mod b * q1) by (apply Z.mul_nonneg_nonneg; lia). lia. }
  induction H; intros p0 p1 q0 q1 Ha HI; cbn [zconv].
  - cbn [hd snd]. split; [apply (base a b p0 p1 q0 q1); assumption|]. intros [|[|k]] p q p' q' E E'; discriminate.
  - cbn [hd snd]. split; [apply (base a b p0 p1 q0 q1); assumption|]. intros k p q p' q' E E'.
    destruct (IHcf_digits p1 (a / b * p1 + p0) q1 (a / b * q1 + q0)) as [I1 I2]; [lia|now apply st_inv_step|].
    destruct k as [|k].
    + cbn [nth_error] in E. injection E as <- <-. cbn [nth_error] in E'.
      destruct (zconv l p1 (a / b * p1 + p0) q1 (a / b * q1 + q0)) as [|z zs] eqn:EZ; [discriminate|].
      cbn [nth_error] in E'. injection E' as ->. exact I1.
    + cbn [nth_error] in E, E'. eapply I2; eassumption.
Qed.

(** ** Legendre's criterion *)
Lemma best_second_kind A B b0 rem p1 q1 pn qn s r :
  (p1 * qn - pn * q1) * (p1 * qn - pn * q1) = 1 ->
  A = b0 * pn + rem * p1 -> B = b0 * qn + rem * q1 -> 0 <= rem -> 0 < b0 ->
  0 <= q1 -> 1 <= r -> r < qn -> s * q1 <> r * p1 ->
  b0 <= Z.abs (A * r - B * s).
Proof.
  intros HD HA HB Hr Hb Hq1 Hr1 Hrq Hne. apply det_sq_cases in HD.
  (* s = u pn + v p1, r = u qn + v q1 *)
  set (e := p1 * qn - pn * q1) in *.
  set (u := e * (r * p1 - s * q1)). set (v := e * (s * qn - r * pn)).
  assert (E2 : e * e = 1) by (destruct HD as [->| ->]; reflexivity).
  assert (Es : s = u * pn + v * p1).
  { unfold u, v. transitivity (e * e * s); [rewrite E2; ring|]. unfold e. ring. }
  assert (Er : r = u * qn + v * q1).
  { unfold u, v. transitivity (e * e * r); [rewrite E2; ring|]. unfold e. ring. }
  assert (Hu : u <> 0).
  { unfold u. destruct HD as [->| ->]; lia. }
  assert (EE : A * r - B * s = e * (rem * u - b0 * v)).
  { rewrite HA, HB. rewrite Es, Er at 1. unfold e. ring. }
  rewrite EE, Z.abs_mul. replace (Z.abs e) with 1 by (destruct HD as [->| ->]; reflexivity).
  rewrite Z.mul_1_l.
  clearbody u v e. clear EE Es Hne HA HB E2.
  destruct (Z.lt_trichotomy u 0) as [U|[U|U]]; [|lia|].
  - (* u < 0: v > 0 *)
    assert (0 < v) by nia. rewrite Z.abs_neq; nia.
  - assert (v < 0) by nia. rewrite Z.abs_eq; nia.
Qed.

Lemma coprime_cross_eq s r p q : Z.gcd s r = 1 -> Z.gcd p q = 1 -> 0 < r -> 0 <= q -> s * q = r * p -> (s, r) = (p, q).
Proof.
  intros G1 G2 Hr Hq E.
  assert (D1 : (r | q)).
  { apply Z.gauss with s; [exists p; lia|]. rewrite Z.gcd_comm. exact G1. }
  assert (D2 : (q | r)).
  { apply Z.gauss with p; [exists s; lia|]. rewrite Z.gcd_comm. exact G2. }
  assert (r = q). { apply Z.divide_antisym_nonneg; lia || assumption. }
  subst q. f_equal. nia.
Qed.

Lemma legendre_core : forall A B s r l a0 b0 p0 p1 q0 q1, cf_digits a0 b0 l -> 0 <= a0 ->
  st_inv A B a0 b0 p0 p1 q0 q1 -> 0 < B -> 1 <= r -> Z.gcd s r = 1 -> q1 <= r -> Z.gcd p1 q1 = 1 ->
  2 * r * Z.abs (A * r - B * s) < B ->
  (s, r) = (p1, q1) \/ In (s, r) (zconv l p0 p1 q0 q1).
Proof.
  intros A B s r l a0 b0 p0 p1 q0 q1 H. revert p0 p1 q0 q1.
  assert (common : forall a b p0 p1 q0 q1, 0 < b -> 0 <= a -> st_inv A B a b p0 p1 q0 q1 -> 1 <= r -> Z.gcd s r = 1 ->
     q1 <= r -> Z.gcd p1 q1 = 1 -> 2 * r * Z.abs (A * r - B * s) < B -> r < a / b * q1 + q0 -> (s, r) = (p1, q1)).
  { intros a b p0 p1 q0 q1 Hb Ha HI Hr G Hq G1 HE HL.
    destruct (Z.eq_dec (s * q1) (r * p1)) as [E|E].
    - destruct HI as (_ & _ & _ & _ & _ & _ & Hq1). apply coprime_cross_eq; try assumption; lia.
    - exfalso. pose proof (st_inv_step _ _ _ _ _ _ _ _ Hb Ha HI) as (HA & HB & HD & P1 & P2 & P3 & P4).
      pose proof (Z.mod_pos_bound a b Hb) as M.
      pose proof (best_second_kind A B b (a mod b) p1 q1 (a / b * p1 + p0) (a / b * q1 + q0) s r) as K.
      specialize (K ltac:(rewrite <- HD; ring) HA HB ltac:(lia) Hb ltac:(lia) Hr HL E).
      destruct HI as (HA0 & HB0 & HD0 & ? & ? & ? & ?). apply det_sq_cases in HD0.
      assert (EB : Z.abs (A * q1 - B * p1) = b).
      { replace (A * q1 - B * p1) with (- b * (p1 * q0 - p0 * q1)) by (rewrite HA0, HB0; ring).
        rewrite Z.abs_mul. destruct HD0 as [E'|E']; rewrite E'; lia. }
      assert (S1 : B <= Z.abs (B * (s * q1 - r * p1))).
      { rewrite Z.abs_mul. assert (1 <= Z.abs (s * q1 - r * p1)) by lia.
        assert (0 <= B). { rewrite HB0. apply Z.add_nonneg_nonneg; apply Z.mul_nonneg_nonneg; lia. }
        rewrite (Z.abs_eq B) by lia. rewrite <- (Z.mul_1_r B) at 1. apply Z.mul_le_mono_nonneg_l; assumption. }
      replace (B * (s * q1 - r * p1)) with (- q1 * (A * r - B * s) + r * (A * q1 - B * p1)) in S1 by ring.
      pose proof (Z.abs_triangle (- q1 * (A * r - B * s)) (r * (A * q1 - B * p1))) as T.
      rewrite !Z.abs_mul, EB in T. rewrite Z.abs_opp, (Z.abs_eq q1), (Z.abs_eq r) in T by lia.
      set (e := Z.abs (A * r - B * s)) in *. clearbody e.
      assert (q1 * e <= r * e) by (apply Z.mul_le_mono_nonneg_r; lia).
      assert (r * b <= r * e) by (apply Z.mul_le_mono_nonneg_l; lia). lia. }
  induction H; intros p0 p1 q0 q1 Ha HI HB Hr G Hq G1 HE; cbn [zconv In].
  - destruct (Z.lt_ge_cases r (a / b * q1 + q0)) as [L|L]; [left; apply (common a b p0 p1 q0 q1); assumption|].
    right. left. symmetry. pose proof (st_inv_step _ _ _ _ _ _ _ _ H Ha HI) as (HA & HB' & HD & P1 & P2 & P3 & P4).
    rewrite H0 in HA, HB'. set (pn := a / b * p1 + p0) in *. set (qn := a / b * q1 + q0) in *.
    assert (Gn : Z.gcd pn qn = 1) by (eapply det_gcd; exact HD).
    assert (EE : A * r - B * s = b * (pn * r - qn * s)) by (rewrite HA, HB'; ring).
    rewrite EE, Z.abs_mul, (Z.abs_eq b) in HE by lia.
    destruct (Z.eq_dec (pn * r - qn * s) 0) as [E|E].
    + apply coprime_cross_eq; try assumption; lia.
    + exfalso. assert (1 <= Z.abs (pn * r - qn * s)) by lia.
      set (z := Z.abs (pn * r - qn * s)) in *. clearbody z.
      assert (b * qn <= b * r) by (apply Z.mul_le_mono_nonneg_l; lia).
      assert (b * r * 1 <= b * r * z) by (apply Z.mul_le_mono_nonneg_l; [apply Z.mul_nonneg_nonneg|]; lia). lia.
  - destruct (Z.lt_ge_cases r (a / b * q1 + q0)) as [L|L]; [left; apply (common a b p0 p1 q0 q1); assumption|].
    pose proof (st_inv_step _ _ _ _ _ _ _ _ H Ha HI) as HI'.
    right. destruct (IHcf_digits p1 (a / b * p1 + p0) q1 (a / b * q1 + q0)) as [C|C]; try assumption; try lia.
    + destruct HI' as (_ & _ & HD & _). eapply det_gcd; exact HD.
    + left. symmetry. exact C.
    + right. exact C.
Qed.

(** ** Refinement of the BigInteger loop *)
Definition digit_ok (x : Z) : Prop := forall i : nat, (x / (2 ^ 32) ^ Z.of_nat i) mod 2 ^ 32 <= 2 ^ 32 - 4.
Definition vals (l : list (list Z * list Z)) : list (Z * Z) := map (fun '(p, q) => (value p, value q)) l.

Definition cut (mt : option nat) (k : nat) (len : nat) : nat :=
  match mt with None => len | Some m => Nat.min (Nat.max 1 (m - k)) len end.

Lemma div_exact u v : wf u -> wf v -> length u = length v -> 0 < value v ->
  value v < 2 ^ 32 \/ digit_ok (value u / value v) ->
  exists r q, floordiv u v = Some q /\ modulo u v = Some r /\ wf r /\ wf q /\ length r = length u /\ length q = length u /\
    value q = value u / value v /\ value r = value u mod value v.
Proof.
  intros Hu Hv Hl Hp Hd.
  assert (exists r q, remainder_division u v = Some (r, q) /\ wf r /\ wf q /\ length r = length u /\ length q = length u /\
    value q = value u / value v /\ value r = value u mod value v) as (r & q & E & R).
  { destruct Hd as [Hd|Hd]; [apply div_single; auto|apply div_digits; auto]. }
  exists r, q. unfold floordiv, modulo. rewrite E. cbn. tauto.
Qed.

Lemma mac_exact q p1 p0 n A : wf q -> wf p1 -> wf p0 -> length q = n -> length p1 = n -> length p0 = n ->
  value q * value p1 + value p0 <= A -> A < cap n ->
  wf (add (mul q p1) p0) /\ length (add (mul q p1) p0) = n /\ value (add (mul q p1) p0) = value q * value p1 + value p0.
Proof.
  intros Hq H1 H0 Lq L1 L0 HA HC.
  assert (Lm : length (mul q p1) = n) by (rewrite mul_length by congruence; exact Lq).
  pose proof (mul_wf q p1 Hq H1 ltac:(congruence)) as Wm.
  pose proof (value_bound _ Hq). pose proof (value_bound _ H1). pose proof (value_bound _ H0).
  assert (0 <= value q * value p1) by (apply Z.mul_nonneg_nonneg; lia).
  split; [apply add_wf; assumption|]. split; [rewrite add_length; exact Lm|].
  rewrite add_value by congruence. rewrite Lm, mul_value by congruence. rewrite Lq.
  rewrite (Z.mod_small (value q * value p1)) by lia. apply Z.mod_small. lia.
Qed.

Lemma conv_loop_correct : forall A B n mt ds a0v b0v, cf_digits a0v b0v ds ->
  forall bi0 a0 b0 p0 p1 q0 q1 k fuel,
  wf a0 -> wf b0 -> wf p0 -> wf p1 -> wf q0 -> wf q1 -> wf bi0 ->
  length a0 = n -> length b0 = n -> length p0 = n -> length p1 = n -> length q0 = n -> length q1 = n -> length bi0 = n ->
  value bi0 = 0 -> value a0 = a0v -> value b0 = b0v ->
  st_inv A B a0v b0v (value p0) (value p1) (value q0) (value q1) ->
  A < cap n -> B < cap n -> (b0v < 2 ^ 32 \/ Forall digit_ok ds) -> (length ds <= fuel)%nat ->
  exists out, conv_loop fuel bi0 mt k a0 b0 p0 p1 q0 q1 = Ok out /\
    Forall (fun '(p, q) => wf p /\ wf q /\ length p = n /\ length q = n) out /\
    vals out = firstn (cut mt k (length ds)) (zconv ds (value p0) (value p1) (value q0) (value q1)).
Proof.
  intros A B n mt ds a0v b0v HC.
  induction HC; intros bi0 a0 b0 p0 p1 q0 q1 k fuel Wa Wb W0 W1 V0 V1 Wz La Lb L0 L1 M0 M1 Lz Ez Ea Eb HI HA HB HD HF.
  - destruct fuel as [|fuel]; [cbn in HF; lia|].
    destruct (div_exact a0 b0 Wa Wb ltac:(congruence)) as (r & q & E1 & E2 & Wr & Wq & Lr & Lq & Vq & Vr).
    { lia. } { rewrite Ea, Eb. destruct HD as [HD|HD]; [now left|right]. now inversion HD. }
    pose proof (value_bound _ Wa) as Ba.
    pose proof (st_bound A B a b _ _ _ _ H ltac:(lia) HI) as [S1 S2].
    destruct (mac_exact q p1 p0 n A Wq W1 W0 ltac:(congruence) L1 L0) as (X1 & X2 & X3).
    { rewrite Vq, Ea, Eb. exact S1. } { exact HA. }
    destruct (mac_exact q q1 q0 n B Wq V1 V0 ltac:(congruence) M1 M0) as (Y1 & Y2 & Y3).
    { rewrite Vq, Ea, Eb. exact S2. } { exact HB. }
    cbn [conv_loop]. rewrite E1, E2. cbn [of_opt bind]. rewrite eq_value by congruence.
    rewrite Ez, Vr, Ea, Eb, H0. cbn [Z.eqb of_opt bind ocons].
    eexists. split; [reflexivity|]. split; [apply Forall_cons; [tauto|apply Forall_nil]|].
    cbn [vals map zconv length]. rewrite X3, Y3, Vq, Ea, Eb.
    assert (cut mt k 1 = 1%nat) as -> by (unfold cut; destruct mt; lia). reflexivity.
  - destruct fuel as [|fuel]; [cbn in HF; lia|].
    destruct (div_exact a0 b0 Wa Wb ltac:(congruence)) as (r & q & E1 & E2 & Wr & Wq & Lr & Lq & Vq & Vr).
    { lia. } { rewrite Ea, Eb. destruct HD as [HD|HD]; [now left|right]. now inversion HD. }
    pose proof (value_bound _ Wa) as Ba.
    pose proof (st_bound A B a b _ _ _ _ H ltac:(lia) HI) as [S1 S2].
    destruct (mac_exact q p1 p0 n A Wq W1 W0 ltac:(congruence) L1 L0) as (X1 & X2 & X3).
    { rewrite Vq, Ea, Eb. exact S1. } { exact HA. }
    destruct (mac_exact q q1 q0 n B Wq V1 V0 ltac:(congruence) M1 M0) as (Y1 & Y2 & Y3).
    { rewrite Vq, Ea, Eb. exact S2. } { exact HB. }
    cbn [conv_loop]. rewrite E1, E2. cbn [of_opt bind]. rewrite eq_value by congruence.
    rewrite Ez, Vr, Ea, Eb. rewrite (proj2 (Z.eqb_neq _ _) H0). cbn [of_opt bind].
    destruct (IHHC bi0 b0 r p1 (add (mul q p1) p0) q1 (add (mul q q1) q0) (S k) fuel) as (out & O1 & O2 & O3);
      try assumption; try congruence.
    { rewrite X3, Y3, Vq, Ea, Eb. apply st_inv_step; [exact H|lia|exact HI]. }
    { destruct HD as [HD|HD]; [left|right; now inversion HD]. pose proof (Z.mod_pos_bound a b H). lia. }
    { cbn in HF. lia. }
    assert (Hc : vals ((add (mul q p1) p0, add (mul q q1) q0) :: out) =
      firstn (S (cut mt (S k) (length l))) (zconv (a / b :: l) (value p0) (value p1) (value q0) (value q1))).
    { cbn [zconv firstn vals map]. rewrite X3, Y3, Vq, Ea, Eb. f_equal. unfold vals in O3. rewrite O3, X3, Y3, Vq, Ea, Eb. reflexivity. }
    assert (LL : (1 <= length l)%nat) by (inversion HC; subst; cbn; lia).
    destruct mt as [m|].
    + destruct (Nat.leb_spec m (S k)) as [C|C].
      * cbn [ocons bind]. eexists. split; [reflexivity|]. split; [apply Forall_cons; [tauto|apply Forall_nil]|].
        cbn [vals map zconv length]. rewrite X3, Y3, Vq, Ea, Eb.
        assert (cut (Some m) k (S (length l)) = 1%nat) as -> by (unfold cut; lia). reflexivity.
      * rewrite O1. cbn [ocons bind]. eexists. split; [reflexivity|]. split; [apply Forall_cons; tauto|].
        rewrite Hc. f_equal. unfold cut. cbn [length]. lia.
    + rewrite O1. cbn [ocons bind]. eexists. split; [reflexivity|]. split; [apply Forall_cons; tauto|]. exact Hc.
Qed.

Lemma firstn_seq_map {A} (f : nat -> A) m len : firstn m (map f (seq 0 len)) = map f (seq 0 (Nat.min m len)).
Proof.
  rewrite firstn_map. f_equal. generalize 0%nat. revert len.
  induction m; intros len s; [reflexivity|]. destruct len; [reflexivity|]. cbn [seq firstn Nat.min]. f_equal. apply IHm.
Qed.

Lemma convergents_correct a b ds mt fuel : wf a -> wf b -> length a = length b -> 0 < value b ->
  cf_digits (value a) (value b) ds -> value b < 2 ^ 32 \/ Forall digit_ok ds -> (length ds <= fuel)%nat ->
  exists out, bi_contfrac_convergents fuel a b mt = Ok out /\
    Forall (fun '(p, q) => wf p /\ wf q /\ length p = length a /\ length q = length a) out /\
    vals out = map (convergent ds) (seq 0 (cut mt 0 (length ds))).
Proof.
  intros Wa Wb L Hb HC HD HF.
  pose proof (value_bound _ Wa) as Ba. pose proof (value_bound _ Wb) as Bb.
  assert (V1 : value (create 1 (length a)) = 1).
  { rewrite create_value. apply Z.mod_small. rewrite L. lia. }
  assert (V0 : value (create 0 (length a)) = 0).
  { rewrite create_value. apply Z.mod_0_l. pose proof (cap_pos (length a)). lia. }
  destruct (conv_loop_correct (value a) (value b) (length a) mt ds _ _ HC (create 0 (length a)) a b
     (create 0 (length a)) (create 1 (length a)) (create 1 (length a)) (create 0 (length a)) 0%nat fuel)
    as (out & O1 & O2 & O3); try assumption; try apply create_wf; try apply create_length; try reflexivity; try congruence.
  { rewrite V0, V1. apply st_inv_init. } { lia. } { rewrite L. lia. }
  exists out. split; [|split; [exact O2|]].
  - unfold bi_contfrac_convergents. rewrite L, Nat.eqb_refl. cbn [negb].
    rewrite <- L. rewrite ne_value by (try assumption; try apply create_wf; rewrite create_length; congruence).
    rewrite V0. rewrite (proj2 (Z.eqb_neq _ _)) by lia. cbn [negb of_opt bind]. exact O1.
  - rewrite O3, V0, V1, zconv_spec, firstn_seq_map. f_equal. f_equal. unfold cut. destruct mt; lia.
Qed.

Lemma convergents_all a b ds : cf_digits (value a) (value b) ds ->
  map (convergent ds) (seq 0 (cut None 0 (length ds))) = zconv ds 0 1 1 0.
Proof. intros. now rewrite zconv_spec. Qed.

Lemma best_approx_TypeError a b d : wf a -> wf b -> length a = length b -> 0 < value b ->
  (forall e, d = Some e -> length e = length a) -> bi_contfrac_best_approx a b d = TypeError.
Proof.
  intros Wa Wb L Hb Hd. unfold bi_contfrac_best_approx. rewrite L, Nat.eqb_refl. cbn [negb]. rewrite <- L.
  rewrite ne_value by (try assumption; try apply create_wf; rewrite create_length; congruence).
  rewrite create_value, Z.mod_0_l by (pose proof (cap_pos (length a)); lia).
  rewrite (proj2 (Z.eqb_neq _ _)) by lia. cbn [negb of_opt bind].
  destruct d as [e|]; [|reflexivity]. rewrite (Hd e eq_refl), Nat.eqb_refl. reflexivity.
Qed.
