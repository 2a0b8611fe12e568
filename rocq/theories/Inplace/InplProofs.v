(** Values after bit shifts and in-place multiplications. *)
From Coq Require Import List ZArith Bool Lia Arith QArith Qround Qcanon Ring Ring_theory Permutation.
Import ListNotations.
From Verif.Iterables Require Import IterModel IterSpec IterProofs ShiftProofs.
From Verif.Inverse Require Import InvModel InvSpec InvProofs.
From Verif.CtrlOps Require Import CtrlModel CtrlSpec CtrlProofs.
From Verif.Fourier Require Import FourierModel FourierSpec RegProofs FourierProofs FourierFinal.
From Verif.QFloat Require Import QFModel QFSpec QFProofs.
From Verif.Sbp Require Import SbpSpec NumProofs CircProofs.
From Verif.Inplace Require Import InplModel InplSpec MultProofs SwapProofs BitShiftProofs.
Local Open Scope nat_scope.
Local Notation value := FourierSpec.value.

Lemma grown_perm (L T new fresh rest q' : list nat) x : supply (L ++ T) fresh x -> fresh = new ++ rest -> Permutation q' (L ++ new ++ T) -> grown (L ++ T) q' fresh /\ supply q' rest x /\ register q' x.
Proof.
  intros [[N LX] Z] E P. rewrite E in N, LX. assert (PP : Permutation (q' ++ rest) ((L ++ T) ++ new ++ rest)).
  { rewrite P. rewrite !app_assoc. apply Permutation_app_tail. rewrite <- !app_assoc. apply Permutation_app_head, Permutation_app_comm. }
  assert (N' : NoDup (q' ++ rest)) by (apply (Permutation_NoDup (l := (L ++ T) ++ new ++ rest)); [symmetry; exact PP|exact N]).
  assert (IQ : forall p, In p q' <-> In p (L ++ new ++ T)) by (intros p; split; apply Permutation_in; [exact P|symmetry; exact P]).
  split; [|split].
  - split; [apply NoDup_app_remove_r in N'; exact N'|]. split; [intros p I; apply IQ|intros p I; apply IQ in I; rewrite E]; rewrite !in_app_iff in *; tauto.
  - split; [split; [exact N'|]|]. { intros p I. apply LX. apply (Permutation_in _ PP). exact I. } intros p I. apply Z. rewrite E. apply in_app_iff. auto.
  - split; [apply NoDup_app_remove_r in N'; exact N'|]. intros p I. apply LX. apply (Permutation_in _ PP). apply in_app_iff. auto.
Qed.
Lemma holds_eq f x q z : (inject_Z (mantissa f (value x q)) * pw (expo f) == z)%Q -> (holds f x q == z)%Q.
Proof. intros H. exact H. Qed.
Lemma app_bits (a b c : list bool) : number (a ++ b ++ c) = (number a + 2 ^ Z.of_nat (length a) * (number b + 2 ^ Z.of_nat (length b) * number c))%Z.
Proof. rewrite !number_app. ring. Qed.
Lemma pw_nat k : (inject_Z (2 ^ Z.of_nat k) == pw (Z.of_nat k))%Q.
Proof. symmetry. apply pw_Z. lia. Qed.

Lemma mantissa_mod f c : ((mantissa f c) mod 2 ^ Z.of_nat (size f) = c mod 2 ^ Z.of_nat (size f))%Z.
Proof.
  unfold mantissa. destruct (signed f); [|reflexivity]. destruct (c <? _)%Z; [reflexivity|]. rewrite <- (Z_mod_plus_full c (-1)). f_equal.
Qed.
Lemma mult_mantissa f m v : in_range f (m * mantissa f v) -> mantissa f ((m * v) mod 2 ^ Z.of_nat (size f)) = (m * mantissa f v)%Z.
Proof.
  intros H. destruct (code_of f _ H) as [_ E]. transitivity (mantissa f ((m * mantissa f v) mod 2 ^ Z.of_nat (size f))%Z); [|exact E]. apply f_equal. rewrite Zmult_mod, <- (mantissa_mod f v), <- Zmult_mod. reflexivity.
Qed.
Lemma odd_bound m : Z.odd m = true -> (1 < Z.abs m -> Z.abs m < 2 ^ Z.log2_up (Z.abs m))%Z.
Proof.
  intros O H. destruct (Z.log2_up_spec _ H) as [_ B]. assert (NE : Z.abs m <> (2 ^ Z.log2_up (Z.abs m))%Z); [|lia]. intros E.
  assert (OA : Z.odd (Z.abs m) = true) by (destruct (Z.abs_eq_or_opp m) as [->| ->]; [exact O|rewrite Z.odd_opp; exact O]).
  assert (P : (0 < Z.log2_up (Z.abs m))%Z) by (apply Z.log2_up_pos; exact H). rewrite E in OA.
  replace (2 ^ Z.log2_up (Z.abs m))%Z with (2 * 2 ^ (Z.log2_up (Z.abs m) - 1))%Z in OA by (rewrite <- Z.pow_succ_r by lia; f_equal; lia). rewrite Z.odd_mul in OA. discriminate.
Qed.
Lemma agree_trans (q q' : list nat) x y z : incl q q' -> agree_outside q x y -> agree_outside q' y z -> agree_outside q' x z.
Proof. intros I [A B] [C D]. split; [lia|]. intros p N. rewrite D by exact N. apply B. intros J. apply N, I, J. Qed.
Lemma grown_trans (q q1 q2 fresh rest : list nat) : grown q q1 fresh -> grown q1 q2 rest -> incl rest fresh -> grown q q2 fresh.
Proof. intros (A & B & C) (D & E & F) I. split; [exact D|]. split; [intros p J; apply E, B, J|]. intros p J. destruct (F p J) as [K|K]; [exact (C p K)|right; apply I, K]. Qed.
Lemma combine_repeat {A B} (c : A) (l : list B) : combine (repeat c (length l)) l = map (fun t => (c, t)) l.
Proof. induction l as [|b l IH]; [reflexivity|]. cbn. rewrite IH. reflexivity. Qed.
Lemma read_repeat x c n : read x (repeat c n) = repeat (getbit x c) n.
Proof. unfold read. induction n as [|n IH]; [reflexivity|]. cbn. rewrite IH. reflexivity. Qed.
Lemma supply_agree q rest x y : supply q rest x -> agree_outside q x y -> supply q rest y.
Proof.
  intros [[N L] Z] [A B]. split; [split; [exact N|]; intros p I; rewrite A; auto|]. intros p I. rewrite B; [auto|]. intros J. apply in_split in J as (a & b & ->). rewrite <- app_assoc in N. cbn [app] in N. apply NoDup_remove_2 in N. apply N. rewrite !in_app_iff. auto.
Qed.
Lemma app_inj_1 {A} : forall a a' b b' : list A, length a = length a' -> a ++ b = a' ++ b' -> a = a' /\ b = b'.
Proof. induction a as [|u a IH]; intros [|v a'] b b' L E; try discriminate; [auto|]. injection E as -> E. injection L as L. destruct (IH _ _ _ L E) as [-> ->]. auto. Qed.

Section ring.
Context {R : Type} (rO rI : R) (radd rmul rsub : R -> R -> R) (ropp : R -> R) (RT : ring_theory rO rI radd rmul rsub ropp eq).
Context (expi chalf shalf : Qc -> R) (im : R).
Context (EU : euler rO rI radd rmul ropp expi chalf shalf im).
Add Ring rr8 : RT.
Notation effect := (effect Qcplus rO rI radd rmul ropp expi chalf shalf im).
Notation run := (run_circuit Qcplus rO rI radd rmul ropp expi chalf shalf im).
Notation moves := (moves rO rI radd rmul ropp expi chalf shalf im).
Notation moves_app := (moves_app rO rI radd rmul ropp expi chalf shalf im).
Notation moves_swaps := (moves_swaps rO rI radd rmul rsub ropp RT expi chalf shalf im).
Local Notation amp := (list bool -> R).

(** mantissa after a shift *)
Lemma shift_value f q s fresh f' q' c rest x : length q = size f -> quantum_bit_shift f q s true fresh = Some (f', q', c, rest) -> supply q fresh x -> (signed f = true -> 0 <= s)%Z ->
  exists y, moves c x y /\ agree_outside q' x y /\ grown q q' fresh /\ supply q' rest x /\ length q' = size f' /\ (holds f' y q' == holds f x q * pw s)%Q /\
    exists ids sw, c = swap_gates sw /\ within ids sw /\ incl ids q' /\ y = swapped sw x.
Proof.
  intros Lq H SU SG. destruct (shift_bits_ok _ _ _ _ _ _ _ _ Lq H) as (L & T & new & sw & EQ & LL & LT & FR & LN & EC & W & EF & EQ' & D). destruct (D x SU) as (LY & OUT & RD). clear D. subst q.
  assert (P : Permutation q' (L ++ new ++ T)). { rewrite EQ'. destruct (0 <? s)%Z; [reflexivity|]. rewrite !app_assoc. apply Permutation_app_tail, Permutation_app_comm. }
  destruct (grown_perm _ _ _ _ _ _ _ SU FR P) as (G1 & G2 & [G3 G4]).
  assert (IQ : forall p, In p (L ++ new) -> In p q'). { intros p I. apply (Permutation_in _ (Permutation_sym P)). rewrite !in_app_iff in *. tauto. }
  exists (swapped sw x). split; [rewrite EC; apply (moves_swaps (L ++ new)); [exact W|]; intros p I; apply G4, IQ, I|]. split; [split; [exact LY|]; intros p I; apply OUT; intros J; apply I, IQ, J|]. split; [exact G1|]. split; [exact G2|].
  split. { rewrite (Permutation_length P), !app_length, LL, LN, EF. unfold size. cbn [msize signed]. destruct (signed f); lia. }
  split; [|exists (L ++ new), sw; split; [exact EC|split; [exact W|split; [exact IQ|reflexivity]]]].
  apply holds_eq. unfold value at 1. rewrite RD. unfold holds, QFSpec.value, value at 1. rewrite read_app. set (k := Z.to_nat (Z.abs s)) in *. clear RD.
  destruct (signed f) eqn:S.
  - specialize (SG eq_refl). destruct T as [|t [|]]; try discriminate. cbn [read map]. rewrite (mant_signed f) by (rewrite ?read_length; assumption).
    rewrite EF. destruct (0 <? s)%Z eqn:SS.
    + apply Z.ltb_lt in SS. rewrite (mant_signed (mk _ _ _)) by (cbn [signed msize]; rewrite ?app_length, ?repeat_length, ?read_length; auto; lia). cbn [msize expo signed]. rewrite number_app, number_zeros, repeat_length.
      rewrite Nat2Z.inj_add, Z.pow_add_r by lia. replace (0 + 2 ^ Z.of_nat k * number (read x L) - 2 ^ Z.of_nat (msize f) * 2 ^ Z.of_nat k * b2z (getbit x t))%Z with ((number (read x L) - 2 ^ Z.of_nat (msize f) * b2z (getbit x t)) * 2 ^ Z.of_nat k)%Z by ring.
      rewrite inject_Z_mult, pw_nat. replace (Z.of_nat k) with s by (unfold k; lia). ring.
    + apply Z.ltb_ge in SS. assert (s = 0)%Z as -> by lia. cbn in k. unfold k. cbn [repeat]. rewrite app_nil_r, (mant_signed (mk _ _ _)) by (cbn [signed msize]; rewrite ?read_length; auto; lia). cbn [msize expo]. rewrite Nat.add_0_r, Z.add_0_r. change (pw 0) with 1%Q. ring.
  - destruct T; [|discriminate]. cbn [read map]. rewrite !app_nil_r, !mant_unsigned by (rewrite ?EF; auto). rewrite EF. destruct (0 <? s)%Z eqn:SS; cbn [expo].
    + apply Z.ltb_lt in SS. rewrite number_app, number_zeros, repeat_length, Z.add_0_l, inject_Z_mult, pw_nat. replace (Z.of_nat k) with s by (unfold k; lia). unfold read. ring.
    + rewrite number_app, number_zeros, Z.mul_0_r, Z.add_0_r, pw_add. unfold read. ring.
Qed.

Lemma moves_fan c ts x : NoDup ts -> ~ In c ts -> (forall q, In q ts -> q < length x) -> (forall q, In q ts -> getbit x q = false) ->
  moves (map (fun t => qCX c t) ts) x (write x ts (repeat (getbit x c) (length ts))).
Proof.
  intros N C L Z psi. pose proof (run_copy rO rI radd rmul rsub ropp RT expi chalf shalf im (repeat c (length ts)) ts psi x N L) as H.
  rewrite combine_repeat, map_map, repeat_length, Nat.sub_diag, read_repeat, app_nil_r in H. apply H; auto. intros q I. apply repeat_spec in I as ->. exact C.
Qed.
Lemma odd_value f q m fresh f1 q1 c rest x : length q = size f -> (0 < size f) -> odd_mult f q m true fresh = Some (f1, q1, c, rest) -> Z.odd m = true -> supply q fresh x ->
  (signed f = true -> m = -1 -> mantissa f (value x q) <> - 2 ^ Z.of_nat (msize f))%Z ->
  (signed f = false -> (0 < m)%Z /\ (m = 1%Z \/ getbit x (last q 0) = false)) ->
  exists y, moves c x y /\ agree_outside q1 x y /\ grown q q1 fresh /\ supply q1 rest y /\ incl rest fresh /\ length q1 = size f1 /\ signed f1 = signed f /\ (holds f1 y q1 == inject_Z m * holds f x q)%Q.
Proof.
  intros Lq SZ H OM SU HS HU. unfold odd_mult in H. destruct (Z.eqb_spec m 1) as [->|M1].
  { injection H as <- <- <- <-. exists x. repeat split; auto; try apply SU; try (apply moves_nil). - destruct SU as [[N _] _]. apply NoDup_app_remove_r in N. exact N. - intros p I. exact I. - intros p I. exact I. - change (inject_Z 1) with 1%Q. ring. }
  set (k := Z.to_nat (Z.log2_up (Z.abs m))) in *. destruct (Nat.ltb_spec (length fresh) k) as [|LF]; [discriminate|]. set (new := firstn k fresh) in *. assert (LN : length new = k) by (unfold new; rewrite firstn_length; lia).
  assert (FR : fresh = new ++ skipn k fresh) by (unfold new; symmetry; apply firstn_skipn). set (rs := skipn k fresh) in *.
  assert (exists L t, q = L ++ [t] /\ S (length L) = size f) as (L & t & -> & LL).
  { destruct (exists_last (l := q)) as (L & t & E); [intros ->; cbn in Lq; lia|]. exists L, t. split; [exact E|]. rewrite E, app_length in Lq. cbn in Lq. lia. }
  assert (EX : extend (L ++ [t]) (size f - 1) new = L ++ new ++ [t]). { unfold extend. replace (size f - 1) with (length L) by lia. rewrite firstn_app, skipn_app, firstn_all, skipn_all, Nat.sub_diag. cbn [firstn skipn app]. rewrite app_nil_r. reflexivity. }
  rewrite EX in H. set (q2 := L ++ new ++ [t]) in *. unfold QFT_inpl_mult in H. rewrite OM in H. injection H as <- <- <- <-.
  destruct (grown_perm L [t] new fresh rs q2 x SU FR (Permutation_refl _)) as (G1 & G2 & G3).
  assert (T : last q2 0 = t) by (unfold q2; rewrite app_assoc; apply last_last). rewrite T.
  assert (K : (Z.abs m < 2 ^ Z.of_nat k \/ m = -1 /\ k = 0%nat)%Z). { unfold k. rewrite Z2Nat.id by apply Z.log2_up_nonneg. destruct (Z.eq_dec m (-1)) as [->|NM]; [right; split; [lia|reflexivity]|left; apply odd_bound; [exact OM|]]. assert (m <> 0)%Z by (intros ->; discriminate). lia. }
  assert (ZN : forall p, In p new -> getbit x p = false) by (intros p I; apply SU; rewrite FR; apply in_app_iff; auto).
  assert (NT : ~ In t new /\ ~ In t L /\ NoDup new /\ forall p, In p new -> ~ In p L).
  { destruct G3 as [N _]. unfold q2 in N. assert (N2 : ~ In t (L ++ new)) by (pose proof N as N3; rewrite app_assoc in N3; apply NoDup_remove_2 in N3; rewrite app_nil_r in N3; exact N3).
    split; [|split; [|split]].
    - intros I. apply N2, in_app_iff. auto.
    - intros I. apply N2, in_app_iff. auto.
    - apply NoDup_app_remove_l in N. apply NoDup_app_remove_r in N. exact N.
    - intros p I J. apply in_split in J as (a & b & ->). rewrite <- app_assoc in N. cbn [app] in N. apply NoDup_remove_2 in N. apply N. rewrite !in_app_iff. auto. }
  destruct NT as (NT & NL & NN & ND).
  set (x1 := if signed f then write x new (repeat (getbit x t) (length new)) else x).
  assert (L1 : length x1 = length x) by (unfold x1; destruct (signed f); [apply write_length|reflexivity]).
  assert (M0 : moves (if signed f then map (fun t0 => qCX t t0) new else []) x x1).
  { unfold x1. destruct (signed f); [|apply moves_nil]. apply moves_fan; auto. intros p I. apply G3. unfold q2. rewrite !in_app_iff. auto. }
  assert (R1 : register q2 x1) by (apply (register_length _ x); [lia|exact G3]).
  assert (A1 : agree_outside q2 x x1). { unfold x1. split; [exact L1|]. intros p I. destruct (signed f); [|reflexivity]. apply write_other. intros J. apply I. unfold q2. rewrite !in_app_iff. auto. }
  set (y := store x1 q2 (m * value x1 q2)).
  assert (A2 : agree_outside q2 x1 y). { split; [apply store_length|]. intros p I. apply store_other. exact I. }
  exists y. split. { apply (moves_app _ _ _ x1); [exact M0|]. intros psi. unfold y. pose proof (mult_run rO rI radd rmul rsub ropp RT expi chalf shalf im EU m OM (rev q2) psi x1 (register_rev _ _ R1)) as MR. rewrite rev_involutive in MR. exact MR. }
  assert (LQ : length q2 = size (mk (msize f + k) (expo f) (signed f))). { unfold q2. rewrite !app_length, LN. unfold size in *. cbn [length msize signed] in *. destruct (signed f); lia. }
  assert (A3 : agree_outside q2 x y) by (apply (agree_trans q2 q2 x x1 y); auto; intros p I; exact I).
  split; [exact A3|]. split; [exact G1|]. split; [apply (supply_agree _ _ x); assumption|]. split; [intros p I; rewrite FR; apply in_app_iff; auto|]. split; [exact LQ|]. split; [reflexivity|].
  unfold y, holds at 1, QFSpec.value. rewrite value_store by exact R1. rewrite LQ. cbn [expo]. rewrite mult_mantissa.
  - assert (ME : mantissa (mk (msize f + k) (expo f) (signed f)) (value x1 q2) = mantissa f (value x (L ++ [t]))); [|rewrite ME, inject_Z_mult; unfold holds, QFSpec.value; ring].
    unfold value. unfold q2. rewrite !read_app. unfold x1. destruct (signed f) eqn:S.
    + rewrite (read_write_off x new _ L) by (intros p I J; exact (ND p J I)). rewrite (read_write_off x new _ [t]) by (intros p [<-|[]]; exact NT). rewrite read_write by (try (split; [exact NN|intros p I; apply G3; unfold q2; rewrite !in_app_iff; auto]); apply repeat_length).
      cbn [read map]. rewrite app_assoc, (mant_signed (mk _ _ _)), (mant_signed f) by (cbn [msize signed]; rewrite ?app_length, ?read_length, ?repeat_length, ?LN; unfold size in LL; rewrite ?S in LL; auto; lia).
      cbn [msize]. rewrite number_app, read_length, LN. replace (length L) with (msize f) by (unfold size in LL; rewrite S in LL; lia). rewrite Nat2Z.inj_add, Z.pow_add_r by lia. destruct (getbit x t); cbn [b2z]; rewrite ?number_ones, ?number_zeros; ring.
    + rewrite !mant_unsigned by (cbn [signed]; auto). destruct (HU eq_refl) as [_ [E|E]]; [contradiction|]. rewrite last_last in E. cbn [read map]. rewrite E, (read_zeros x new ZN), app_bits, number_app, number_zeros. cbn [number]. ring.
  - assert (ME : mantissa (mk (msize f + k) (expo f) (signed f)) (value x1 q2) = mantissa f (value x (L ++ [t]))). 2:{ rewrite ME. 
      pose proof (mantissa_range f (value x (L ++ [t])) (value_basis f x _ Lq)) as RG. unfold in_range in *. cbn [msize signed]. rewrite Nat2Z.inj_add, Z.pow_add_r by lia. set (v := mantissa f (value x (L ++ [t]))) in *. set (P := (2 ^ Z.of_nat (msize f))%Z) in *. set (Q := (2 ^ Z.of_nat k)%Z) in *.
      assert (0 < P /\ 0 < Q)%Z as [PP PQ] by (split; apply Z.pow_pos_nonneg; lia). destruct (signed f) eqn:S.
      - destruct K as [K|[-> K]]; [|specialize (HS eq_refl eq_refl); subst P Q; rewrite K in *; change (2 ^ Z.of_nat 0)%Z with 1%Z; lia]. nia.
      - destruct (HU eq_refl) as [MP _]. destruct K as [K|[-> K]]; [|lia]. nia. }
    unfold value. unfold q2. rewrite !read_app. unfold x1. destruct (signed f) eqn:S.
    + rewrite (read_write_off x new _ L) by (intros p I J; exact (ND p J I)). rewrite (read_write_off x new _ [t]) by (intros p [<-|[]]; exact NT). rewrite read_write by (try (split; [exact NN|intros p I; apply G3; unfold q2; rewrite !in_app_iff; auto]); apply repeat_length).
      cbn [read map]. rewrite app_assoc, (mant_signed (mk _ _ _)), (mant_signed f) by (cbn [msize signed]; rewrite ?app_length, ?read_length, ?repeat_length, ?LN; unfold size in LL; rewrite ?S in LL; auto; lia).
      cbn [msize]. rewrite number_app, read_length, LN. replace (length L) with (msize f) by (unfold size in LL; rewrite S in LL; lia). rewrite Nat2Z.inj_add, Z.pow_add_r by lia. destruct (getbit x t); cbn [b2z]; rewrite ?number_ones, ?number_zeros; ring.
    + rewrite !mant_unsigned by (cbn [signed]; auto). destruct (HU eq_refl) as [_ [E|E]]; [contradiction|]. rewrite last_last in E. cbn [read map]. rewrite E, (read_zeros x new ZN), app_bits, number_app, number_zeros. cbn [number]. ring.
Qed.
Lemma shift_down_value f q s fresh f' q' c rest x : length q = size f -> signed f = true -> (s < 0)%Z -> quantum_bit_shift f q s true fresh = Some (f', q', c, rest) -> supply q fresh x ->
  let k := Z.to_nat (Z.abs s) in
  exists z, moves (c ++ map (fun t => qCX (last q' 0) t) (firstn k (skipn (length q' - 1 - k) q'))) x z /\ agree_outside q' x z /\ grown q q' fresh /\ length q' = size f' /\ (holds f' z q' == holds f x q * pw s)%Q.
Proof.
  intros Lq SF SN H SU k. destruct (shift_bits_ok _ _ _ _ _ _ _ _ Lq H) as (L & T & new & sw & EQ & LL & LT & FR & LN & EC & W & EF & EQ' & D). destruct (D x SU) as (LY & OUT & RD). clear D. subst q. fold k in LN, EF, RD. rewrite SF in LT. destruct T as [|t [|]]; try discriminate.
  destruct (Z.ltb_spec 0 s) as [|_]; [lia|]. assert (P : Permutation q' (L ++ new ++ [t])). { rewrite EQ', !app_assoc. apply Permutation_app_tail, Permutation_app_comm. }
  destruct (grown_perm _ _ _ _ _ _ _ SU FR P) as (G1 & G2 & G3). set (y := swapped sw x) in *.
  set (A := firstn (msize f) (new ++ L)). set (ts := skipn (msize f) (new ++ L)).
  assert (QA : q' = A ++ ts ++ [t]) by (rewrite EQ', !app_assoc; unfold A, ts; rewrite firstn_skipn; reflexivity).
  assert (LA : length A = msize f) by (unfold A; rewrite firstn_length, app_length; lia). assert (LS : length ts = k) by (unfold ts; rewrite skipn_length, app_length; lia).
  assert (LQ : length q' = msize f + k + 1) by (rewrite QA, !app_length; cbn [length]; lia).
  assert (TS : firstn k (skipn (length q' - 1 - k) q') = ts). { replace (length q' - 1 - k) with (length A) by lia. rewrite QA, skipn_app, skipn_all, Nat.sub_diag. cbn [skipn app]. rewrite firstn_app, LS, Nat.sub_diag, <- LS, firstn_all. cbn [firstn]. apply app_nil_r. }
  assert (TL : last q' 0 = t) by (rewrite QA, app_assoc; apply last_last). rewrite TS, TL.
  assert (RY : read y A = read x L /\ read y ts = repeat false k /\ getbit y t = getbit x t).
  { rewrite QA in RD. rewrite !read_app in RD. rewrite <- app_assoc in RD. apply app_inj_1 in RD as [R1 RD]; [|rewrite !read_length; lia]. apply app_inj_1 in RD as [R2 RD]; [|rewrite read_length, repeat_length; lia]. injection RD as RD. auto. }
  destruct RY as (RA & RS & Rt). destruct G3 as [ND LX].
  assert (NT : ~ In t (A ++ ts)) by (rewrite QA, app_assoc in ND; apply NoDup_remove_2 in ND; rewrite app_nil_r in ND; exact ND).
  assert (NS : NoDup ts) by (rewrite QA in ND; apply NoDup_app_remove_l in ND; apply NoDup_app_remove_r in ND; exact ND).
  assert (DA : forall p, In p A -> ~ In p ts). { intros p I J. rewrite QA in ND. apply in_split in I as (a & b & E). rewrite E, <- app_assoc in ND. cbn [app] in ND. apply NoDup_remove_2 in ND. apply ND. rewrite !in_app_iff. auto. }
  assert (IQ : forall p, In p (L ++ new) -> In p q'). { intros p I. apply (Permutation_in _ (Permutation_sym P)). rewrite !in_app_iff in *. tauto. }
  assert (IS : forall p, In p ts -> In p q') by (intros p I; rewrite QA, !in_app_iff; auto).
  set (z := write y ts (repeat (getbit y t) (length ts))).
  assert (NTS : ~ In t ts) by (intros I; apply NT, in_app_iff; auto).
  exists z. split; [|split; [|split; [exact G1|split]]].
  - apply (moves_app _ _ _ y); [rewrite EC; apply (moves_swaps (L ++ new)); [exact W|]; intros p I; apply LX, IQ, I|]. apply moves_fan; [exact NS|exact NTS| |].
    + intros p I. rewrite LY. apply LX, IS, I.
    + intros p I. apply in_split in I as (a & b & E). rewrite E, read_app in RS. cbn [read map] in RS. assert (J : In (getbit y p) (repeat false k)) by (rewrite <- RS; apply in_elt). apply repeat_spec in J. exact J.
  - apply (agree_trans q' q' x y z); [intros p I; exact I| |]; [split; [exact LY|]; intros p I; apply OUT; intros J; apply I, IQ, J|]. split; [apply write_length|]. intros p I. apply write_other. intros J. apply I, IS, J.
  - rewrite LQ, EF. unfold size. cbn [msize signed]. rewrite SF. lia.
  - apply holds_eq. unfold value at 1. rewrite QA at 1. rewrite !read_app. unfold z. rewrite (read_write_off y ts _ A DA), (read_write_off y ts _ [t]) by (intros p [<-|[]]; exact NTS).
    rewrite read_write by (try (split; [exact NS|intros p I; rewrite LY; apply LX, IS, I]); apply repeat_length). cbn [read map]. rewrite LS, Rt. fold (read y A). rewrite RA. unfold holds, QFSpec.value, value at 1. rewrite read_app. cbn [read map]. fold (read x L).
    rewrite app_assoc, EF, (mant_signed (mk _ _ _)), (mant_signed f) by (cbn [msize signed]; rewrite ?app_length, ?read_length, ?repeat_length; auto; lia). cbn [msize expo]. rewrite number_app, read_length, LL, Nat2Z.inj_add, Z.pow_add_r, pw_add by lia.
    transitivity (inject_Z (number (read x L) - 2 ^ Z.of_nat (msize f) * b2z (getbit x t)) * (pw (expo f) * pw s))%Q; [|ring]. apply Qmult_comp; [|reflexivity]. destruct (getbit x t); cbn [b2z]; rewrite ?number_ones, ?number_zeros; apply inject_Z_injective; ring.
Qed.
End ring.
