(** In-place multiplication and shifts by registers. *)
From Coq Require Import List ZArith Bool Lia Arith QArith Qround Qcanon Ring Ring_theory Permutation.
Import ListNotations.
From Verif.Iterables Require Import IterModel IterSpec IterProofs ShiftProofs.
From Verif.Inverse Require Import InvModel InvSpec InvProofs.
From Verif.CtrlOps Require Import CtrlModel CtrlSpec CtrlProofs.
From Verif.Fourier Require Import FourierModel FourierSpec RegProofs FourierProofs FourierFinal.
From Verif.QFloat Require Import QFModel QFSpec QFProofs.
From Verif.Sbp Require Import SbpSpec NumProofs CircProofs.
From Verif.Inplace Require Import InplModel InplSpec MultProofs SwapProofs BitShiftProofs InplProofs FactorProofs.
Local Open Scope nat_scope.
Local Notation value := FourierSpec.value.

Lemma top_bit f x q : signed f = false -> length q = size f -> 0 < size f -> (holds f x q < pw (Z.of_nat (msize f) - 1 + expo f))%Q -> getbit x (last q 0) = false.
Proof.
  intros S L P H. destruct (exists_last (l := q)) as (l & t & ->); [intros ->; cbn in L; lia|]. rewrite last_last. unfold size in *. rewrite S in *. rewrite app_length in L. cbn [length] in L.
  destruct (getbit x t) eqn:E; [|reflexivity]. exfalso. apply (Qlt_not_le _ _ H). unfold holds, QFSpec.value. rewrite mant_unsigned by exact S. rewrite pw_add. apply Qmult_le_compat_r; [|apply Qlt_le_weak, pw_pos].
  rewrite pw_Z by lia. rewrite <- Zle_Qle. unfold value. rewrite read_app, number_app, read_length. cbn [read map number]. rewrite E. pose proof (number_range (read x l)). replace (Z.of_nat (msize f) - 1)%Z with (Z.of_nat (length l)) by lia. unfold read in *. lia.
Qed.
Lemma shift_defined f q s fresh : length q = size f -> 0 < msize f -> Z.to_nat (Z.abs s) <= length fresh -> exists f' q' c, quantum_bit_shift f q s true fresh = Some (f', q', c, skipn (Z.to_nat (Z.abs s)) fresh).
Proof.
  intros Lq M F. unfold quantum_bit_shift, shift_register. set (k := Z.to_nat (Z.abs s)) in *. destruct (Nat.ltb_spec (length fresh) k) as [|_]; [lia|].
  assert (E : forall p, 0 < length (if signed f then removelast (extend q p (firstn k fresh)) else extend q p (firstn k fresh))).
  { intros p. assert (LE : length (extend q p (firstn k fresh)) = length q + k) by (unfold extend; rewrite !app_length, !firstn_length, skipn_length; lia). unfold size in Lq. destruct (signed f); [|lia].
    set (e := extend q p (firstn k fresh)) in *. assert (N : e <> []) by (intros X; rewrite X in LE; cbn in LE; lia). rewrite (app_removelast_last 0 N), app_length in LE. cbn [length] in LE. lia. }
  assert (C : forall ids : list nat, 0 < length ids -> exists sw, cyclic_shift ids s = Some sw).
  { intros ids LI. assert (W : exists sw, cyclic_shift (seq 0 (length ids)) s = Some sw). { destruct (cyclic_ok (A := bool) (seq 0 (length ids)) s (fun _ => true)) as (sw & H & _); [apply seq_NoDup|destruct ids; [cbn in LI; lia|discriminate]|]. exists sw. exact H. }
    destruct W as [sw W]. assert (SAME : forall a b : list nat, length a = length b -> forall z, shift_pos a z = None -> shift_pos b z = None).
    { intros a b LAB z. unfold shift_pos. destruct (z =? 1)%Z; [discriminate|]. rewrite LAB. unfold permute_iterable. destruct (to_cycles _); [discriminate|reflexivity]. }
    assert (CE : forall l : list nat, 0 < length l -> cyclic_shift l s = if (s mod Z.of_nat (length l) =? 0)%Z then Some [] else if (s <? 0)%Z then shift_pos (rev l) (- s) else shift_pos l s) by (intros [|? ?] LL; [cbn in LL; lia|reflexivity]).
    rewrite CE in W by (rewrite seq_length; exact LI). rewrite seq_length in W. rewrite CE by exact LI. destruct (s mod _ =? 0)%Z; [eauto|]. destruct (s <? 0)%Z.
    - destruct (shift_pos (rev ids) (- s)) eqn:X; [eauto|]. apply (SAME _ (rev (seq 0 (length ids)))) in X; [congruence|rewrite !rev_length, seq_length; reflexivity].
    - destruct (shift_pos ids s) eqn:X; [eauto|]. apply (SAME _ (seq 0 (length ids))) in X; [congruence|rewrite seq_length; reflexivity]. }
  destruct (0 <? s)%Z.
  - destruct (C _ (E (if signed f then size f - 1 else size f))) as [sw ->]. eauto.
  - destruct (C _ (E 0)) as [sw ->]. eauto.
Qed.

Section ring.
Context {R : Type} (rO rI : R) (radd rmul rsub : R -> R -> R) (ropp : R -> R) (RT : ring_theory rO rI radd rmul rsub ropp eq).
Context (expi chalf shalf : Qc -> R) (im : R).
Context (EU : euler rO rI radd rmul ropp expi chalf shalf im).
Add Ring rr9 : RT.
Notation run := (run_circuit Qcplus rO rI radd rmul ropp expi chalf shalf im).
Notation moves := (moves rO rI radd rmul ropp expi chalf shalf im).
Notation moves_app := (moves_app rO rI radd rmul ropp expi chalf shalf im).
Local Notation amp := (list bool -> R).

Lemma inpl_value fuel f q mult fresh f' q' c x : length q = size f -> 0 < size f -> inpl_mult fuel f q mult true fresh = Some (f', q', c) -> supply q fresh x ->
  (signed f = true -> forall s, (mult == - pw s)%Q -> ~ (holds f x q == - pw (Z.of_nat (msize f) + expo f))%Q) ->
  (signed f = false -> (exists s, mult == pw s)%Q \/ (holds f x q < pw (Z.of_nat (msize f) - 1 + expo f))%Q) ->
  exists y, moves c x y /\ agree_outside q' x y /\ grown q q' fresh /\ length q' = size f' /\ (holds f' y q' == mult * holds f x q)%Q.
Proof.
  intros Lq SZ H SU HS HU. unfold inpl_mult in H. destruct (ltq mult 0 && negb (signed f)) eqn:NG; [discriminate|]. destruct (split_factor fuel mult) as [[m s]|] eqn:SF; [|discriminate].
  destruct (split_ok _ _ _ _ SF) as (OM & _ & EM). destruct (odd_mult f q m true fresh) as [[[[f1 q1] c1] rest]|] eqn:OD; [|discriminate]. destruct (quantum_bit_shift f1 q1 s true rest) as [[[[f2 q2] c2] rest2]|] eqn:QS; [|discriminate].
  injection H as <- <- <-. destruct (odd_value rO rI radd rmul rsub ropp RT expi chalf shalf im EU f q m fresh f1 q1 c1 rest x Lq SZ OD OM SU) as (y & M1 & A1 & G1 & S1 & I1 & L1 & SG & H1).
  { intros S -> E. apply (HS S s); [rewrite EM; change (inject_Z (-1)) with (-1)%Q; ring|]. unfold holds, QFSpec.value. rewrite E, inject_Z_opp, pw_add, <- pw_Z by lia. ring. }
  { intros S. rewrite S, andb_true_r in NG. apply ltq_false in NG. split.
    - assert (m <> 0)%Z by (intros ->; discriminate). assert (0 <= m)%Z; [|lia]. rewrite Zle_Qle. apply (mul_pw_le _ _ s). rewrite <- EM. change (inject_Z 0) with 0%Q. rewrite Qmult_0_l. exact NG.
    - destruct (HU S) as [[s' E]|E]; [left|right; exact (top_bit f x q S Lq SZ E)]. rewrite EM in E. destruct (odd_unique m s 1 s' OM eq_refl) as [-> _]; [rewrite E; change (inject_Z 1) with 1%Q; ring|reflexivity]. }
  assert (V : forall z, (z == holds f1 y q1 * pw s)%Q -> (z == mult * holds f x q)%Q) by (intros z ->; rewrite H1, EM; ring).
  cbn [andb]. destruct ((s <? 0)%Z && signed f1) eqn:T.
  - apply andb_true_iff in T as [SN SF1]. apply Z.ltb_lt in SN. destruct (shift_down_value rO rI radd rmul rsub ropp RT expi chalf shalf im f1 q1 s rest f2 q2 c2 rest2 y L1 SF1 SN QS S1) as (z & M2 & A2 & G2 & L2 & H2).
    exists z. split; [exact (moves_app _ _ _ _ _ M1 M2)|]. split; [exact (agree_trans q1 q2 x y z (proj1 (proj2 G2)) A1 A2)|]. split; [exact (grown_trans _ _ _ _ _ G1 G2 I1)|]. split; [exact L2|]. apply V, H2.
  - destruct (shift_value rO rI radd rmul rsub ropp RT expi chalf shalf im f1 q1 s rest f2 q2 c2 rest2 y L1 QS S1) as (z & M2 & A2 & G2 & _ & L2 & H2 & _).
    { intros S. rewrite S, andb_true_r in T. apply Z.ltb_ge in T. exact T. }
    exists z. rewrite app_nil_r. split; [exact (moves_app _ _ _ _ _ M1 M2)|]. split; [exact (agree_trans q1 q2 x y z (proj1 (proj2 G2)) A1 A2)|]. split; [exact (grown_trans _ _ _ _ _ G1 G2 I1)|]. split; [exact L2|]. apply V, H2.
Qed.
Lemma qshift_loop : forall sh f q i fresh f' q' c rest x, length q = size f -> signed f = false -> supply (q ++ sh) fresh x -> (0 <= i)%Z -> quantum_shift_loop f q i sh fresh = Some (f', q', c, rest) ->
  exists y, moves c x y /\ agree_outside q' x y /\ grown q q' fresh /\ length q' = size f' /\ (holds f' y q' == holds f x q * pw (2 ^ i * value x sh))%Q.
Proof.
  induction sh as [|c0 sh IH]; intros f q i fresh f' q' c rest x Lq S SU I H; cbn [quantum_shift_loop] in H.
  - injection H as <- <- <- <-. exists x. split; [apply moves_nil|]. split; [split; [reflexivity|intros; reflexivity]|]. destruct SU as [[N _] _]. rewrite app_nil_r in N. split; [split; [apply NoDup_app_remove_r in N; exact N|split; [intros p J; exact J|intros p J; auto]]|]. split; [exact Lq|]. unfold value. cbn [read map number]. rewrite Z.mul_0_r. change (pw 0) with 1%Q. ring.
  - destruct (Z.ltb_spec i 0) as [|_]; [lia|]. destruct (quantum_bit_shift f q (2 ^ i) true fresh) as [[[[f1 q1] g] rest1]|] eqn:QS; [|discriminate]. destruct (quantum_shift_loop f1 q1 (i + 1) sh rest1) as [[[[f2 q2] g2] rest2]|] eqn:QL; [|discriminate]. injection H as <- <- <- <-.
    assert (SU1 : supply q fresh x). { destruct SU as [[N L] Z]. split; [split|exact Z]. - rewrite <- app_assoc in N. apply (NoDup_app_remove_l (c0 :: sh)). apply (Permutation_NoDup (l := q ++ (c0 :: sh) ++ fresh)); [|exact N]. rewrite !app_assoc. apply Permutation_app_tail, Permutation_app_comm. - intros p J. apply L. rewrite !in_app_iff in *. tauto. }
    assert (POS : (0 < 2 ^ i)%Z) by (apply Z.pow_pos_nonneg; lia).
    destruct (shift_bits_ok _ _ _ _ _ _ _ _ Lq QS) as (L & T & new & _ & EQ & LL & LT & FR & LN & _ & _ & EF & EQ' & _). rewrite S in LT, EF. destruct T; [|discriminate]. rewrite app_nil_r in EQ. subst L. destruct (Z.ltb_spec 0 (2 ^ i)) as [_|]; [|lia]. rewrite app_nil_r in EQ'.
    assert (S1 : signed f1 = false) by (rewrite EF; reflexivity).
    destruct (shift_value rO rI radd rmul rsub ropp RT expi chalf shalf im f q (2 ^ i) fresh f1 q1 g rest1 x Lq QS SU1) as (y & M & A & G & SR & L1 & HV & ids & sw & EG & W & IN & EY); [congruence|].
    assert (NC : ~ In c0 q1 /\ forall p, In p sh -> ~ In p q1).
    { destruct SU as [[N _] _]. assert (Q : forall p, In p q1 -> In p q \/ In p new) by (intros p J; rewrite EQ' in J; apply in_app_iff in J; exact J). rewrite FR in N.
      assert (D : forall p, In p (c0 :: sh) -> ~ In p q1). { intros p J K. apply in_split in J as (a & b & E). rewrite E in N. rewrite <- !app_assoc in N. cbn [app] in N. rewrite app_assoc in N. apply NoDup_remove_2 in N. apply N. rewrite !in_app_iff. destruct (Q p K); auto. }
      split; [apply D; left; reflexivity|intros p J; apply D; right; exact J]. }
    destruct NC as [NC NS]. set (x1 := if getbit x c0 then y else x).
    assert (M1 : moves (controlled c0 g) x x1).
    { unfold x1. destruct (getbit x c0) eqn:B.
      - rewrite EG, EY. apply (moves_ctrl_swaps rO rI radd rmul rsub ropp RT expi chalf shalf im c0 ids sw W); [intros J; apply NC, IN, J| |exact B]. intros p J. apply SR. apply in_app_iff. left. apply IN, J.
      - intros psi. apply ctrl_off. exact B. }
    assert (A1 : agree_outside q1 x x1) by (unfold x1; destruct (getbit x c0); [exact A|split; [reflexivity|intros; reflexivity]]).
    assert (H1 : (holds f1 x1 q1 == holds f x q * pw (if getbit x c0 then 2 ^ i else 0))%Q).
    { unfold x1. destruct (getbit x c0); [exact HV|]. change (pw 0) with 1%Q. unfold holds, QFSpec.value. rewrite !mant_unsigned by assumption. rewrite EF. cbn [expo]. rewrite EQ'. unfold value. rewrite read_app, number_app. destruct SU as [_ Z]. rewrite (read_zeros x new), number_zeros by (intros p J; apply Z; rewrite FR; apply in_app_iff; auto). rewrite Z.mul_0_r, Z.add_0_r. ring. }
    assert (SU2 : supply (q1 ++ sh) rest1 x1).
    { destruct SU as [[N LX] Z]. rewrite FR in N, LX. assert (PP : Permutation ((q ++ c0 :: sh) ++ new ++ rest1) (c0 :: (q1 ++ sh) ++ rest1)). { rewrite EQ'. rewrite <- !app_assoc. cbn [app]. rewrite <- Permutation_middle. constructor. apply Permutation_app_head. rewrite !app_assoc. apply Permutation_app_tail, Permutation_app_comm. }
      assert (N2 : NoDup ((q1 ++ sh) ++ rest1)) by (apply (Permutation_NoDup PP) in N; inversion N; assumption). split; [split; [exact N2|]|].
      - intros p J. rewrite (proj1 A1). apply LX. apply (Permutation_in _ (Permutation_sym PP)). right. exact J.
      - intros p J. rewrite (proj2 A1). + apply Z. rewrite FR. apply in_app_iff. auto. + intros K. apply in_split in J as (a & b & E). rewrite E, app_assoc in N2. apply NoDup_remove_2 in N2. apply N2. rewrite !in_app_iff. auto. }
    destruct (IH f1 q1 (i + 1)%Z rest1 f2 q2 g2 rest2 x1 L1 S1 SU2 ltac:(lia) QL) as (z & M2 & A2 & G2 & L2 & H2).
    exists z. split; [exact (moves_app _ _ _ _ _ M1 M2)|]. split; [exact (agree_trans q1 q2 x x1 z (proj1 (proj2 G2)) A1 A2)|]. split; [apply (grown_trans _ _ _ _ _ G G2); intros p J; rewrite FR; apply in_app_iff; auto|]. split; [exact L2|].
    rewrite H2, H1. assert (VS : value x1 sh = value x sh). { unfold value. apply f_equal. unfold read. apply map_ext_in. intros p J. apply (proj2 A1). apply NS, J. }
    rewrite VS, <- Qmult_assoc, <- pw_add. unfold value. cbn [read map number]. fold (read x sh). replace (2 ^ i * ((if getbit x c0 then 1 else 0) + 2 * number (read x sh)))%Z with ((if getbit x c0 then 2 ^ i else 0) + 2 ^ (i + 1) * number (read x sh))%Z; [reflexivity|]. rewrite Z.pow_add_r by lia. destruct (getbit x c0); lia.
Qed.
End ring.
