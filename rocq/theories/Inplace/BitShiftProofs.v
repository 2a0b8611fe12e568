(** Bit shifts. *)
From Coq Require Import List ZArith Bool Lia Arith QArith Qround Qcanon Ring Ring_theory Permutation.
Import ListNotations.
From Verif.Iterables Require Import IterModel IterSpec IterProofs ShiftProofs.
From Verif.Inverse Require Import InvModel InvSpec InvProofs.
From Verif.CtrlOps Require Import CtrlModel CtrlSpec CtrlProofs.
From Verif.Fourier Require Import FourierModel FourierSpec RegProofs FourierProofs FourierFinal.
From Verif.QFloat Require Import QFModel QFSpec QFProofs.
From Verif.Sbp Require Import SbpSpec NumProofs CircProofs.
From Verif.Inplace Require Import InplModel InplSpec MultProofs SwapProofs.
Local Open Scope nat_scope.

Lemma rotate_read ids s j x y : NoDup ids -> j <= length ids -> (s mod Z.of_nat (length ids) = (Z.of_nat (length ids) - Z.of_nat j) mod Z.of_nat (length ids))%Z ->
  shifted ids s (getbit x) (getbit y) -> read y ids = skipn j (read x ids) ++ firstn j (read x ids).
Proof.
  intros ND J S [H _]. set (N := length ids) in *. destruct (Nat.eq_dec N 0) as [Z|NZ]. { destruct ids; [|discriminate]. destruct j; reflexivity. }
  apply (nth_ext _ _ false false). { rewrite app_length, skipn_length, firstn_length, !read_length. fold N. lia. }
  intros p P. rewrite read_length in P. fold N in P.
  assert (RN : forall z i, i < N -> nth i (read z ids) false = getbit z (nth i ids 0)). { intros z i I. unfold read. rewrite (nth_indep _ false (getbit z 0)) by (rewrite map_length; exact I). apply map_nth. }
  rewrite RN by exact P. assert (E : forall i, i < N -> ((Z.of_nat i + s) mod Z.of_nat N = Z.of_nat p)%Z -> getbit y (nth p ids 0) = getbit x (nth i ids 0)).
  { intros i I M. specialize (H i I). fold N in H. rewrite M, Nat2Z.id in H. exact H. }
  assert (M : forall i, ((Z.of_nat i + s) mod Z.of_nat N = (Z.of_nat i + (Z.of_nat N - Z.of_nat j)) mod Z.of_nat N)%Z) by (intros i; rewrite Zplus_mod, S, <- Zplus_mod; reflexivity).
  destruct (le_lt_dec (N - j) p) as [G|G].
  - rewrite app_nth2 by (rewrite skipn_length, read_length; exact G). rewrite skipn_length, read_length. fold N. 
    transitivity (nth (p - (N - j)) (read x ids) false). 2:{ rewrite <- (firstn_skipn j (read x ids)) at 1. rewrite app_nth1; [reflexivity|]. rewrite firstn_length, read_length. fold N. lia. }
    rewrite RN by lia. apply E; [lia|]. rewrite M. rewrite Z.mod_small by lia. lia.
  - rewrite app_nth1 by (rewrite skipn_length, read_length; exact G).
    transitivity (nth (j + p) (read x ids) false). 2:{ rewrite <- (firstn_skipn j (read x ids)) at 1. rewrite app_nth2 by (rewrite firstn_length, read_length; lia). rewrite firstn_length, read_length. fold N. f_equal. lia. }
    rewrite RN by lia. apply E; [lia|]. rewrite M. replace (Z.of_nat (j + p) + (Z.of_nat N - Z.of_nat j))%Z with (Z.of_nat p + 1 * Z.of_nat N)%Z by lia. rewrite Z_mod_plus_full. apply Z.mod_small. lia.
Qed.
Lemma read_zeros x qs : (forall p, In p qs -> getbit x p = false) -> read x qs = repeat false (length qs).
Proof. induction qs as [|q qs IH]; intros H; [reflexivity|]. cbn [read map length repeat]. rewrite H by (left; reflexivity). f_equal. apply IH. intros p I. apply H. right. exact I. Qed.
Lemma number_zeros n : number (repeat false n) = 0%Z.
Proof. induction n as [|n IH]; [reflexivity|]. cbn [repeat number]. rewrite IH. reflexivity. Qed.
Lemma number_ones n : number (repeat true n) = (2 ^ Z.of_nat n - 1)%Z.
Proof. induction n as [|n IH]; [reflexivity|]. cbn [repeat number]. rewrite IH, Nat2Z.inj_succ, Z.pow_succ_r by lia. lia. Qed.
Lemma read_app x a b : read x (a ++ b) = read x a ++ read x b. Proof. apply map_app. Qed.

(** what a classical shift does to the bits *)
Record outcome (q q' fresh rest new : list nat) (x y : list bool) : Prop := {
  o_fresh : fresh = new ++ rest;
  o_perm : Permutation q' (q ++ new);
  o_out : agree_outside q' x y }.
Lemma supply_new q fresh new rest x : supply q fresh x -> fresh = new ++ rest -> register (q ++ new) x /\ (forall p, In p new -> getbit x p = false) /\ read x new = repeat false (length new).
Proof.
  intros [[N L] F] ->. split; [|split].
  - split; [rewrite app_assoc in N; apply NoDup_app_remove_r in N; exact N|]. intros p I. apply L. rewrite in_app_iff in *. rewrite in_app_iff. tauto.
  - intros p I. apply F. apply in_app_iff. auto.
  - apply read_zeros. intros p I. apply F. apply in_app_iff. auto.
Qed.
Lemma mant_signed f bs b : signed f = true -> length bs = msize f -> mantissa f (number (bs ++ [b])) = (number bs - 2 ^ Z.of_nat (msize f) * b2z b)%Z.
Proof.
  intros S L. unfold mantissa, size. rewrite S, number_app, L, Nat2Z.inj_succ, Z.pow_succ_r by lia. pose proof (number_range bs) as H. rewrite L in H. cbn [number].
  destruct b; cbn [b2z]; [destruct (Z.ltb_spec (number bs + 2 ^ Z.of_nat (msize f) * (1 + 2 * 0)) (2 ^ Z.of_nat (msize f)))|destruct (Z.ltb_spec (number bs + 2 ^ Z.of_nat (msize f) * (0 + 2 * 0)) (2 ^ Z.of_nat (msize f)))]; lia.
Qed.
Lemma mant_unsigned f c : signed f = false -> mantissa f c = c.
Proof. intros S. unfold mantissa. rewrite S. reflexivity. Qed.
Lemma split_reg f (q : list nat) : length q = size f -> exists L T, q = L ++ T /\ length L = msize f /\ length T = if signed f then 1 else 0.
Proof.
  intros H. exists (firstn (msize f) q), (skipn (msize f) q). rewrite firstn_skipn, firstn_length, skipn_length. unfold size in H. destruct (signed f); repeat split; lia.
Qed.
Lemma removelast_T (a T : list nat) : length T = 1 -> removelast (a ++ T) = a.
Proof. intros H. destruct T as [|t [|]]; try discriminate. rewrite removelast_last. reflexivity. Qed.
Lemma shift_bits_ok f q s fresh f' q' c rest : length q = size f -> quantum_bit_shift f q s true fresh = Some (f', q', c, rest) ->
  let k := Z.to_nat (Z.abs s) in
  exists L T new sw, q = L ++ T /\ length L = msize f /\ length T = (if signed f then 1 else 0) /\ fresh = new ++ rest /\ length new = k /\
    c = swap_gates sw /\ within (L ++ new) sw /\ f' = mk (msize f + k) (if (0 <? s)%Z then expo f else expo f + s)%Z (signed f) /\
    q' = (if (0 <? s)%Z then L ++ new ++ T else new ++ L ++ T) /\
    forall x, supply q fresh x -> length (swapped sw x) = length x /\ (forall p, ~ In p (L ++ new) -> getbit (swapped sw x) p = getbit x p) /\
      read (swapped sw x) q' = (if (0 <? s)%Z then repeat false k ++ read x L else read x L ++ repeat false k) ++ read x T.
Proof.
  intros Lq H k. destruct (split_reg f q Lq) as (L & T & EQ & LL & LT). unfold quantum_bit_shift, shift_register in H. fold k in H.
  destruct (Nat.ltb_spec (length fresh) k) as [|LF]; [discriminate|]. set (new := firstn k fresh) in *. assert (LN : length new = k) by (unfold new; rewrite firstn_length; lia).
  assert (FR : fresh = new ++ skipn k fresh) by (unfold new; symmetry; apply firstn_skipn).
  set (q0 := if (0 <? s)%Z then L ++ new ++ T else new ++ L ++ T).
  set (ids := if (0 <? s)%Z then L ++ new else new ++ L).
  assert (Q0 : q0 = ids ++ T) by (unfold q0, ids; destruct (0 <? s)%Z; rewrite app_assoc; reflexivity).
  assert (ID : (if signed f then removelast q0 else q0) = ids).
  { rewrite Q0. destruct (signed f); [apply removelast_T; exact LT|]. destruct T; [|discriminate]. apply app_nil_r. }
  assert (P0 : (if signed f then size f - 1 else size f) = length L). { rewrite LL. unfold size. destruct (signed f); lia. }
  assert (EX : extend q (if signed f then size f - 1 else size f) new = L ++ new ++ T). { unfold extend. rewrite P0, EQ, firstn_app, skipn_app, firstn_all, skipn_all, Nat.sub_diag. cbn [firstn skipn app]. rewrite app_nil_r. reflexivity. }
  assert (H' : match cyclic_shift ids s with Some sw => Some (mk (msize f + k) (if (0 <? s)%Z then expo f else expo f + s)%Z (signed f), q0, swap_gates sw, skipn k fresh) | None => None end = Some (f', q', c, rest)).
  { rewrite <- H, <- ID. unfold q0. destruct (0 <? s)%Z; [rewrite EX; reflexivity|]. unfold extend. cbn [firstn skipn app]. rewrite EQ. reflexivity. }
  clear H. destruct (cyclic_shift ids s) as [sw|] eqn:CS; [|discriminate]. injection H' as <- <- <- <-.
  assert (W : within ids sw) by (exact (cyclic_within _ _ _ CS)). assert (INC : incl ids (L ++ new)) by (unfold ids; destruct (0 <? s)%Z; intros p I; rewrite !in_app_iff in *; tauto).
  exists L, T, new, sw. repeat (split; [first [assumption|reflexivity|exact (within_incl _ _ _ W INC)]|]). intros x SU.
  destruct (supply_new q fresh new _ x SU FR) as ([ND LX] & ZN & RN). rewrite EQ in ND, LX.
  assert (NDi : NoDup ids /\ forall p, In p ids -> p < length x /\ ~ In p T).
  { assert (NI : NoDup (ids ++ T)).
    { apply (Permutation_NoDup (l := (L ++ T) ++ new)); [|exact ND]. unfold ids. destruct (0 <? s)%Z; rewrite <- app_assoc; [rewrite <- app_assoc; apply Permutation_app_head, Permutation_app_comm|]. rewrite <- app_assoc. etransitivity; [rewrite app_assoc; apply Permutation_app_comm|]. reflexivity. }
    split; [apply NoDup_app_remove_r in NI; exact NI|]. intros p I. split; [apply LX; apply INC in I; rewrite !in_app_iff in *; tauto|]. intros J. apply in_split in J as (T1 & T2 & ->).
    rewrite app_assoc in NI. apply NoDup_remove_2 in NI. apply NI. rewrite !in_app_iff. auto. }
  destruct NDi as [NDi LI]. assert (NEi : ids <> []) by (intros E; rewrite E in CS; discriminate).
  destruct (cyclic_ok (A := bool) ids s (getbit x) NDi NEi) as (sw' & CS' & SH). rewrite CS in CS'. injection CS' as <-.
  assert (GS : forall p, getbit (swapped sw x) p = run_swaps sw (getbit x) p) by (apply (swapped_get ids); [exact W|intros p I; apply LI, I]).
  assert (SH' : shifted ids s (getbit x) (getbit (swapped sw x))). { destruct SH as [A B]. split; intros; rewrite GS; auto. }
  split; [apply swapped_length|]. split. { intros p I. apply (proj2 SH'). intros J. apply I, INC, J. }
  rewrite Q0, read_app. f_equal.
  2:{ unfold read. apply map_ext_in. intros p I. apply (proj2 SH'). intros J. apply (proj2 (LI p J) I). }
  assert (NN : length ids = length L + length new) by (unfold ids; destruct (0 <? s)%Z; rewrite app_length; lia).
  destruct (0 <? s)%Z eqn:S.
  - rewrite (rotate_read ids s (length L) x (swapped sw x)); auto; [|lia|apply Z.ltb_lt in S; f_equal; unfold k in *; lia]. unfold ids. rewrite read_app, skipn_app, firstn_app, read_length, Nat.sub_diag.
    rewrite <- (read_length x L) at 1 2. rewrite skipn_all, firstn_all. cbn [firstn skipn app]. rewrite app_nil_r, RN, LN. reflexivity.
  - rewrite (rotate_read ids s (length new) x (swapped sw x)); auto; [|lia|]. 2:{ apply Z.ltb_ge in S. replace (Z.of_nat (length ids) - Z.of_nat (length new))%Z with (s + 1 * Z.of_nat (length ids))%Z by (unfold k in *; lia). symmetry. apply Z_mod_plus_full. }
    unfold ids. rewrite read_app, skipn_app, firstn_app, read_length, Nat.sub_diag.
    rewrite <- (read_length x new) at 1 2. rewrite skipn_all, firstn_all. cbn [firstn skipn app]. rewrite app_nil_r, RN, LN. reflexivity.
Qed.
