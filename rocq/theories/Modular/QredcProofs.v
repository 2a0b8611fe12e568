(** The Montgomery reduction outside tracing. *)
From Coq Require Import List ZArith Znumtheory Bool Arith Lia.
Import ListNotations.
From Verif.Inverse Require Import InvSpec InvProofs.
From Verif.CtrlOps Require Import CtrlSpec CtrlProofs.
From Verif.Fourier Require Import FourierSpec RegProofs.
From Verif.ModTools Require Import ModToolsModel ModToolsProofs.
From Verif.Modular Require Import ModModel ModSpec ViewProofs ModAddProofs ReduceProofs MontProofs MultiplyProofs InplaceProofs AddFinal QqProofs StaticModel.
Local Open Scope Z_scope.

Lemma store_get x r F p : register r x -> In p r -> getbit (store x r (value F r)) p = getbit F p.
Proof.
  intros R I. assert (E : read (store x r (value F r)) r = read F r).
  { unfold store. rewrite read_write by (auto; apply bits_of_length). unfold value. rewrite <- (read_length F r). apply bits_number. }
  destruct (In_nth _ _ 0%nat I) as (j & Hj & <-). apply (f_equal (fun l => nth j l false)) in E. unfold read in E.
  rewrite (nth_indep _ false (getbit (store x r (value F r)) 0%nat)) in E by (rewrite map_length; exact Hj). rewrite (map_nth (getbit (store x r (value F r)))) in E.
  rewrite (nth_indep _ false (getbit F 0%nat)) in E by (rewrite map_length; exact Hj). rewrite (map_nth (getbit F)) in E. exact E.
Qed.
Lemma rebuild x F r mid : register r x -> register mid x -> apart r mid -> length F = length x -> (forall p, ~ In p r -> ~ In p mid -> getbit F p = getbit x p) ->
  F = store (store x r (value F r)) mid (value F mid).
Proof.
  intros Rr Rm A L O. symmetry. apply store_ext.
  - apply (register_length _ x); [rewrite store_length|]; auto.
  - rewrite store_length. exact L.
  - symmetry. apply Z.mod_small, value_range.
  - intros p H. destruct (in_dec Nat.eq_dec p r) as [I|I]; [rewrite store_get by auto; reflexivity|]. rewrite store_other by exact I. apply O; auto.
Qed.
Lemma half_neg N : Z.odd N = true -> - (N - 1) / 2 = - ((N - 1) / 2).
Proof.
  intros O. pose proof (Z.div_mod N 2 ltac:(lia)) as E. rewrite Zmod_odd, O in E. set (k := N / 2) in *. rewrite E. replace (- (2 * k + 1 - 1)) with (- k * 2) by ring. replace (2 * k + 1 - 1) with (k * 2) by ring. rewrite !Z.div_mul by lia. reflexivity.
Qed.
Lemma loops_equal t N m x : Z.odd N = true -> execute (qredc_loop t N m) x = execute (estimation t N m) x.
Proof.
  intros O. unfold qredc_loop, estimation. revert x. generalize (seq 0 m) as l. induction l as [|k l IH]; intros x; [reflexivity|]. cbn [flat_map]. rewrite !execute_app. rewrite IH. f_equal.
  cbn [inverted map rev app undo_step execute fold_left]. rewrite sub_as_add. rewrite half_neg by exact O. rewrite Z.shiftr_div_pow2 by lia. reflexivity.
Qed.
Section qredc.
Context (x : list bool) (lo mid : list nat) (q : nat) (N : Z) (m n : nat).
Let t := lo ++ mid ++ [q].
Context (Rg : register t x) (Ll : length lo = m) (Lm : length mid = n) (Odd : Z.odd N = true) (HN : 0 < N) (Hn : (0 < n)%nat).
Lemma u_is : qredc_u t m = lo ++ [q].
Proof. unfold qredc_u, t. rewrite <- Ll, firstn_app, firstn_all, Nat.sub_diag. cbn [firstn]. rewrite app_nil_r, app_assoc, last_last. reflexivity. Qed.
Lemma S_is : qredc_S t m = mid.
Proof. unfold qredc_S, t. rewrite <- Ll, skipn_app, skipn_all, Nat.sub_diag. cbn [skipn app]. apply removelast_last. Qed.
Lemma last_is : last t 0%nat = q. Proof. unfold t. rewrite app_assoc. apply last_last. Qed.
Lemma Lt : length t = (m + 1 + n)%nat. Proof. unfold t. rewrite !app_length, Ll, Lm. cbn. lia. Qed.
Lemma Lt' : length t = (m + n + 1)%nat. Proof. rewrite Lt. lia. Qed.
Lemma u_reg : register (lo ++ [q]) x.
Proof.
  destruct (register_app _ _ _ Rg) as (Rl & Rmq & D1). destruct (register_app _ _ _ Rmq) as (_ & Rq & _). apply app_register; auto. intros p I J. apply (D1 p I). apply in_or_app. auto.
Qed.
Lemma mid_reg : register mid x.
Proof. destruct (register_app _ _ _ Rg) as (_ & Rmq & _). apply (register_app _ _ _ Rmq). Qed.
Lemma u_mid : apart (lo ++ [q]) mid.
Proof.
  destruct (register_app _ _ _ Rg) as (_ & Rmq & D1). destruct (register_app _ _ _ Rmq) as (_ & _ & D2). intros p I J. apply in_app_or in I. destruct I as [I|I].
  - apply (D1 p I). apply in_or_app. auto.
  - apply (D2 p J I).
Qed.
Lemma t_parts p : In p t <-> In p (lo ++ [q]) \/ In p mid.
Proof. unfold t. rewrite !in_app_iff. tauto. Qed.
Let T := value x t.
Lemma qredc_raw : exists H u, two m * H + u * N = T /\ 0 <= u < two m /\ let h := H mod two (n + 1) in
  execute (qredc t N m) x = store (store x (lo ++ [q]) (u + two m * b2 (xorb (overflow n h) (Z.odd (reduced N n h))))) mid (reduced N n h).
Proof.
  assert (HT : 0 <= T < two (m + 1 + n)) by (rewrite <- Lt; apply value_range).
  destruct (estimation_run x t N m n T Rg Lt Odd HN HT Hn m (le_n m)) as (H & u & E & U & ET). exists H, u. split; [exact ET|]. split; [exact U|]. cbv zeta.
  replace (m + 1 + n - m)%nat with (n + 1)%nat in E by lia. set (h := H mod two (n + 1)) in *.
  assert (Hh : 0 <= h < 2 * two n) by (unfold h; rewrite Nat.add_1_r, <- two_S; apply Z.mod_pos_bound, two_pos).
  unfold qredc. rewrite S_is, last_is, !execute_app, loops_equal by exact Odd.
  replace (execute (estimation t N m) x) with (execute (estimation t N m) (store x t T)) by (f_equal; apply store_value, (proj1 Rg)). rewrite E. clear E.
  set (s := overflow n h). set (S := reduced N n h). assert (HS : 0 <= S < two n) by (apply Z.mod_pos_bound, two_pos).
  pose proof (two_pos m) as Pm. pose proof (two_pos n) as Pn.
  assert (TW : two (length t) = two m * (2 * two n)) by (rewrite Lt; replace (m + 1 + n)%nat with (m + Datatypes.S n)%nat by lia; rewrite two_add, two_S; reflexivity).
  set (w1 := u + two m * h). assert (W1 : 0 <= w1 < two (length t)) by (rewrite TW; unfold w1; nia).
  assert (Dh : h / two n = b2 s).
  { unfold s, overflow, b2. destruct (Z.leb_spec (two n) h); [|apply Z.div_small; lia]. symmetry. apply (Z.div_unique h (two n) 1 (h - two n)); lia. }
  assert (Eq' : q = nth (m + n) t 0%nat) by (unfold t; rewrite app_assoc, <- Ll, <- Lm, <- app_length; symmetry; apply nth_snoc).
  assert (Bs : Z.testbit w1 (Z.of_nat (m + n)) = s).
  { assert (B : b2 (Z.testbit w1 (Z.of_nat (m + n))) = b2 s); [|destruct (Z.testbit w1 (Z.of_nat (m + n))), s; auto; discriminate].
    rewrite testbit_div by lia. rewrite two_add, <- Z.div_div by lia. unfold w1. rewrite div_low by exact U. rewrite Dh. destruct s; reflexivity. }
  assert (E1 : execute [Add [q] (Cl N) mid] (store x t w1) = store x t (u + two m * (S + two n * b2 s))).
  { cbn [execute fold_left]. pose proof (part_step x lo mid [q] w1 [q] N) as P. cbv zeta in P. fold t in P. rewrite P by auto. clear P.
    cbn [forallb]. rewrite Eq' at 1. rewrite bit_store by (auto; rewrite Lt; lia). rewrite Bs, andb_true_r, Ll, Lm.
    assert (G : forall z, part_add w1 m n z = u + two m * ((h + z) mod two n + two n * b2 s)).
    { intros z. unfold part_add. rewrite two_add, <- Z.div_div by lia. unfold w1. rewrite mod_low, div_low by exact U. rewrite Dh. ring. }
    unfold S, reduced. fold s. destruct s eqn:Es; [rewrite G; reflexivity|]. f_equal. unfold w1. rewrite Z.add_0_r. rewrite (Z.div_mod h (two n)) at 1 by lia. rewrite Dh. ring. }
  rewrite E1. clear E1. set (w2 := u + two m * (S + two n * b2 s)). assert (W2 : 0 <= w2 < two (length t)) by (rewrite TW; unfold w2; destruct s; unfold b2; nia).
  destruct (split_value w2 lo mid [q] x Rg W2) as (V1 & V2 & V3). fold t in V1, V2, V3. set (y := store x t w2) in *. rewrite Ll, Lm in *.
  unfold w2 in V1, V2, V3. rewrite mod_low in V1 by exact U. rewrite div_low in V2 by exact U. rewrite two_add, <- Z.div_div, div_low in V3 by (auto; lia).
  rewrite Z.mul_comm, Z.mod_add, Z.mod_small in V2 by lia. rewrite (Z.mul_comm (two n)), Z.div_add, Z.div_small in V3 by lia. rewrite value_one in V3.
  assert (Bq : getbit y q = s) by (destruct (getbit y q), s; unfold b2 in *; auto; lia).
  assert (Ly : length y = length x) by apply store_length.
  assert (Bm : getbit y (nth 0 mid 0%nat) = Z.odd S).
  { rewrite value_bit by (try lia; apply (register_length _ x); auto; apply mid_reg). rewrite V2. apply Z.bit0_odd. }
  cbn [execute fold_left perform]. rewrite Bm, Bq. rewrite xorb_comm. set (b := xorb s (Z.odd S)).
  assert (Qin : In q (lo ++ [q])) by (apply in_or_app; right; left; reflexivity).
  assert (Qlo : ~ In q lo). { intros I. destruct (register_app _ _ _ u_reg) as (_ & _ & D). apply (D q I). left. reflexivity. }
  assert (Qmid : ~ In q mid) by (apply u_mid; exact Qin).
  assert (Lq : (q < length x)%nat) by (apply (proj2 u_reg); exact Qin).
  assert (Ev : forall l, ~ In q l -> value (setbit y q b) l = value y l) by (intros l I; unfold value, read; f_equal; apply map_ext_in; intros p J; apply getbit_set_other; intros ->; auto).
  rewrite (rebuild x (setbit y q b) (lo ++ [q]) mid); [|exact u_reg|exact mid_reg|exact u_mid|rewrite setbit_length; exact Ly|].
  - rewrite (Ev mid) by exact Qmid. rewrite V2. f_equal. f_equal. rewrite value_app, Ll, (Ev lo), V1 by exact Qlo. rewrite value_one, getbit_set_same by (rewrite Ly; exact Lq). reflexivity.
  - intros p H1 H2. rewrite getbit_set_other by (intros ->; auto). unfold y. apply store_other. rewrite t_parts. tauto.
Qed.
Context (HN2 : N <= two n).
Lemma qredc_run : T < two (m + n) -> exists S u, execute (qredc t N m) x = store (store x (lo ++ [q]) u) mid S /\
  0 <= S < two n /\ 0 <= u < two (m + 1) /\ (S * two m) mod N = T mod N /\ (u * N) mod two (m + 1) = T mod two (m + 1) /\ (T < N * two m -> S < N).
Proof.
  intros Ht. pose proof (two_pos m) as Pm. pose proof (two_pos n) as Pn. rewrite two_add in Ht.
  assert (T0 : 0 <= T) by apply value_range.
  destruct qredc_raw as (H & u & ET & U & E). cbv zeta in E.
  assert (HL : - N < H) by nia. assert (HU : H < two n) by nia.
  assert (Hov : overflow n (H mod two (n + 1)) = (H <? 0) /\ reduced N n (H mod two (n + 1)) = H + if H <? 0 then N else 0).
  { assert (O : overflow n (H mod two (n + 1)) = (H <? 0)).
    { unfold overflow. rewrite Nat.add_1_r, two_S. destruct (Z.ltb_spec H 0).
      - apply Z.leb_le. rewrite <- (Z.mod_unique H (2 * two n) (-1) (H + 2 * two n)) by lia. lia.
      - apply Z.leb_gt. rewrite Z.mod_small by lia. lia. }
    split; [exact O|]. unfold reduced. rewrite O. rewrite Nat.add_1_r, two_S.
    destruct (Z.ltb_spec H 0).
    - rewrite <- (Z.mod_unique H (2 * two n) (-1) (H + 2 * two n)) by lia. replace (H + 2 * two n + N) with (H + N + 2 * two n) by ring. rewrite Z.mod_add by lia. apply Z.mod_small. lia.
    - rewrite (Z.mod_small H) by lia. apply Z.mod_small. lia. }
  destruct Hov as [O Re]. rewrite O, Re in E. set (S := H + if H <? 0 then N else 0) in *.
  exists S, (u + two m * b2 (xorb (H <? 0) (Z.odd S))). split; [exact E|].
  assert (HS : 0 <= S < two n) by (unfold S; destruct (Z.ltb_spec H 0); lia).
  split; [exact HS|]. split; [rewrite Nat.add_1_r, two_S; destruct (xorb _ _); unfold b2; lia|]. split; [|split].
  - rewrite <- ET. unfold S. destruct (H <? 0).
    + replace ((H + N) * two m) with (two m * H + two m * N) by ring. rewrite Z_mod_plus_full, Z_mod_plus_full. reflexivity.
    + rewrite Z.add_0_r, Z_mod_plus_full. f_equal. ring.
  - rewrite <- ET. set (b := xorb (H <? 0) (Z.odd S)). assert (Eb : exists k, b2 b * N = H + 2 * k).
    { assert (P : (b2 b * N) mod 2 = H mod 2).
      { rewrite <- Zmult_mod_idemp_r, <- (odd_b2 N), Odd. cbn [b2]. rewrite Z.mul_1_r. unfold b, S. rewrite <- (odd_b2 H).
        destruct (Z.ltb_spec H 0).
        - rewrite Z.odd_add, Odd. destruct (Z.odd H); reflexivity.
        - rewrite Z.add_0_r. destruct (Z.odd H); reflexivity. }
      exists ((b2 b * N - H) / 2). rewrite <- Z_div_exact_full_2; [ring|lia|]. rewrite Zminus_mod, P, Z.sub_diag. reflexivity. }
    destruct Eb as [k Ek]. replace ((u + two m * b2 b) * N) with (two m * H + u * N + k * two (m + 1)); [apply Z_mod_plus_full|].
    rewrite Nat.add_1_r, two_S. replace ((u + two m * b2 b) * N) with (u * N + two m * (b2 b * N)) by ring. rewrite Ek. ring.
  - intros L. unfold S. destruct (Z.ltb_spec H 0); [lia|]. assert (0 <= u * N) by (apply Z.mul_nonneg_nonneg; lia). apply (Z.mul_lt_mono_pos_l (two m)); lia.
Qed.
(** only the output is there *)
Lemma qredc_upper v : 0 <= v < two n -> T = two m * v -> execute (qredc t N m) x = store (store x (lo ++ [q]) (two m * b2 (Z.odd v))) mid v.
Proof.
  intros Hv HT. pose proof (two_pos m) as Pm. pose proof (two_pos n) as Pn. destruct qredc_raw as (H & u & ET & U & E). cbv zeta in E.
  assert (Du : (two m | u)).
  { apply Gauss with N; [|apply rel_prime_sym, coprime_two, Odd]. exists (v - H). lia. }
  assert (u = 0) by (destruct Du as [z ->]; assert (z < 1) by nia; assert (0 <= z) by nia; assert (z = 0) by lia; subst z; lia). subst u. assert (EH : H = v) by nia. subst H.
  rewrite (Nat.add_1_r n), (two_S n), (Z.mod_small v) in E by lia. rewrite E.
  assert (O : overflow n v = false) by (apply Z.leb_gt; lia). unfold reduced. rewrite O. rewrite Z.add_0_r, (Z.mod_small v) by lia. rewrite xorb_false_l. f_equal.
Qed.
End qredc.
