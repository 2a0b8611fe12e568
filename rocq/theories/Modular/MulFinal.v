(** Products with the Montgomery shift that the operators choose. *)
From Coq Require Import List ZArith Znumtheory Bool Arith Lia.
Import ListNotations.
From Verif.Inverse Require Import InvSpec InvProofs.
From Verif.CtrlOps Require Import CtrlSpec CtrlProofs.
From Verif.Fourier Require Import FourierSpec RegProofs.
From Verif.ModTools Require Import ModToolsModel ModToolsProofs.
From Verif.Modular Require Import ModModel ModSpec ViewProofs ModAddProofs ReduceProofs MontProofs MultiplyProofs InplaceProofs.
Local Open Scope Z_scope.

Definition zs (n : nat) (f : nat -> Z) (v : Z) : Z := sumf (seq 0 n) (fun j => if Z.testbit v (Z.of_nat j) then f j else 0).
Lemma sumf_update n j g g' : (j < n)%nat -> g' j = 0 -> (forall i, i <> j -> g i = g' i) -> sumf (seq 0 n) g = g j + sumf (seq 0 n) g'.
Proof.
  induction n as [|n IH]; intros J Z0 O; [lia|]. rewrite seq_S, !sumf_app. cbn [plus]. change (sumf [n] g) with (g n + 0). change (sumf [n] g') with (g' n + 0).
  destruct (Nat.eq_dec j n) as [->|Ne].
  - rewrite (sumf_ext (seq 0 n) g g'); [lia|]. intros i I. apply in_seq in I. apply O. lia.
  - rewrite IH, (O n) by (auto; lia). lia.
Qed.
Lemma zs_top n v : 0 < v < two n -> exists j, (j < n)%nat /\ two j <= v < 2 * two j /\ forall f, zs n f v = f j + zs n f (v - two j).
Proof.
  intros V. set (j := Z.to_nat (Z.log2 v)). assert (Ej : Z.of_nat j = Z.log2 v) by (unfold j; rewrite Z2Nat.id; [reflexivity|apply Z.log2_nonneg]).
  destruct (Z.log2_spec v) as (L & U); [lia|]. rewrite <- Ej in L, U. rewrite Z.pow_succ_r in U by lia.
  assert (Jn : (j < n)%nat). { apply Nat2Z.inj_lt. apply (Z.pow_lt_mono_r_iff 2); lia. }
  exists j. split; [exact Jn|]. split; [lia|]. intros f. unfold zs.
  assert (Ev : v - two j = v mod two j). { symmetry. symmetry. apply (Z.mod_unique v (two j) 1); lia. }
  assert (Tj : Z.testbit v (Z.of_nat j) = true) by (rewrite Ej; apply Z.bit_log2; lia).
  rewrite (sumf_update n j _ (fun i => if Z.testbit (v - two j) (Z.of_nat i) then f i else 0)); [rewrite Tj; reflexivity|exact Jn| |].
  - rewrite Ev, Z.mod_pow2_bits_high by lia. reflexivity.
  - intros i Ne. rewrite Ev. destruct (lt_dec i j).
    + rewrite Z.mod_pow2_bits_low by lia. reflexivity.
    + rewrite Z.mod_pow2_bits_high by lia. rewrite (Z.bits_above_log2 v) by lia. reflexivity.
Qed.
Lemma zs_nonneg n f v : (forall j, 0 <= f j) -> 0 <= zs n f v.
Proof.
  intros H. unfold zs. induction (seq 0 n) as [|a l IH]; [cbn; lia|]. cbn. fold (sumf l (fun j => if Z.testbit v (Z.of_nat j) then f j else 0)). specialize (H a). destruct (Z.testbit _ _); lia.
Qed.
Lemma bit_sum_zs x y f : register y x -> bit_sum x y f (seq 0 (length y)) = zs (length y) f (value x y).
Proof. intros R. apply sumf_ext. intros j I. apply in_seq in I. rewrite value_bit by (auto; lia). reflexivity. Qed.
Lemma sumf_le l g g' : (forall j, In j l -> g j <= g' j) -> sumf l g <= sumf l g'.
Proof.
  induction l as [|a l IH]; intros H; [cbn; lia|]. cbn. fold (sumf l g) (sumf l g'). pose proof (H a (or_introl eq_refl)). specialize (IH (fun j I => H j (or_intror I))). lia.
Qed.
Lemma sumf_geom d k : sumf (seq 0 d) (fun j => two (k + j)) = two k * (two d - 1).
Proof.
  induction d as [|d IH]; [cbn; ring|]. rewrite seq_S, sumf_app, IH. cbn [plus]. change (sumf [d] (fun j => two (k + j))) with (two (k + d) + 0). rewrite two_S, two_add. ring.
Qed.
Lemma zs_bound n m f N v : 0 < N -> two n < 2 * N -> (forall j, 0 <= f j <= N - 1) -> (forall j, f j <= two (2 * m + j)) -> zs n f v < (2 * Z.of_nat m + 2) * N.
Proof.
  intros HN Hn F1 F2. unfold zs. set (g := fun j => if Z.testbit v (Z.of_nat j) then f j else 0).
  assert (G1 : forall j, 0 <= g j <= N - 1) by (intros j; unfold g; specialize (F1 j); destruct (Z.testbit _ _); lia).
  destruct (le_dec n (2 * m)) as [L|L].
  - pose proof (sumf_range (seq 0 n) g (N - 1) (fun j _ => G1 j)) as P. rewrite seq_length in P.
    assert (Z.of_nat n * (N - 1) <= 2 * Z.of_nat m * (N - 1)) by (apply Z.mul_le_mono_nonneg_r; lia). lia.
  - assert (En : n = (n - 2 * m + 2 * m)%nat) by lia. set (d := (n - 2 * m)%nat) in *. rewrite En, seq_app, sumf_app. cbn [plus].
    pose proof (sumf_range (seq d (2 * m)) g (N - 1) (fun j _ => G1 j)) as P. rewrite seq_length in P.
    assert (Q : sumf (seq 0 d) g <= sumf (seq 0 d) (fun j => two (2 * m + j))).
    { apply sumf_le. intros j _. unfold g. specialize (F2 j). pose proof (two_pos (2 * m + j)). destruct (Z.testbit _ _); lia. }
    rewrite sumf_geom in Q. replace (two n) with (two (2 * m) * two d) in Hn by (rewrite <- two_add; f_equal; lia). pose proof (two_pos (2 * m)). lia.
Qed.

(** ** the factors 2, 3 and 4 *)
Definition wraps (K N : Z) (j : nat) : Z := K * two j / N.
Lemma powers j k : two k < two j -> two j = 2 * two k \/ 4 * two k <= two j.
Proof.
  intros H. assert (L : (k < j)%nat) by (apply Nat2Z.inj_lt, (Z.pow_lt_mono_r_iff 2); lia). destruct (Nat.eq_dec j (S k)) as [->|Ne]; [left; apply two_S|right].
  replace j with (k + 2 + (j - k - 2))%nat by lia. rewrite !two_add. change (two 2) with 4. pose proof (two_pos k). pose proof (two_pos (j - k - 2)). nia.
Qed.
Section small.
Context (N K : Z) (n : nat) (HN : 0 < N) (HK : 0 < K).
Let c (v : Z) : Z := zs n (wraps K N) v.
Lemma wraps_nonneg j : 0 <= wraps K N j.
Proof. unfold wraps. pose proof (two_pos j). apply Z.div_pos; [|lia]. apply Z.mul_nonneg_nonneg; lia. Qed.
Lemma c_nonneg v : 0 <= c v. Proof. apply zs_nonneg. exact wraps_nonneg. Qed.
Lemma wraps_ge k j : k * N <= K * two j -> k <= wraps K N j.
Proof. intros H. unfold wraps. apply Z.div_le_lower_bound; lia. Qed.
Lemma wraps_lt k j : wraps K N j < k -> K * two j < k * N.
Proof. intros H. destruct (Z_lt_le_dec (K * two j) (k * N)) as [L|L]; [exact L|]. apply wraps_ge in L. lia. Qed.
Lemma c_top v : 0 < v < two n -> exists j, two j <= v < 2 * two j /\ c v = wraps K N j + c (v - two j).
Proof. intros V. destruct (zs_top n v V) as (j & _ & H & E). exists j. split; [exact H|]. apply E. Qed.
End small.
Lemma claim N K n v r : 0 < N -> 0 <= v < two n -> forall c, c = zs n (wraps K N) v ->
  (K = 4 /\ N <= 2 * v /\ r = 1 \/ K = 12 /\ N <= 3 * v /\ r = 1 \/ K = 12 /\ 2 * N <= 3 * v /\ r = 5
   \/ K = 16 /\ N <= 4 * v /\ r = 1 \/ K = 16 /\ 2 * N <= 4 * v /\ r = 5 \/ K = 16 /\ 3 * N <= 4 * v /\ r = 9) -> r <= c.
Proof.
  intros HN V c Ec H. assert (HK : 0 < K) by lia. destruct (c_top N K n v) as (j & J & E); [lia|]. rewrite <- Ec in E.
  set (w := v - two j) in *. pose proof (c_nonneg N K n HN HK w) as C0. cbv beta zeta in C0.
  assert (W : 0 <= w < two n) by (unfold w; lia). clear Ec. set (cw := zs n (wraps K N) w) in *.
  assert (G : forall k j, k * N <= K * two j -> k <= wraps K N j) by (intros; eapply wraps_ge; eassumption).
  assert (L : forall k j, wraps K N j < k -> K * two j < k * N) by (intros; eapply wraps_lt; eassumption).
  assert (Next : 0 < w -> exists k, two k <= w < 2 * two k /\ wraps K N k <= cw).
  { intros W0. destruct (c_top N K n w) as (k & Hk & Ek); [lia|]. exists k. split; [exact Hk|]. unfold cw. rewrite Ek. pose proof (c_nonneg N K n HN HK (w - two k)). cbv beta zeta in *. lia. }
  destruct H as [(-> & A & ->)|[(-> & A & ->)|[(-> & A & ->)|[(-> & A & ->)|[(-> & A & ->)|(-> & A & ->)]]]]].
  - pose proof (G 1 j). lia.
  - pose proof (G 1 j). lia.
  - pose proof (G 4 j). destruct (Z_lt_le_dec (wraps 12 N j) 5) as [B|B]; [|lia]. apply L in B. destruct Next as (k & Hk & Ck); [unfold w; lia|]. pose proof (G 1 k). unfold w in *. lia.
  - pose proof (G 1 j). lia.
  - pose proof (G 4 j). destruct (Z_lt_le_dec (wraps 16 N j) 5) as [B|B]; [|lia]. apply L in B. destruct Next as (k & Hk & Ck); [unfold w; lia|]. pose proof (G 1 k). unfold w in *. lia.
  - pose proof (G 6 j). destruct (Z_lt_le_dec (wraps 16 N j) 9) as [B|B]; [|lia]. pose proof (L _ _ B) as B'. destruct Next as (k & Hk & Ck); [unfold w; lia|].
    destruct (Z_lt_le_dec (wraps 16 N j) 7) as [D|D]; [|destruct (Z_lt_le_dec (wraps 16 N j) 8) as [D'|D']].
    + apply L in D. assert (P : two j = 2 * two k \/ 4 * two k <= two j) by (apply powers; unfold w in *; lia). destruct P as [P|P].
      * pose proof (G 3 k). unfold w in *. lia.
      * pose proof (G 3 k). unfold w in *. lia.
    + apply L in D'. pose proof (G 2 k). unfold w in *. lia.
    + pose proof (G 1 k). unfold w in *. lia.
Qed.

(** ** the chosen shift *)
Lemma shift_small X N : 0 <= X < N -> 2 <= N -> X <= two (mul_shift X N) /\ forall k, X <= two k -> (mul_shift X N <= k)%nat.
Proof.
  intros HX HN. unfold mul_shift, best_montgomery_shift. cbv zeta.
  assert (E : (X * (N - 1) + N - 1) / N = X) by (symmetry; apply (Z.div_unique _ _ _ (N - X - 1)); lia). rewrite E.
  destruct (smallest_power_spec X) as (S0 & S1 & S2). rewrite Z2Nat.id by exact S0. split; [exact S1|]. intros k Hk. specialize (S2 (Z.of_nat k) ltac:(lia) Hk). lia.
Qed.
Lemma shift_big X N : N <= X -> 2 <= N -> N - 1 <= two (mul_shift X N).
Proof.
  intros HX HN. unfold mul_shift, best_montgomery_shift. cbv zeta. destruct (smallest_power_spec ((X * (N - 1) + N - 1) / N)) as (S0 & S1 & S2). rewrite Z2Nat.id by exact S0.
  apply Z.le_trans with ((X * (N - 1) + N - 1) / N); [|exact S1]. apply Z.div_le_lower_bound; nia.
Qed.
Lemma two_linear n : Z.of_nat n <= two n - 1.
Proof. induction n as [|n IH]; [cbn; lia|]. rewrite two_S. pose proof (two_pos n). lia. Qed.
Lemma bits_small N n : two n < 2 * N -> 3 <= N -> Z.of_nat n <= N - 1.
Proof.
  intros H HN. destruct n as [|[|n]]; [lia|lia|]. pose proof (two_linear n). rewrite !two_S in H. pose proof (two_pos n). lia.
Qed.
Section product.
Context (x : list bool) (y aux res : list nat) (N X : Z) (m : nat).
Let n := length y.
Context (Rg : register (aux ++ res ++ y) x) (La : length aux = (m + 1)%nat) (Lr : length res = n) (Odd : Z.odd N = true) (HN : 3 <= N <= two n) (HX : 0 <= X)
        (Za : value x aux = 0) (Zr : value x res = 0).
Lemma np : (0 < n)%nat. Proof. destruct n; [change (two 0) with 1 in HN; lia|lia]. Qed.
Lemma Ry : register y x. Proof. rewrite app_assoc in Rg. apply (register_app _ _ _ Rg). Qed.
Lemma unique S : 0 <= S < N -> (S * two m) mod N = (enc N m false X * value x y) mod N -> S = (X * value x y) mod N.
Proof.
  intros HS E. rewrite <- (Z.mod_small S N) by exact HS. apply (two_cancel N m); [exact Odd|lia|]. rewrite E. unfold enc. rewrite Zmult_mod_idemp_l. f_equal. ring.
Qed.
Definition computes : Prop := exists p, cq_montgomery_multiply X y N m false res aux = Some p /\ execute p x = store x res ((X * value x y) mod N).
Lemma from_sum : selected_sum x y (fun j => ((X * two m) mod N * two j) mod N) < N * two m -> computes.
Proof.
  intros B. destruct (multiply_fits x y aux res N X m false) as (p & S & E & P & HS & C); auto; try (rewrite Lr); try exact np; try lia.
  exists p. split; [exact E|]. rewrite P. f_equal. apply unique; auto.
Qed.
Lemma sum_zs : selected_sum x y (fun j => ((X * two m) mod N * two j) mod N) = zs n (fun j => ((X * two m) mod N * two j) mod N) (value x y).
Proof. rewrite selected_sumf. apply bit_sum_zs, Ry. Qed.
Lemma piece_range j : 0 <= ((X * two m) mod N * two j) mod N <= N - 1.
Proof. pose proof (Z.mod_pos_bound ((X * two m) mod N * two j) N). lia. Qed.
Lemma from_size : Z.of_nat n <= two m -> computes.
Proof.
  intros L. apply from_sum. rewrite sum_zs. unfold zs.
  assert (P := sumf_range (seq 0 n) (fun j => if Z.testbit (value x y) (Z.of_nat j) then ((X * two m) mod N * two j) mod N else 0) (N - 1)). cbv beta in P.
  rewrite seq_length in P. assert (Z.of_nat n * (N - 1) <= two m * (N - 1)) by (apply Z.mul_le_mono_nonneg_r; lia). pose proof (two_pos m).
  assert (Q : forall j, In j (seq 0 n) -> 0 <= (if Z.testbit (value x y) (Z.of_nat j) then ((X * two m) mod N * two j) mod N else 0) <= N - 1) by (intros j _; pose proof (piece_range j); destruct (Z.testbit _ _); lia).
  specialize (P Q). lia.
Qed.
Lemma from_general : zs n (fun j => ((X * two m) mod N * two j) mod N) (value x y) < two (m + 1 + n) ->
  (forall H u, two m * H + u * N = zs n (fun j => ((X * two m) mod N * two j) mod N) (value x y) -> 0 <= u < two m -> H < N) -> computes.
Proof.
  rewrite <- sum_zs. intros B F. destruct (multiply_general x y aux res N X m false) as (p & S & E & P & HS & C); auto; try (rewrite Lr); try exact np; try lia; auto.
  exists p. split; [exact E|]. rewrite P. f_equal. apply unique; auto.
Qed.
Context (HV : value x y < N) (Hn : two n < 2 * N).
Lemma bounded : X <= two m -> zs n (fun j => ((X * two m) mod N * two j) mod N) (value x y) < (2 * Z.of_nat m + 2) * N.
Proof.
  intros L. apply zs_bound; [lia|exact Hn|exact piece_range|]. intros j. pose proof (two_pos m) as Pm. pose proof (two_pos j) as Pj.
  assert (A : (X * two m) mod N <= X * two m) by (apply Z.mod_le; [apply Z.mul_nonneg_nonneg|]; lia). assert (B : 0 <= (X * two m) mod N) by (apply Z.mod_pos_bound; lia).
  apply Z.le_trans with ((X * two m) mod N * two j); [apply Z.mod_le; [apply Z.mul_nonneg_nonneg|]; lia|].
  replace (two (2 * m + j)) with (two m * two m * two j) by (replace (2 * m + j)%nat with (m + m + j)%nat by lia; rewrite !two_add; reflexivity).
  apply Z.mul_le_mono_nonneg_r; [lia|]. apply Z.le_trans with (X * two m); [exact A|]. apply Z.mul_le_mono_nonneg_r; lia.
Qed.
Lemma wraps_sum : X * two m < N -> zs n (fun j => ((X * two m) mod N * two j) mod N) (value x y) = X * two m * value x y - zs n (wraps (X * two m) N) (value x y) * N.
Proof.
  intros L. assert (EV : value x y = zs n (fun j => two j) (value x y)) by (unfold n; rewrite <- (bit_sum_zs x y) by apply Ry; apply value_sumf).
  rewrite EV at 2. unfold zs. rewrite (Z.mul_comm (X * two m)), <- !sumf_scale.
  assert (G : forall g h, sumf (seq 0 n) g - sumf (seq 0 n) h = sumf (seq 0 n) (fun j => g j - h j)).
  { intros g h. induction (seq 0 n) as [|a l IH]; [reflexivity|]. cbn. fold (sumf l g) (sumf l h) (sumf l (fun j => g j - h j)). lia. }
  rewrite G. apply sumf_ext. intros j _. destruct (Z.testbit (value x y) (Z.of_nat j)); [|ring]. pose proof (two_pos m). rewrite (Z.mod_small (X * two m)) by (split; [apply Z.mul_nonneg_nonneg; lia|exact L]).
  unfold wraps. rewrite Z.mod_eq by lia. ring.
Qed.
Lemma from_wraps : X <= two m -> (2 * Z.of_nat m + 2) <= 2 * two m -> X * two m < N ->
  (forall d c, c = zs n (wraps (X * two m) N) (value x y) -> 0 <= d -> (d + 1) * N <= X * value x y -> two m * d < c) -> computes.
Proof.
  intros LX LM LK F. apply from_general.
  - eapply Z.lt_le_trans; [apply bounded, LX|]. rewrite !two_add. change (two 1) with 2. pose proof (two_pos m).
    apply Z.le_trans with (2 * two m * N); [apply Z.mul_le_mono_nonneg_r; lia|]. rewrite (Z.mul_comm (two m) 2). apply Z.mul_le_mono_nonneg_l; lia.
  - intros H u E U. rewrite (wraps_sum LK) in E. set (c := zs n (wraps (X * two m) N) (value x y)) in *.
    destruct (Z_lt_le_dec H N) as [L|L]; [exact L|exfalso]. pose proof (two_pos m) as Pm.
    assert (C0 : 0 <= c) by (unfold c; apply zs_nonneg; intros j; unfold wraps; pose proof (two_pos j); apply Z.div_pos; [apply Z.mul_nonneg_nonneg; [apply Z.mul_nonneg_nonneg|]|]; lia).
    assert (D : (two m | N * (c + u))). { exists (X * value x y - H). lia. }
    assert (D' : (two m | c + u)) by (apply (Gauss (two m) N); [exact D|apply rel_prime_sym, coprime_two, Odd]). destruct D' as (d & Ed).
    assert (D0 : 0 <= d) by nia. assert (EH : H = X * value x y - d * N). { apply (Z.mul_reg_l _ _ (two m)); [lia|]. replace (two m * (X * value x y - d * N)) with (X * two m * value x y - (d * two m) * N) by ring. rewrite <- Ed. lia. }
    specialize (F d c eq_refl D0 ltac:(lia)). lia.
Qed.
End product.
Lemma product_run x y aux res N X : let n := length y in let m := mul_shift X N in
  register (aux ++ res ++ y) x -> length aux = (m + 1)%nat -> length res = n -> Z.odd N = true -> 3 <= N <= two n -> two n < 2 * N -> 0 <= X ->
  value x aux = 0 -> value x res = 0 -> value x y < N -> computes x y aux res N X m.
Proof.
  intros n m Rg La Lr Odd HN Hn HX Za Zr HV. pose proof (two_pos m) as Pm. pose proof (bits_small N n Hn ltac:(lia)) as Bn.
  destruct (Z_le_gt_dec N X) as [Big|Small].
  { apply from_size; auto. pose proof (shift_big X N Big). fold m in H. fold n. lia. }
  destruct (shift_small X N) as (LX & Min); [lia..|]. fold m in LX, Min. assert (HY : 0 <= value x y) by apply value_range.
  destruct (le_dec 3 m) as [M3|M3].
  - apply from_sum; auto. rewrite (sum_zs x y aux res N X m) by auto. eapply Z.lt_le_trans; [apply (bounded x y aux res N X m); auto|]. rewrite (Z.mul_comm N). apply Z.mul_le_mono_nonneg_r; [lia|].
    clear - M3. replace m with (3 + (m - 3))%nat by lia. set (k := (m - 3)%nat). rewrite two_add. change (two 3) with 8. pose proof (two_linear k). lia.
  - destruct (Z_le_gt_dec X 1) as [X1|X1].
    { assert (M0 : m = 0%nat) by (specialize (Min 0%nat X1); lia). apply from_sum; auto. rewrite (sum_zs x y aux res N X m) by auto. rewrite M0. change (two 0) with 1. rewrite !Z.mul_1_r, (Z.mod_small X) by lia.
      destruct (Z.eq_dec X 0) as [->|X0].
      - unfold zs. fold n. eapply Z.le_lt_trans; [apply (sumf_range _ _ 0)|lia]. intros j _. rewrite Z.mul_0_l, Z.mod_0_l by lia. destruct (Z.testbit _ _); lia.
      - assert (X = 1) by lia. subst X. eapply Z.le_lt_trans; [|exact HV].
        assert (Ry' : register y x) by (rewrite app_assoc in Rg; apply (register_app _ _ _ Rg)).
        assert (EV : value x y = zs n (fun j => two j) (value x y)) by (unfold n; rewrite <- (bit_sum_zs x y) by exact Ry'; apply value_sumf).
        rewrite EV at 2. fold n. apply sumf_le. intros j _. pose proof (two_pos j). destruct (Z.testbit _ _); [|lia]. rewrite Z.mul_1_l. apply Z.mod_le; lia. }
    assert (M12 : m = 1%nat /\ X = 2 \/ m = 2%nat /\ (X = 3 \/ X = 4)).
    { destruct m as [|[|[|m']]] eqn:Em; [change (two 0) with 1 in LX; lia|left|right|lia].
      - change (two 1) with 2 in LX. lia.
      - change (two 2) with 4 in LX. assert (~ X <= 2) by (intros Q; specialize (Min 1%nat Q); lia). lia. }
    destruct (Z_le_gt_dec N (X * two m)) as [Few|Many].
    { apply from_size; auto. fold n. destruct M12 as [(-> & ->)|(-> & [-> | ->])]; [change (two 1) with 2 in *|change (two 2) with 4 in *..];
      (destruct (Z_le_gt_dec (Z.of_nat n) 4) as [N4|N4]; [|exfalso; replace n with (5 + (n - 5))%nat in Hn by lia; rewrite two_add in Hn; change (two 5) with 32 in Hn; pose proof (two_pos (n - 5)); lia]).
      - destruct (Z_le_gt_dec (Z.of_nat n) 2) as [N2|N2]; [exact N2|exfalso]. replace n with (3 + (n - 3))%nat in Hn by lia. rewrite two_add in Hn. change (two 3) with 8 in Hn. pose proof (two_pos (n - 3)). lia.
      - exact N4.
      - exact N4. }
    assert (LM : 2 * Z.of_nat m + 2 <= 2 * two m) by (destruct M12 as [(-> & _)|(-> & _)]; cbn; lia).
    apply from_wraps; auto; [lia|]. fold n. intros d c Ec D0 HD.
    assert (Cl := claim N (X * two m) n (value x y)). assert (V : 0 <= value x y < two n) by lia.
    destruct M12 as [(Em & ->)|(Em & [-> | ->])]; rewrite Em in *; [change (2 * two 1) with 4 in *; change (two 1) with 2 in *|change (3 * two 2) with 12 in *; change (two 2) with 4 in *|change (4 * two 2) with 16 in *; change (two 2) with 4 in *].
    + assert (d = 0) by nia. subst d. pose proof (Cl 1 ltac:(lia) V c Ec ltac:(lia)). lia.
    + assert (d = 0 \/ d = 1) as [-> | ->] by nia; [pose proof (Cl 1 ltac:(lia) V c Ec ltac:(lia))|pose proof (Cl 5 ltac:(lia) V c Ec ltac:(lia))]; lia.
    + assert (d = 0 \/ d = 1 \/ d = 2) as [-> | [-> | ->]] by nia; [pose proof (Cl 1 ltac:(lia) V c Ec ltac:(lia))|pose proof (Cl 5 ltac:(lia) V c Ec ltac:(lia))|pose proof (Cl 9 ltac:(lia) V c Ec ltac:(lia))]; lia.
Qed.
