(** The modular operators for products. *)
From Coq Require Import List ZArith Znumtheory Bool Arith Lia.
Import ListNotations.
From Verif.Inverse Require Import InvSpec InvProofs.
From Verif.CtrlOps Require Import CtrlSpec CtrlProofs.
From Verif.Fourier Require Import FourierSpec RegProofs.
From Verif.ModTools Require Import ModToolsModel ModToolsProofs.
From Verif.Modular Require Import ModModel ModSpec ViewProofs ModAddProofs ReduceProofs MontProofs MultiplyProofs InplaceProofs AddFinal MulFinal QqProofs.
Local Open Scope Z_scope.

Lemma sum_by_size x y f N m : 0 < N -> (forall j, 0 <= f j <= N - 1) -> Z.of_nat (length y) <= two m -> selected_sum x y f < N * two m.
Proof.
  intros HN F L. rewrite selected_sumf. unfold bit_sum.
  assert (P := sumf_range (seq 0 (length y)) (fun j => if getbit x (nth j y 0%nat) then f j else 0) (N - 1)). cbv beta in P. rewrite seq_length in P.
  assert (Q : forall j, In j (seq 0 (length y)) -> 0 <= (if getbit x (nth j y 0%nat) then f j else 0) <= N - 1) by (intros j _; specialize (F j); destruct (getbit _ _); lia).
  specialize (P Q). assert (Z.of_nat (length y) * (N - 1) <= two m * (N - 1)) by (apply Z.mul_le_mono_nonneg_r; lia). pose proof (two_pos m). lia.
Qed.
Section inplace_final.
Context (x : list bool) (y tmp aux aux' : list nat) (N X : Z) (m : nat) (ctrl : option nat).
Let n := length y.
Context (Rg : register (y ++ tmp ++ aux ++ aux' ++ opt_control ctrl) x) (Lt : length tmp = n) (La : length aux = (m + 1)%nat) (La' : length aux' = (m + 1)%nat)
        (Odd : Z.odd N = true) (HN : 3 <= N <= two n) (Zt : value x tmp = 0) (Za : value x aux = 0) (Za' : value x aux' = 0) (HX : 0 <= X) (Cop : Z.gcd X N = 1).
Lemma inplace_shape : X <> 1 -> cq_montgomery_multiply_inplace X y N m false ctrl tmp aux aux' = Some (whole y tmp aux aux' N X m ctrl).
Proof.
  intros X1'. unfold cq_montgomery_multiply_inplace. rewrite (proj2 (Z.eqb_neq X 1) X1').
  rewrite (forward_some y tmp aux aux' N X m) by auto.
  rewrite (proj1 (X1_spec y tmp aux aux' N X m Lt La La' Odd HN HX Cop)).
  rewrite (backward_some y tmp aux aux' N X m) by auto. destruct ctrl; reflexivity.
Qed.
Definition good_result : Prop := exists p, cq_montgomery_multiply_inplace X y N m false ctrl tmp aux aux' = Some p /\
  execute p x = if enabled x ctrl then store x y ((X * value x y) mod N) else x.
Lemma inplace_run : value x y < N ->
  (X <> 1 -> enabled x ctrl = true -> forall X1, (X * X1) mod N = 1 -> 0 <= X1 < N ->
    selected_sum x y (fun j => ((X * two m) mod N * two j) mod N) < N * two m /\
    selected_sum (store x y ((X * value x y) mod N)) y (fun j => ((X1 * two m) mod N * two j) mod N) < N * two m) -> good_result.
Proof.
  intros HV B. unfold good_result. destruct (Z.eq_dec X 1) as [E1|N1].
  - exists []. unfold cq_montgomery_multiply_inplace. rewrite (proj2 (Z.eqb_eq X 1) E1). split; [reflexivity|]. cbn. destruct (enabled x ctrl); [|reflexivity]. rewrite E1, Z.mul_1_l.
    pose proof (value_range x y). rewrite Z.mod_small by lia. symmetry. apply store_value. apply (proj1 (proj1 (register_app _ _ _ Rg))).
  - eexists. split; [apply inplace_shape, N1|]. rewrite enabled_control. destruct (forallb (getbit x) (opt_control ctrl)) eqn:C.
    + destruct (X1_spec y tmp aux aux' N X m Lt La La' Odd HN HX Cop) as (_ & R1 & P1). destruct (B N1) with (X1 := X1 N X) as (B1 & B2); auto; [rewrite enabled_control; exact C|].
      apply whole_on; auto. pose proof (value_range x y). unfold v. lia.
    + apply whole_off; auto.
Qed.
End inplace_final.

(** ** products of registers *)
Lemma stands_shift N s k v K : 2 <= N -> Z.odd N = true -> 0 <= K -> 0 <= s + K ->
  stands_for N s k v <-> 0 <= k < N /\ 0 <= v < N /\ (k * 2 ^ K) mod N = (v * 2 ^ (s + K)) mod N.
Proof.
  intros HN Odd HK HS. unfold stands_for. assert (Can : forall e a b, 0 <= e -> (a * 2 ^ e) mod N = (b * 2 ^ e) mod N <-> a mod N = b mod N).
  { intros e a b He. split; [|intros H; rewrite <- Zmult_mod_idemp_l, H, Zmult_mod_idemp_l; reflexivity]. intros H. rewrite <- (Z2Nat.id e) in H by lia. apply (two_cancel N (Z.to_nat e)); auto. lia. }
  destruct (Z.leb_spec 0 s) as [S|S].
  - rewrite <- (Can K k (v * 2 ^ s) HK), <- Z.mul_assoc, <- Z.pow_add_r by lia. reflexivity.
  - rewrite <- (Can (s + K) (k * 2 ^ (- s)) v HS), <- Z.mul_assoc, <- Z.pow_add_r by lia. replace (- s + (s + K)) with K by lia. reflexivity.
Qed.
Lemma product_means N sa sb ka kb v w m S : 2 <= N -> Z.odd N = true -> stands_for N sa ka v -> stands_for N sb kb w -> (S * two m) mod N = (ka * kb) mod N ->
  stands_for N (sa + sb - Z.of_nat m) (S mod N) ((v * w) mod N).
Proof.
  intros HN Odd Sa Sb E. set (K := Z.abs sa + Z.abs sb). assert (K0 : 0 <= K /\ 0 <= sa + K /\ 0 <= sb + K) by (unfold K; clear; lia). clearbody K. destruct K0 as (K0 & K1 & K2).
  apply (stands_shift N sa ka v K HN Odd K0 K1) in Sa. apply (stands_shift N sb kb w K HN Odd K0 K2) in Sb.
  destruct Sa as (_ & _ & Ea). destruct Sb as (_ & _ & Eb). apply (stands_shift N (sa + sb - Z.of_nat m) (S mod N) ((v * w) mod N) (2 * K + Z.of_nat m) HN Odd ltac:(lia) ltac:(lia)).
  split; [apply Z.mod_pos_bound; lia|]. split; [apply Z.mod_pos_bound; lia|]. rewrite !Zmult_mod_idemp_l.
  replace (sa + sb - Z.of_nat m + (2 * K + Z.of_nat m)) with ((sa + K) + (sb + K)) by lia. rewrite (Z.pow_add_r 2 (sa + K) (sb + K)) by lia. rewrite (Z.pow_add_r 2 (2 * K) (Z.of_nat m)) by lia.
  replace (S * (2 ^ (2 * K) * two m)) with (S * two m * 2 ^ (2 * K)) by ring. rewrite <- Zmult_mod_idemp_l, E, Zmult_mod_idemp_l.
  replace (2 * K) with (K + K) by lia. rewrite (Z.pow_add_r 2 K K) by lia. replace (ka * kb * (2 ^ K * 2 ^ K)) with ((ka * 2 ^ K) * (kb * 2 ^ K)) by ring.
  replace (v * w * (2 ^ (sa + K) * 2 ^ (sb + K))) with ((v * 2 ^ (sa + K)) * (w * 2 ^ (sb + K))) by ring.
  rewrite (Z.mul_mod (ka * 2 ^ K)), Ea, Eb, <- Z.mul_mod by lia. reflexivity.
Qed.
Lemma traced_bound N a b n : 3 <= N -> Z.of_nat n = smallest_power_of_two N -> 0 <= a < N -> 0 <= b < N -> a * b < two (traced_shift N + n).
Proof.
  intros HN En Ha Hb. unfold traced_shift. destruct (smallest_power_spec ((N - 1) ^ 2 + 1)) as (S0 & S1 & _). destruct (smallest_power_spec N) as (_ & _ & M).
  assert (Le : smallest_power_of_two N <= smallest_power_of_two ((N - 1) ^ 2 + 1)) by (apply M; [exact S0|]; nia).
  rewrite Nat2Z.inj_add, Z2Nat.id, En by lia. replace (smallest_power_of_two ((N - 1) ^ 2 + 1) - smallest_power_of_two N + smallest_power_of_two N) with (smallest_power_of_two ((N - 1) ^ 2 + 1)) by lia.
  assert (a * b <= (N - 1) ^ 2) by nia. lia.
Qed.
Lemma traced_run p q res aux z v w : let N := modulus p in let m := traced_shift N in
  modulus q = N -> 3 <= N -> Z.odd N = true -> Z.of_nat (length res) = smallest_power_of_two N -> length aux = (m + 1)%nat ->
  register (aux ++ res) z -> value z aux = 0 -> value z res = 0 -> register (reg q) z -> apart (reg p) (aux ++ res) -> apart (reg q) (aux ++ res) ->
  stands_for N (shift p) (value z (reg p)) v -> stands_for N (shift q) (value z (reg q)) w ->
  exists prog k, mul_traced p q res aux = (prog, mkq res N (shift p + shift q - Z.of_nat m)) /\ execute prog z = store z res k /\
    0 <= k < two (length res) /\ stands_for N (shift p + shift q - Z.of_nat m) (k mod N) ((v * w) mod N) /\
    (value z (reg p) * value z (reg q) < N * two m -> k < N).
Proof.
  intros N m Mq HN Odd En La Rg Za Zr Rq Ap Aq Sp Sq. assert (Sp' := Sp). assert (Sq' := Sq). destruct Sp' as (Kp & _). destruct Sq' as (Kq & _).
  destruct (smallest_power_spec N) as (_ & Fit & _). rewrite <- En in Fit.
  destruct (qq_run z (reg p) (reg q) res aux N m) as (k & E & Hk & C & Red); auto; try lia.
  - destruct res; [cbn in Fit; lia|cbn; lia].
  - apply traced_bound; auto.
  - eexists _, k. split; [reflexivity|]. split; [exact E|]. split; [exact Hk|]. split; [|exact Red]. apply (product_means N (shift p) (shift q) _ _ v w m k ltac:(lia) Odd Sp Sq C).
Qed.
