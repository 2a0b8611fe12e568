(** C89: prepare, unbalanced_w_state, the XX+YY gate and dicke_state produce the states they promise. *)
From Coq Require Import List ZArith Reals Lra Lia Bool.
Import ListNotations.
From Verif.Inverse Require Import InvSpec InvProofs.
From Verif.CtrlOps Require Import CtrlComplex.
From Verif.StatePrep Require Import PrepModel PrepSpec PrepNum XxyyProofs WProofs BitrevProofs PrepProofs DickeProofs.
Local Open Scope R_scope.

(** prepare: the amplitude of a basis state x is the entry of the vector with the number of x, divided by the norm; with reversed=True the first qubit is the most significant one.
    For vectors none of whose non-zero entries is smaller than 2^-26 of the norm. *)
Theorem C89_prepare_amplitudes : forall n v reversed c, (n <= 32)%nat -> (forall z, In z v -> modulus z = 0 \/ EPSILON * norm v < modulus z) ->
  prepare n v reversed = Some c -> forall x, length x = n ->
  run c (zero_state n) x = scale (/ norm v) (nth (number (if reversed then rev x else x)) v c0).
Proof. intros n v reversed c B G H x X. apply (prepare_ok n v reversed c); assumption. Qed.
Print Assumptions C89_prepare_amplitudes.

(** prepare raises an error exactly when there are no qubits, the length of the vector is not 2^n or the norm is at most 1e-8 *)
Theorem C89_prepare_accepts : forall n v reversed, prepare n v reversed <> None <-> (1 <= n)%nat /\ length v = (2 ^ n)%nat /\ / 10 ^ 8 < norm v.
Proof.
  intros n v reversed. unfold prepare. destruct (Nat.eqb_spec (length v) (2 ^ n)) as [L|L]; cbn [negb]; [|split; [congruence|tauto]]. destruct (Nat.eqb_spec n 0) as [N|N]; [split; [congruence|lia]|].
  destruct (Rle_dec (norm v) (/ 10 ^ 8)) as [P|P]; split; try congruence; [intros (_ & _ & Q); lra|]. intros _. split; [lia|]. split; [exact L|lra].
Qed.
Print Assumptions C89_prepare_accepts.

(** the index of a node is reversed with a chain of masks and shifts: for every width up to 64 *)
Theorem C89_bit_reverse : forall x, (length x <= 64)%nat -> bit_reverse (Z.of_nat (number x)) (Z.of_nat (length x)) = Z.of_nat (number (rev x)).
Proof. exact reverse_ok. Qed.
Print Assumptions C89_bit_reverse.

Example C89_prepare_used : let v := [(1, 0); (0, 1); (0, 0); (-1, 0)] in (forall z, In z v -> modulus z = 0 \/ EPSILON * norm v < modulus z) /\ prepare 2 v false <> None /\
  (norm v = sqrt 3).
Proof.
  cbn zeta. assert (N : norm [(1, 0); (0, 1); (0, 0); (-1, 0)] = sqrt 3). { unfold norm. f_equal. unfold sum2, norm2. cbn [fold_right fst snd]. ring. }
  assert (S3 : 1 < sqrt 3) by (rewrite <- sqrt_1 at 1; apply sqrt_lt_1; lra). assert (S4 : sqrt 3 < 2) by (replace 2 with (sqrt 4) by (replace 4 with (2 * 2) by ring; apply sqrt_square; lra); apply sqrt_lt_1; lra).
  assert (E2 : EPSILON * 2 < 1). { unfold EPSILON. apply (Rmult_lt_reg_l (2 ^ 26)); [apply pow_lt; lra|]. rewrite <- Rmult_assoc, Rinv_r by (apply pow_nonzero; lra). assert (2 ^ 2 <= 2 ^ 26) by (apply Rle_pow; [lra|lia]). lra. }
  assert (Ep := eps_pos). rewrite N. split; [|split; [|reflexivity]].
  - assert (M : forall z, norm2 z = 1 -> modulus z = 1) by (intros z E; unfold modulus; rewrite E; apply sqrt_1). assert (B : EPSILON * sqrt 3 < 1) by nra.
    intros z [<-|[<-|[<-|[<-|[]]]]]; [right|right|left|right]; try (rewrite M; [exact B|unfold norm2; cbn; ring]). unfold modulus, norm2. cbn. replace (0 * 0 + 0 * 0) with 0 by ring. apply sqrt_0.
  - apply C89_prepare_accepts. split; [lia|]. split; [reflexivity|]. rewrite N. apply Rlt_trans with 1; [|exact S3]. rewrite <- Rinv_1. apply Rinv_lt_contravar; [rewrite Rmult_1_l; apply pow_lt; lra|]. apply Rlt_pow_R1; [lra|lia].
Qed.

(** the XX+YY gate: the identity on |00> and |11>, a rotation of |10> and |01> *)
Theorem C89_xxyy : forall q0 q1 a beta psi x, q0 <> q1 -> (q0 < length x)%nat -> (q1 < length x)%nat -> let on b0 b1 := psi (setbit (setbit x q0 b0) q1 b1) in
  run (xxyy a beta q0 q1) psi x = match getbit x q0, getbit x q1 with
    | true, false => cadd (scale (cos (a / 2)) (on true false)) (cmul (cmul (copp ci) (turn (- beta))) (scale (sin (a / 2)) (on false true)))
    | false, true => cadd (scale (cos (a / 2)) (on false true)) (cmul (cmul (copp ci) (turn beta)) (scale (sin (a / 2)) (on true false)))
    | _, _ => psi x
    end.
Proof.
  intros q0 q1 a beta psi x D B0 B1 on. rewrite (view_here q0 q1 x) at 1. rewrite view_xxyy by assumption. unfold xxyy_map. rewrite (view_here q0 q1 x psi). rewrite !scale_real. destruct (getbit x q0), (getbit x q1); reflexivity.
Qed.
Print Assumptions C89_xxyy.

(** unbalanced_w_state: the amplitude of the basis state with a single 1 at position j is a_j divided by the norm, every other amplitude is zero *)
Theorem C89_w_state : forall n a c, (forall z, In z a -> modulus z = 0 \/ / 10 ^ 15 * norm a < modulus z) -> unbalanced_w_state n a = Some c ->
  (forall j, (j < n)%nat -> run c (zero_state n) (unit_bits n j) = scale (/ norm a) (nth j a c0)) /\
  (forall x, length x = n -> (forall j, (j < n)%nat -> x <> unit_bits n j) -> run c (zero_state n) x = c0).
Proof.
  intros n a c G H. apply w_some in H. cbn zeta in H. destruct H as (L & N & P & U1 & [A O]). split; [|exact O]. intros j J. rewrite A by exact J. rewrite last_exact; [apply nth_scale| |lia].
  assert (0 < / 10 ^ 15) by (apply Rinv_0_lt_compat, pow_lt; lra). assert (Pi : 0 < / norm a) by (apply Rinv_0_lt_compat; lra).
  intros i I. rewrite nth_scale, modulus_scale by lra. destruct (G (nth i a c0)) as [E|E]; [apply nth_In; rewrite map_length in I; exact I|left; rewrite E; ring|right].
  replace (/ 10 ^ 15) with (/ norm a * (/ 10 ^ 15 * norm a)) by (field; lra). apply Rmult_lt_compat_l; assumption.
Qed.
Print Assumptions C89_w_state.

(** and for all amplitudes the state is the promised one up to 1e-15 in each amplitude *)
Theorem C89_w_state_near : forall n a c, unbalanced_w_state n a = Some c ->
  (forall j, (j < n)%nat -> modulus (csub (run c (zero_state n) (unit_bits n j)) (scale (/ norm a) (nth j a c0))) <= / 10 ^ 15) /\
  (forall x, length x = n -> (forall j, (j < n)%nat -> x <> unit_bits n j) -> run c (zero_state n) x = c0).
Proof.
  intros n a c H. apply w_some in H. cbn zeta in H. destruct H as (L & N & P & U1 & [A O]). split; [|exact O]. intros j J. rewrite A by exact J. rewrite <- nth_scale. apply last_near. lia.
Qed.
Print Assumptions C89_w_state_near.

Theorem C89_w_state_accepts : forall n a, unbalanced_w_state n a <> None <-> length a = n /\ / 10 ^ 15 <= norm a.
Proof.
  intros n a. unfold unbalanced_w_state. destruct (Nat.eqb_spec n (length a)) as [L|L]; cbn [negb]; [|split; [congruence|intros [E _]; congruence]].
  destruct (Rlt_dec (norm a) (/ 10 ^ 15)) as [P|P]; [split; [congruence|intros [_ Q]; lra]|]. split; [|destruct (n =? 1)%nat; discriminate]. intros _. split; [congruence|lra].
Qed.
Print Assumptions C89_w_state_accepts.

Example C89_w_state_used : let a := [(0, 1); (2, 0); (0, 0)] in (forall z, In z a -> modulus z = 0 \/ / 10 ^ 15 * norm a < modulus z) /\ unbalanced_w_state 3 a <> None.
Proof.
  cbn zeta. assert (N : norm [(0, 1); (2, 0); (0, 0)] = sqrt 5). { unfold norm. f_equal. unfold sum2, norm2. cbn [fold_right fst snd]. ring. }
  assert (S1 : 1 < sqrt 5) by (rewrite <- sqrt_1 at 1; apply sqrt_lt_1; lra). assert (S3 : sqrt 5 < 3) by (replace 3 with (sqrt 9) by (replace 9 with (3 * 3) by ring; apply sqrt_square; lra); apply sqrt_lt_1; lra).
  assert (E3 : / 10 ^ 15 * 3 < 1). { apply (Rmult_lt_reg_l (10 ^ 15)); [apply pow_lt; lra|]. rewrite <- Rmult_assoc, Rinv_r by (apply pow_nonzero; lra). assert (10 ^ 1 <= 10 ^ 15) by (apply Rle_pow; [lra|lia]). lra. }
  assert (Ep : 0 < / 10 ^ 15) by (apply Rinv_0_lt_compat, pow_lt; lra). assert (B : / 10 ^ 15 * sqrt 5 < 1) by nra. rewrite N. split.
  - intros z [<-|[<-|[<-|[]]]]; [right|right|left]; unfold modulus, norm2; cbn [fst snd].
    + replace (0 * 0 + 1 * 1) with 1 by ring. rewrite sqrt_1. exact B.
    + replace (2 * 2 + 0 * 0) with (2 * 2) by ring. rewrite sqrt_square by lra. lra.
    + replace (0 * 0 + 0 * 0) with 0 by ring. apply sqrt_0.
  - apply C89_w_state_accepts. split; [reflexivity|]. rewrite N. lra.
Qed.

(** dicke_state: from k ones on the last k of n qubits, the superposition of all basis states with k ones, with equal amplitudes *)
Theorem C89_dicke : forall n k, (1 <= k)%nat -> (k <= n)%nat -> forall x, length x = n ->
  run (dicke_state n k) (basis_state (repeat false (n - k) ++ repeat true k)) x = if (weight x =? k)%nat then (1 / sqrt (INR (choose n k)), 0) else c0.
Proof. intros n k K1 Kn x L. rewrite (dicke_run n k K1 Kn x L). destruct (weight x =? k)%nat; reflexivity. Qed.
Print Assumptions C89_dicke.
Example C89_dicke_used : choose 4 2 = 6%nat /\ length (dicke_state 4 2) = 15%nat /\ weight [true; false; false; true] = 2%nat.
Proof. split; [reflexivity|]. split; reflexivity. Qed.
