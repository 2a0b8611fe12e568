(** Proofs about series. *)
From Coq Require Import Reals Lra Lia List Arith Bool Psatz.
Import ListNotations.
From Verif.StatePrep Require Import PrepModel.
From Verif.Cheb Require Import ChebModel ChebSpec.
Local Open Scope R_scope.
Lemma T_0 x : T 0 x = 1. Proof. reflexivity. Qed.
Lemma T_1 x : T 1 x = x. Proof. reflexivity. Qed.
Lemma T_rec n x : T (S (S n)) x = 2 * x * T (S n) x - T n x.
Proof. unfold T. cbn [T2]. destruct (T2 n x) as [a b]. reflexivity. Qed.
Lemma T_cos n t : T n (cos t) = cos (INR n * t) /\ T (S n) (cos t) = cos (INR (S n) * t).
Proof.
  induction n as [|n [A B]]; [rewrite T_0, T_1; cbn [INR]; rewrite Rmult_0_l, cos_0, Rmult_1_l; split; reflexivity|]. split; [exact B|]. rewrite T_rec, A, B. rewrite !S_INR.
  replace ((INR n + 1 + 1) * t) with ((INR n + 1) * t + t) by ring. replace (INR n * t) with ((INR n + 1) * t - t) by ring. rewrite cos_plus, cos_minus. ring.
Qed.
Lemma T_bound n x : -1 <= x <= 1 -> Rabs (T n x) <= 1.
Proof. intros H. rewrite <- (cos_acos x H), (proj1 (T_cos n (acos x))). pose proof (COS_bound (INR n * acos x)). unfold Rabs. destruct (Rcase_abs _); lra. Qed.
(** ** rows *)
Lemma eval_scale r p x : eval (vscale r p) x = r * eval p x.
Proof. induction p as [|a p IH]; cbn; [ring|]. unfold vscale in IH. rewrite IH. ring. Qed.
Lemma eval_sub a : forall b x, length a = length b -> eval (vsub a b) x = eval a x - eval b x.
Proof. induction a as [|u a IH]; intros [|v b] x L; cbn in *; try discriminate; [ring|]. rewrite IH by lia. ring. Qed.
Lemma eval_add a : forall b x, length a = length b -> eval (vadd a b) x = eval a x + eval b x.
Proof. induction a as [|u a IH]; intros [|v b] x L; cbn in *; try discriminate; [ring|]. rewrite IH by lia. ring. Qed.
Lemma eval_zeros N x : eval (repeat 0 N) x = 0. Proof. induction N as [|N IH]; cbn; [reflexivity|rewrite IH; ring]. Qed.
Lemma len_sub a : forall b, length a = length b -> length (vsub a b) = length b.
Proof. induction a as [|u a IH]; intros [|v b] L; cbn in *; try discriminate; [reflexivity|]. rewrite IH; lia. Qed.
Lemma len_add a : forall b, length a = length b -> length (vadd a b) = length b.
Proof. induction a as [|u a IH]; intros [|v b] L; cbn in *; try discriminate; [reflexivity|]. rewrite IH; lia. Qed.
Lemma nth_sub a : forall b i, length a = length b -> nth i (vsub a b) 0 = nth i a 0 - nth i b 0.
Proof. induction a as [|u a IH]; intros [|v b] [|i] L; cbn in *; try discriminate; try ring. apply IH. lia. Qed.
Lemma eval_removelast p x : last p 0 = 0 -> eval (removelast p) x = eval p x.
Proof. induction p as [|a p IH]; intros H; [reflexivity|]. destruct p as [|b p]; [cbn in *; subst; ring|]. change (removelast (a :: b :: p)) with (a :: removelast (b :: p)). cbn [eval] in *. rewrite IH by exact H. reflexivity. Qed.
Lemma len_removelast (p : list R) : length (removelast p) = (length p - 1)%nat.
Proof. induction p as [|a [|b p] IH]; [reflexivity|reflexivity|]. change (removelast (a :: b :: p)) with (a :: removelast (b :: p)). cbn [length] in *. lia. Qed.
Lemma nth_removelast (p : list R) : forall i, (i < length p - 1)%nat -> nth i (removelast p) 0 = nth i p 0.
Proof. induction p as [|a [|b p] IH]; intros [|i] H; cbn [length] in *; try lia; [reflexivity|]. change (removelast (a :: b :: p)) with (a :: removelast (b :: p)). cbn [nth]. apply IH. cbn [length]. lia. Qed.
Lemma last_nth (p : list R) : last p 0 = nth (length p - 1) p 0.
Proof. induction p as [|a [|b p] IH]; [reflexivity|reflexivity|]. change (last (a :: b :: p) 0) with (last (b :: p) 0). rewrite IH. cbn [length]. replace (S (S (length p)) - 1)%nat with (S (S (length p) - 1)) by lia. reflexivity. Qed.
Definition above (n : nat) (p : list R) : Prop := forall i, (n < i)%nat -> nth i p 0 = 0.
Lemma next_row_ok N n a b x : length a = N -> length b = N -> (S n < N)%nat -> above n a -> above n b ->
  length (next_row a b) = N /\ above (S n) (next_row a b) /\ eval (next_row a b) x = 2 * x * eval a x - eval b x.
Proof.
  intros La Lb HN Aa Ab. unfold next_row. assert (E : set_first (vscale 2 (roll a)) = 0 :: vscale 2 (removelast a)) by (destruct a as [|u a]; [cbn in La; lia|reflexivity]). rewrite E.
  assert (L : length (0 :: vscale 2 (removelast a)) = length b) by (cbn [length]; unfold vscale; rewrite map_length, len_removelast; lia). split; [rewrite len_sub; assumption|]. split.
  - intros i Hi. rewrite nth_sub by exact L. rewrite (Ab i) by lia. destruct i as [|i]; [lia|]. cbn [nth]. destruct (Nat.lt_ge_cases i (N - 1)) as [Q|Q].
    + unfold vscale. rewrite (nth_indep _ 0 (2 * 0)) by (rewrite map_length, len_removelast; lia). rewrite map_nth, nth_removelast, (Aa i) by lia. ring.
    + rewrite nth_overflow; [ring|]. unfold vscale. rewrite map_length, len_removelast. lia.
  - rewrite eval_sub by exact L. cbn [eval]. rewrite eval_scale, eval_removelast; [ring|]. rewrite last_nth. apply Aa. lia.
Qed.
Lemma rows_ok N k : forall n a b, length a = N -> length b = N -> (S n + k = N)%nat -> above n a -> above n b -> (forall x, eval a x = T n x) -> (forall x, eval b x = T (n - 1) x) -> (0 < n)%nat ->
  length (rows_from k a b) = k /\ forall j, (j < k)%nat -> length (nth j (rows_from k a b) []) = N /\ forall x, eval (nth j (rows_from k a b) []) x = T (S n + j) x.
Proof.
  induction k as [|k IH]; intros n a b La Lb HN Aa Ab Ea Eb Hn; [split; [reflexivity|intros j J; lia]|]. cbn [rows_from].
  assert (X : forall x, length (next_row a b) = N /\ above (S n) (next_row a b) /\ eval (next_row a b) x = T (S n) x).
  { intros x. destruct (next_row_ok N n a b x La Lb ltac:(lia) Aa Ab) as (A & B & C). split; [exact A|]. split; [exact B|]. rewrite C, Ea, Eb. destruct n as [|n]; [lia|]. rewrite T_rec. cbn [Nat.sub]. rewrite Nat.sub_0_r. reflexivity. }
  destruct (X 0) as (L1 & A1 & _). destruct (IH (S n) (next_row a b) a L1 La ltac:(lia) A1) as [I1 I2]; [intros i Hi; apply Aa; lia|intros x; apply X|intros x; cbn [Nat.sub]; rewrite Nat.sub_0_r; apply Ea|lia|]. split; [cbn [length]; rewrite I1; reflexivity|].
  intros [|j] J; cbn [nth]; [split; [exact L1|intros x; rewrite Nat.add_0_r; apply X]|]. replace (S n + S j)%nat with (S (S n) + j)%nat by lia. apply I2. lia.
Qed.
Lemma unit_len N i : length (unit_row N i) = N. Proof. unfold unit_row. rewrite map_length, seq_length. reflexivity. Qed.
Lemma unit_above N i n : (i <= n)%nat -> above n (unit_row N i).
Proof.
  intros H j J. unfold unit_row. destruct (Nat.lt_ge_cases j N) as [Q|Q]; [|apply nth_overflow; rewrite map_length, seq_length; exact Q].
  set (f := fun j => if (j =? i)%nat then 1 else 0). rewrite (nth_indep _ 0 (f 0%nat)) by (rewrite map_length, seq_length; exact Q). rewrite (map_nth f), seq_nth by exact Q. cbn [Nat.add]. unfold f. replace (j =? i)%nat with false by (symmetry; apply Nat.eqb_neq; lia). reflexivity.
Qed.
Lemma eval_ext p : forall x q, length p = length q -> (forall i, nth i p 0 = nth i q 0) -> eval p x = eval q x.
Proof. induction p as [|a p IH]; intros x [|b q] L H; cbn in *; try discriminate; [reflexivity|]. rewrite (H 0%nat : a = b). rewrite (IH x q); [reflexivity|lia|]. intros i. apply (H (S i)). Qed.
Lemma shifted N s x : (0 < s)%nat -> eval (map (fun j => if (j =? 0)%nat then 1 else 0) (seq s N)) x = 0.
Proof. revert s. induction N as [|N IH]; intros s H; [reflexivity|]. cbn [seq map eval]. rewrite IH by lia. destruct s; [lia|]. cbn. ring. Qed.
Lemma shifted1 N s x : (1 < s)%nat -> eval (map (fun j => if (j =? 1)%nat then 1 else 0) (seq s N)) x = 0.
Proof. revert s. induction N as [|N IH]; intros s H; [reflexivity|]. cbn [seq map eval]. rewrite IH by lia. destruct s as [|[|s]]; [lia|lia|]. cbn. ring. Qed.
Lemma unit0 N x : (0 < N)%nat -> eval (unit_row N 0) x = 1.
Proof. destruct N as [|N]; [lia|]. intros _. unfold unit_row. cbn [seq map eval]. rewrite shifted by lia. cbn. ring. Qed.
Lemma unit1 N x : (1 < N)%nat -> eval (unit_row N 1) x = x.
Proof. destruct N as [|[|N]]; [lia|lia|]. intros _. unfold unit_row. cbn [seq map eval]. rewrite shifted1 by lia. cbn. ring. Qed.
Lemma matrix_ok N : length (matrix N) = N /\ forall j, (j < N)%nat -> length (nth j (matrix N) []) = N /\ forall x, eval (nth j (matrix N) []) x = T j x.
Proof.
  destruct N as [|[|k]]; [split; [reflexivity|lia]|split; [reflexivity|intros [|j] J; [split; [reflexivity|intros x; cbn; ring]|lia]]|]. unfold matrix. set (N := S (S k)).
  destruct (rows_ok N k 1 (unit_row N 1) (unit_row N 0) (unit_len _ _) (unit_len _ _) eq_refl) as [A B]; [apply unit_above; lia|apply unit_above; lia|intros x; apply unit1; unfold N; lia|intros x; apply unit0; unfold N; lia|lia|].
  split; [cbn [length]; rewrite A; reflexivity|]. intros [|[|j]] J; cbn [nth]; [split; [apply unit_len|intros x; apply unit0; unfold N; lia]|split; [apply unit_len|intros x; apply unit1; unfold N; lia]|]. apply (B j). unfold N in J. lia.
Qed.
Lemma dot_ok N n v : forall M x, length M = length v -> (forall j, (j < length v)%nat -> length (nth j M []) = N /\ eval (nth j M []) x = T (n + j) x) -> length (dot N v M) = N /\ eval (dot N v M) x = series n v x.
Proof.
  revert n. induction v as [|c v IH]; intros n [|r M] x L H; cbn [length] in L; try discriminate; cbn [dot series]; [split; [apply repeat_length|apply eval_zeros]|].
  destruct (H 0%nat ltac:(cbn; lia)) as [H1 H2]. cbn [nth] in H1, H2. rewrite Nat.add_0_r in H2. destruct (IH (S n) M x ltac:(lia)) as [I1 I2]; [intros j J; specialize (H (S j) ltac:(cbn; lia)); cbn [nth] in H; rewrite Nat.add_succ_r in H; exact H|].
  assert (L' : length (vscale c r) = length (dot N v M)) by (unfold vscale; rewrite map_length; lia). rewrite len_add, eval_add, eval_scale, H2, I2 by exact L'. split; [exact I1|reflexivity].
Qed.
Lemma cheb2poly_ok c x : length (cheb2poly c) = length c /\ eval (cheb2poly c) x = series 0 c x.
Proof. unfold cheb2poly. destruct (matrix_ok (length c)) as [A B]. apply dot_ok; [exact A|]. intros j J. destruct (B j J) as [B1 B2]. split; [exact B1|apply B2]. Qed.
(** ** cuts *)
Lemma series_app a : forall n b x, series n (a ++ b) x = series n a x + series (n + length a) b x.
Proof. induction a as [|u a IH]; intros n b x; cbn [app series length]; [rewrite Nat.add_0_r; ring|]. rewrite IH, Nat.add_succ_r. cbn [Nat.add]. ring. Qed.
Lemma series_bound c : forall n x, -1 <= x <= 1 -> Rabs (series n c x) <= sum_abs c.
Proof.
  induction c as [|a c IH]; intros n x H; cbn [series]; [rewrite Rabs_R0; cbn; lra|]. cbn [sum_abs fold_right]. eapply Rle_trans; [apply Rabs_triang|]. apply Rplus_le_compat; [|apply IH, H]. rewrite Rabs_mult. pose proof (T_bound n x H). pose proof (Rabs_pos a). nra.
Qed.
Lemma sum_abs_app a b : sum_abs (a ++ b) = sum_abs a + sum_abs b.
Proof. induction a as [|u a IH]; [unfold sum_abs; cbn [app fold_right]; ring|]. cbn [app sum_abs fold_right]. unfold sum_abs in IH. rewrite IH. unfold sum_abs. ring. Qed.
Lemma sum_abs_rev a : sum_abs (rev a) = sum_abs a.
Proof. induction a as [|u a IH]; [reflexivity|]. cbn [rev]. rewrite sum_abs_app, IH. unfold sum_abs. cbn [fold_right]. ring. Qed.
Lemma cut_ok eps tot l : forall i err, err <= eps -> i = length l -> (cut eps tot l i err = tot \/ (exists k, (k < length l)%nat /\ cut eps tot l i err = (i - k)%nat /\ err + sum_abs (firstn k l) <= eps)).
Proof.
  induction l as [|c l IH]; intros i err He Hi; cbn [cut]; [left; reflexivity|]. destruct (Rlt_dec eps (err + Rabs c)) as [Q|Q]; [right; exists 0%nat; cbn; split; [lia|]; split; [lia|lra]|].
  destruct (IH (i - 1)%nat (err + Rabs c) ltac:(lra) ltac:(cbn in Hi; lia)) as [H|(k & K1 & K2 & K3)]; [left; exact H|right]. exists (S k). cbn [length firstn sum_abs fold_right]. split; [lia|]. split; [rewrite K2; lia|]. unfold sum_abs in K3. lra.
Qed.
Lemma trunc_ok eps c : 0 <= eps -> sum_abs (skipn (trunc_idx eps c) c) <= eps.
Proof.
  intros He. unfold trunc_idx. assert (Q : forall k, (k < length c)%nat -> sum_abs (firstn k (rev c)) <= eps -> sum_abs (skipn (Nat.max 1 (length c - k)) c) <= eps).
  { intros k K H. rewrite Nat.max_r by lia. rewrite <- sum_abs_rev. rewrite firstn_rev, sum_abs_rev in H. rewrite sum_abs_rev. exact H. }
  destruct (cut_ok eps (length c) (rev c) (length c) 0 He (eq_sym (rev_length c))) as [H|(k & K1 & K2 & K3)].
  - rewrite H, skipn_all2 by lia. cbn. exact He.
  - rewrite K2. rewrite rev_length in K1. apply Q; [exact K1|lra].
Qed.
Lemma search_ok interp eps maxN fuel : forall N cs r N', search interp eps maxN fuel N cs = (r, N') -> (r = cs \/ exists k, (N * 2 ^ k <= maxN)%nat /\ r = Some (interp (N * 2 ^ k)%nat)) /\
  ((0 < N)%nat -> (maxN < N + fuel)%nat -> (N' <= maxN)%nat -> exists c, r = Some c /\ c = interp N' /\ sum_abs (skipn (N' * 4 / 5) c) < eps).
Proof.
  induction fuel as [|fuel IH]; intros N cs r N' H; cbn [search] in H; [injection H as <- <-; split; [left; reflexivity|lia]|].
  destruct (N <=? maxN)%nat eqn:L; [apply Nat.leb_le in L|apply Nat.leb_gt in L; injection H as <- <-; split; [left; reflexivity|lia]]. destruct (Rlt_dec _ _) as [Q|Q].
  - injection H as <- <-. split; [right; exists 0%nat; cbn; rewrite Nat.mul_1_r; split; [exact L|reflexivity]|]. intros _ _ _. exists (interp N). repeat split; assumption.
  - destruct (IH _ _ _ _ H) as [A B]. split.
    + right. destruct A as [->|(k & K1 & ->)]; [exists 0%nat; cbn; rewrite Nat.mul_1_r; split; [exact L|reflexivity]|]. exists (S k). rewrite Nat.pow_succ_r'. replace (N * (2 * 2 ^ k))%nat with (2 * N * 2 ^ k)%nat by lia. split; [exact K1|reflexivity].
    + intros P F W. apply B; [lia|lia|exact W].
Qed.
Lemma search_some interp eps maxN fuel : forall N c, exists c', fst (search interp eps maxN fuel N (Some c)) = Some c'.
Proof. induction fuel as [|f IH]; intros N c; cbn [search]; [exists c; reflexivity|]. destruct (N <=? maxN)%nat; [|exists c; reflexivity]. cbv zeta. destruct (Rlt_dec _ _); [eexists; reflexivity|]. apply IH. Qed.
Lemma search_fails interp eps maxN fuel : forall N cs r N', search interp eps maxN fuel N cs = (r, N') -> (0 < N)%nat -> (maxN < N + fuel)%nat -> (maxN < N')%nat -> forall k, (N * 2 ^ k <= maxN)%nat -> eps <= sum_abs (skipn ((N * 2 ^ k) * 4 / 5) (interp (N * 2 ^ k)%nat)).
Proof.
  induction fuel as [|f IH]; intros N cs r N' E P F W k K; cbn [search] in E.
  - assert (2 ^ k <> 0)%nat by (apply Nat.pow_nonzero; lia). nia.
  - destruct (Nat.leb_spec N maxN) as [G|G].
    + cbv zeta in E. destruct (Rlt_dec (sum_abs (skipn (N * 4 / 5) (interp N))) eps) as [Q|Q]; [exfalso; apply (f_equal snd) in E; cbn [snd] in E; lia|]. destruct k as [|k]; [cbn [Nat.pow]; rewrite Nat.mul_1_r; lra|].
      replace (N * 2 ^ S k)%nat with (2 * N * 2 ^ k)%nat in * by (cbn [Nat.pow]; lia). apply (IH (2 * N)%nat (Some (interp N)) r N' E); lia.
    + exfalso. assert (2 ^ k <> 0)%nat by (apply Nat.pow_nonzero; lia). nia.
Qed.
Lemma search_used interp eps maxN fuel : forall N c0 r N', search interp eps maxN fuel N c0 = (Some r, N') -> (maxN < N + fuel)%nat -> (0 < N)%nat -> (c0 = Some r /\ (maxN < N')%nat) \/ exists k, (N * 2 ^ k <= maxN)%nat /\ r = interp (N * 2 ^ k)%nat /\ ((N' <= maxN)%nat -> sum_abs (skipn ((N * 2 ^ k) * 4 / 5) r) < eps).
Proof.
  induction fuel as [|f IH]; intros N c0 r N' E F P; cbn [search] in E.
  - left. split; [congruence|]. apply (f_equal snd) in E. cbn [snd] in E. lia.
  - destruct (Nat.leb_spec N maxN) as [G|G]; [|left; split; [congruence|]; apply (f_equal snd) in E; cbn [snd] in E; lia]. right. cbv zeta in E. destruct (Rlt_dec _ _) as [Q|Q].
    + exists 0%nat. cbn [Nat.pow]. rewrite Nat.mul_1_r. assert (R : r = interp N) by congruence. subst r. repeat split; [exact G|]. intros _. exact Q.
    + destruct (IH _ _ _ _ E ltac:(lia) ltac:(lia)) as [[A B]|[k [A [B C]]]].
      * exists 0%nat. cbn [Nat.pow]. rewrite Nat.mul_1_r. repeat split; [exact G|congruence|lia].
      * exists (S k). replace (N * 2 ^ S k)%nat with (2 * N * 2 ^ k)%nat by (cbn [Nat.pow]; lia). repeat split; assumption.
Qed.
