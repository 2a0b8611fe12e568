(** prepare: the tree of rotations. *)
From Coq Require Import List ZArith Reals Lra Lia Bool Permutation.
Import ListNotations.
From Verif.Inverse Require Import InvSpec InvProofs.
From Verif.CtrlOps Require Import CtrlComplex.
From Verif.StatePrep Require Import PrepModel PrepSpec PrepNum XxyyProofs WProofs BitrevProofs.
Local Open Scope R_scope.

(** ** one qubit after the other *)
Definition upto (n l : nat) (A : list bool -> cplx) (psi : state) : Prop :=
  forall x, length x = n -> psi x = if forallb negb (skipn l x) then A (firstn l x) else c0.
Lemma skipn_at (x : list bool) l : (l < length x)%nat -> skipn l x = getbit x l :: skipn (S l) x.
Proof. revert l. induction x as [|b x IH]; cbn [length]; intros l H; [lia|]. destruct l; [reflexivity|]. cbn [skipn]. rewrite IH by lia. unfold getbit. cbn [nth]. destruct x; [cbn in H; lia|reflexivity]. Qed.
Lemma skipn_set (x : list bool) l b : skipn (S l) (setbit x l b) = skipn (S l) x.
Proof. revert l. induction x as [|a x IH]; intros l; [reflexivity|]. destruct l; [reflexivity|]. exact (IH l). Qed.
Lemma firstn_set (x : list bool) l b : firstn l (setbit x l b) = firstn l x.
Proof. revert l. induction x as [|a x IH]; intros l; [reflexivity|]. destruct l; [reflexivity|]. cbn [setbit firstn]. rewrite IH. reflexivity. Qed.
Lemma firstn_at (x : list bool) l : (l < length x)%nat -> firstn (S l) x = firstn l x ++ [getbit x l].
Proof. revert l. induction x as [|a x IH]; cbn [length]; intros l H; [lia|]. destruct l; [reflexivity|]. cbn [firstn app]. rewrite <- IH by lia. reflexivity. Qed.
Lemma upto_step n l A psi g (f : list bool -> u3) : (l < n)%nat -> (forall x, length x = n -> apply g psi x = act (f (firstn l x)) l psi x) -> upto n l A psi ->
  upto n (S l) (fun q => cmul (u3m (f (firstn l q)) (nth l q false) false) (A (firstn l q))) (apply g psi).
Proof.
  intros L E H x X. rewrite E by exact X. unfold act, on_qubit. rewrite !H by (rewrite setbit_length; exact X). rewrite !(skipn_at (setbit x l _) l) by (rewrite setbit_length; lia).
  rewrite !getbit_set_same by lia. rewrite !skipn_set, !firstn_set. cbn [forallb negb andb]. rewrite firstn_at by lia.
  replace (firstn l (firstn l x ++ [getbit x l])) with (firstn l x) by (rewrite firstn_app, firstn_firstn, Nat.min_id, firstn_length, Nat.min_l, Nat.sub_diag, app_nil_r by lia; reflexivity).
  replace (nth l (firstn l x ++ [getbit x l]) false) with (getbit x l) by (rewrite app_nth2; rewrite firstn_length, Nat.min_l by lia; [rewrite Nat.sub_diag; reflexivity|lia]).
  destruct (forallb negb (skipn (S l) x)); ring.
Qed.
Lemma upto_0 n : upto n 0 (fun _ => c1) (zero_state n).
Proof.
  intros x L. cbn [skipn]. unfold zero_state, basis_state. destruct (bits_eqb x (repeat false n)) eqn:E.
  - apply bits_eqb_eq in E. subst x. replace (forallb negb (repeat false n)) with true; [reflexivity|]. clear. induction n; [reflexivity|exact IHn].
  - destruct (forallb negb x) eqn:F; [|reflexivity]. exfalso. assert (x = repeat false n) by (subst n; clear - F; induction x as [|b x IH]; cbn [forallb repeat length] in *; [reflexivity|]; destruct b; [discriminate|]; rewrite <- IH by exact F; reflexivity).
    apply bits_eqb_eq in H. congruence.
Qed.
Lemma upto_ext n l A B psi : (l <= n)%nat -> (forall p, length p = l -> A p = B p) -> upto n l A psi -> upto n l B psi.
Proof. intros L E H x X. rewrite H by exact X. rewrite E by (rewrite firstn_length; lia). reflexivity. Qed.
(** ** the nodes *)
Section tree.
Context (root : node).
Definition node_of (n : node) (p : list bool) : node := fold_left (fun n b => child b n) p n.
Lemma nth_pairs (l : list node) j b d : (j < length l)%nat -> nth ((if b : bool then 1 else 0) + 2 * j) (flat_map (fun n => [child false n; child true n]) l) d = child b (nth j l d).
Proof.
  revert j. induction l as [|n l IH]; cbn [length]; intros j H; [lia|]. cbn [flat_map app]. destruct j as [|j]; [destruct b; reflexivity|].
  replace ((if b then 1 else 0) + 2 * S j)%nat with (S (S ((if b then 1 else 0) + 2 * j))) by lia. cbn [nth]. apply IH. lia.
Qed.
Lemma layer_length l : length (layer root l) = (2 ^ l)%nat.
Proof. induction l as [|l IH]; [reflexivity|]. cbn [layer Nat.pow]. rewrite <- IH. clear IH. induction (layer root l) as [|n k IH]; [reflexivity|]. cbn [flat_map app length]. rewrite IH. lia. Qed.
Lemma layer_at p d : nth (number (rev p)) (layer root (length p)) d = node_of root p.
Proof.
  induction p as [|b p IH] using rev_ind; [reflexivity|]. rewrite rev_app_distr, app_length. cbn [rev app length]. rewrite Nat.add_1_r. cbn [layer number].
  rewrite nth_pairs by (rewrite layer_length, <- rev_length; apply number_lt). rewrite IH. unfold node_of. rewrite fold_left_app. reflexivity.
Qed.
Lemma index_bits (x : list bool) l : (l <= length x)%nat -> map (getbit x) (seq 0 l) = firstn l x.
Proof. revert l. induction x as [|b x IH]; cbn [length]; intros l H; [destruct l; [reflexivity|lia]|]. destruct l as [|l]; [reflexivity|]. cbn [seq map firstn]. f_equal. rewrite <- seq_shift, map_map. apply IH. lia. Qed.
Lemma node_at_ok (x : list bool) l : (l <= length x)%nat -> (l <= 64)%nat -> node_at (layer root l) l (number (map (getbit x) (seq 0 l))) = node_of root (firstn l x).
Proof.
  intros L B. unfold node_at. rewrite index_bits by exact L. assert (E : length (firstn l x) = l) by (rewrite firstn_length; lia). set (p := firstn l x) in *. rewrite <- E. rewrite reverse_ok by lia. rewrite Nat2Z.id. apply layer_at.
Qed.
End tree.
Definition factor (n : node) (b : bool) : cplx := u3m (ry (node_theta n)) b false.
Definition leaf (n : node) (b : bool) : cplx := u3m (node_u3 n) b false.
Fixpoint pre (n : node) (p : list bool) : cplx := match p with [] => c1 | b :: p => cmul (factor n b) (pre (child b n) p) end.
Lemma pre_last n p b : pre n (p ++ [b]) = cmul (factor (node_of n p) b) (pre n p).
Proof. revert n. induction p as [|c p IH]; intros n; cbn [app pre]; [reflexivity|]. rewrite IH. unfold node_of. cbn [fold_left]. ring. Qed.
Definition amp_of (n : node) (x : list bool) : cplx := cmul (leaf (node_of n (removelast x)) (last x false)) (pre n (removelast x)).
Lemma snoc_of (p : list bool) l : length p = S l -> p = firstn l p ++ [nth l p false].
Proof. intros H. change (nth l p false) with (getbit p l). rewrite <- (firstn_at p l) by lia. symmetry. apply firstn_all2. lia. Qed.
(** ** the run of the circuit *)
Lemma layers_run n root k : (1 <= n)%nat -> (n <= 64)%nat -> (k <= n - 2)%nat ->
  upto n (S k) (pre root) (run (U (ry (node_theta root)) 0 :: map (fun l => Mux (seq 0 l) (fun i => ry (node_theta (node_at (layer root l) l i))) l) (seq 1 k)) (zero_state n)).
Proof.
  intros N B. induction k as [|k IH]; intros K.
  - cbn [seq map run fold_left]. eapply upto_ext; [lia| |apply (upto_step n 0 (fun _ => c1) (zero_state n) (U (ry (node_theta root)) 0) (fun _ => ry (node_theta root)))]; [|lia|reflexivity|apply upto_0].
    intros p P. destruct p as [|b [|c p]]; try discriminate. cbn [nth firstn pre]. unfold factor. ring.
  - rewrite seq_S, map_app. change (?g :: ?l ++ ?m) with ((g :: l) ++ m). rewrite run_app. specialize (IH ltac:(lia)). cbn [map]. cbn [run fold_left]. fold (run (U (ry (node_theta root)) 0 :: map (fun l => Mux (seq 0 l) (fun i => ry (node_theta (node_at (layer root l) l i))) l) (seq 1 k)) (zero_state n)).
    eapply upto_ext; [lia| |apply (upto_step n (1 + k) (pre root) _ _ (fun q => ry (node_theta (node_of root q))))]; [| |  |exact IH].
    + intros p P. cbn [plus]. rewrite (snoc_of p (S k) P) at 4. rewrite pre_last. reflexivity.
    + lia.
    + intros x X. cbn [apply]. rewrite node_at_ok by lia. reflexivity.
Qed.
Lemma circuit_run n v : (1 <= n)%nat -> (n <= 64)%nat -> forall x, length x = n ->
  run (if (n =? 1)%nat then [U (node_u3 (v, 0)) 0] else
    [U (ry (node_theta (v, 0))) 0] ++ map (fun l => Mux (seq 0 l) (fun i => ry (node_theta (node_at (layer (v, 0) l) l i))) l) (seq 1 (n - 2))
    ++ [Mux (seq 0 (n - 1)) (fun i => node_u3 (node_at (layer (v, 0) (n - 1)) (n - 1) i)) (n - 1)]) (zero_state n) x = amp_of (v, 0) x.
Proof.
  intros N B x X. set (root := (v, 0)). destruct (Nat.eqb_spec n 1) as [E|D].
  - rewrite E in X |- *. clear E. cbn [run fold_left]. assert (W := upto_step 1 0 (fun _ => c1) (zero_state 1) (U (node_u3 root) 0) (fun _ => node_u3 root) ltac:(lia) ltac:(reflexivity) (upto_0 1) x X).
    rewrite W. rewrite skipn_all2 by lia. cbn [forallb]. destruct x as [|b [|c x]]; try discriminate. reflexivity.
  - rewrite app_assoc, run_app. cbn [app]. assert (H := layers_run n root (n - 2) N B ltac:(lia)). replace (S (n - 2)) with (n - 1)%nat in H by lia. set (psi := run _ (zero_state n)) in *.
    cbn [run fold_left]. assert (W := upto_step n (n - 1) (pre root) psi (Mux (seq 0 (n - 1)) (fun i => node_u3 (node_at (layer root (n - 1)) (n - 1) i)) (n - 1)) (fun q => node_u3 (node_of root q)) ltac:(lia)).
    rewrite W; [|intros y Y; cbn [apply]; rewrite node_at_ok by lia; reflexivity|exact H|exact X]. replace (S (n - 1)) with n by lia. rewrite skipn_all2 by lia. cbn [forallb].
    rewrite (firstn_all2 x) by lia. assert (Q := snoc_of x (n - 1) ltac:(lia)). unfold amp_of. rewrite Q at 4 5 6. rewrite removelast_last, last_last. reflexivity.
Qed.
(** ** the amplitudes *)
Definition half (b : bool) (v : list cplx) : list cplx := if b then skipn (length v / 2) v else firstn (length v / 2) v.
Fixpoint at_ (v : list cplx) (x : list bool) : cplx := match x with [] => nth 0 v c0 | b :: x => at_ (half b v) x end.
Lemma at_map f v x : f c0 = c0 -> at_ (map f v) x = f (at_ v x).
Proof.
  intros F. revert v. induction x as [|b x IH]; intros v; cbn [at_].
  - rewrite <- (map_nth f). rewrite F. reflexivity.
  - rewrite <- IH. f_equal. unfold half. rewrite map_length. destruct b; [apply skipn_map | apply firstn_map].
Qed.
Lemma half_length b v k : length v = (2 ^ S k)%nat -> length (half b v) = (2 ^ k)%nat.
Proof. intros L. unfold half. rewrite L. cbn [Nat.pow]. rewrite (Nat.mul_comm 2), Nat.div_mul by lia. destruct b; [rewrite skipn_length|rewrite firstn_length]; rewrite L; cbn [Nat.pow]; lia. Qed.
Lemma nth_firstn_lt {A} (l : list A) k i d : (i < k)%nat -> nth i (firstn k l) d = nth i l d.
Proof. revert k i. induction l as [|a l IH]; intros [|k] [|i] H; try reflexivity; try lia. cbn [firstn nth]. apply IH. lia. Qed.
Lemma nth_skipn_add {A} (l : list A) k i d : nth i (skipn k l) d = nth (k + i) l d.
Proof. revert k. induction l as [|a l IH]; intros [|k]; try reflexivity; [destruct i; reflexivity|]. cbn [skipn plus nth]. apply IH. Qed.
Lemma at_nth v x : length v = (2 ^ length x)%nat -> at_ v x = nth (number (rev x)) v c0.
Proof.
  revert v. induction x as [|b x IH]; intros v L; cbn [at_]; [reflexivity|]. cbn [length] in L. rewrite IH by (apply half_length, L). cbn [rev]. rewrite number_app. cbn [number]. rewrite rev_length.
  assert (B := number_lt (rev x)). rewrite rev_length in B. unfold half. rewrite L. cbn [Nat.pow]. rewrite (Nat.mul_comm 2), Nat.div_mul by lia. destruct b.
  - rewrite nth_skipn_add. f_equal. lia.
  - rewrite nth_firstn_lt by exact B. f_equal. lia.
Qed.
Definition good (v : list cplx) : Prop := norm v = 1 /\ forall z, In z v -> modulus z = 0 \/ EPSILON < modulus z.
Lemma eps_pos : 0 < EPSILON. Proof. apply Rinv_0_lt_compat, pow_lt. lra. Qed.
Lemma eps_lt : EPSILON < 1. Proof. unfold EPSILON. rewrite <- Rinv_1. apply Rinv_lt_contravar; [rewrite Rmult_1_l; apply pow_lt; lra|]. apply Rlt_pow_R1; [lra|lia]. Qed.
Lemma halves v : sum2 v = sum2 (half false v) + sum2 (half true v).
Proof. unfold half. rewrite <- sum2_app, firstn_skipn. reflexivity. Qed.
Lemma half_in b v z : In z (half b v) -> In z v.
Proof. intros H. rewrite <- (firstn_skipn (length v / 2) v). apply in_or_app. destruct b; [right|left]; exact H. Qed.
Lemma norms_sum v : norm v = 1 -> norm (half false v) * norm (half false v) + norm (half true v) * norm (half true v) = 1.
Proof. intros H. rewrite !norm_sq, <- halves, <- norm_sq, H. ring. Qed.
Lemma norm_half_1 v b : norm v = 1 -> 0 <= norm (half b v) <= 1.
Proof. intros H. pose proof (norms_sum v H). pose proof (norm_pos (half false v)). pose proof (norm_pos (half true v)). destruct b; nra. Qed.
Lemma rmin_1 r : r <= 1 -> Rmin 1 r = r. Proof. intros H. apply Rmin_right, H. Qed.
Lemma theta_node v acc : node_theta (v, acc) = 2 * acos (Rmin 1 (norm (half false v))).
Proof. unfold node_theta, normalize_with_phase, half. destruct (Rlt_dec EPSILON _); reflexivity. Qed.
Lemma factor_ok v acc b : norm v = 1 -> factor (v, acc) b = real (norm (half b v)).
Proof.
  intros H. unfold factor. rewrite m_ry, theta_node, rmin_1 by (apply norm_half_1, H). destruct (half_acos _ (norm_half_1 v false H)) as [C Q]. rewrite C, Q. destruct b; [|reflexivity]. f_equal.
  replace (1 - norm (half false v) * norm (half false v)) with (norm (half true v) * norm (half true v)) by (pose proof (norms_sum v H); lra). apply sqrt_square, norm_pos.
Qed.
Lemma modulus_eq z w : norm2 z = norm2 w -> modulus z = modulus w. Proof. intros H. unfold modulus. rewrite H. reflexivity. Qed.
Lemma modulus_le_norm z v : In z v -> modulus z <= norm v.
Proof. intros H. unfold modulus, norm. apply sqrt_le_1_alt, sum2_in, H. Qed.
Lemma small_zero v : (forall z, In z v -> modulus z = 0 \/ EPSILON < modulus z) -> norm v <= EPSILON -> norm v = 0.
Proof.
  intros G L. assert (Z : sum2 v = 0).
  { assert (A : forall z, In z v -> norm2 z = 0). { intros z I. destruct (G z I) as [E|E]; [rewrite <- modulus_sq, E; ring|]. pose proof (modulus_le_norm z v I). lra. }
    clear - A. induction v as [|z v IH]; [apply sum2_nil|]. rewrite sum2_cons, (A z) by (left; reflexivity). rewrite IH; [ring|]. intros w W. apply A. right. exact W. }
  unfold norm. rewrite Z. apply sqrt_0.
Qed.
Definition unphase (r alpha : R) (z : cplx) : cplx := scale (/ r) (cmul (turn (- alpha)) z).
Lemma modulus_unphase r al z : 0 < r -> modulus (unphase r al z) = / r * modulus z.
Proof. intros H. unfold unphase. rewrite modulus_scale by (left; apply Rinv_0_lt_compat, H). f_equal. apply modulus_eq, norm2_turn. Qed.
Lemma unphase_back r al acc z : 0 < r -> cmul (real r) (cmul (turn (acc + al)) (unphase r al z)) = cmul (turn acc) z.
Proof.
  intros H. unfold unphase. rewrite scale_real, turn_add. transitivity (cmul (cmul (real r) (real (/ r))) (cmul (cmul (turn al) (turn (- al))) (cmul (turn acc) z))); [ring|].
  rewrite turn_opp, <- real_mul, Rinv_r, real_1 by lra. ring.
Qed.
Lemma norm_unphase r al v : 0 < r -> norm (map (unphase r al) v) = / r * norm v.
Proof.
  intros H. assert (E : sum2 (map (unphase r al) v) = / r * / r * sum2 v). { clear - H. induction v as [|z v IH]; cbn [map]; [rewrite sum2_nil; ring|]. rewrite !sum2_cons, IH. unfold unphase. rewrite norm2_scale, norm2_turn. ring. }
  assert (0 < / r) by (apply Rinv_0_lt_compat, H). unfold norm. rewrite E. rewrite sqrt_mult_alt by nra. rewrite sqrt_square by lra. reflexivity.
Qed.
Lemma child_ok v acc b : good v -> let w := half b v in
  (norm w = 0) \/ (0 < norm w /\ exists al, child b (v, acc) = (map (unphase (norm w) al) w, acc + al) /\ good (map (unphase (norm w) al) w)).
Proof.
  intros [N G] w. assert (Gw : forall z, In z w -> modulus z = 0 \/ EPSILON < modulus z) by (intros z Z; apply G, (half_in b), Z). assert (Pe := eps_pos).
  destruct (Rle_dec (norm w) EPSILON) as [L|L]; [left; apply small_zero; assumption|right]. assert (P : 0 < norm w) by lra. split; [exact P|]. exists (arg (nth 0 w c0)).
  split; [|split].
  - unfold child, normalize_with_phase. fold (half b v). fold w. destruct (Rlt_dec EPSILON (norm w)) as [|X]; [reflexivity|lra].
  - rewrite norm_unphase by exact P. field. lra.
  - intros z Z. apply in_map_iff in Z. destruct Z as (y & <- & Y). rewrite modulus_unphase by exact P. destruct (Gw y Y) as [E|E]; [left; rewrite E; ring|right].
    assert (N1 := norm_half_1 v b N). fold w in N1. assert (1 <= / norm w) by (rewrite <- Rinv_1; apply Rinv_le_contravar; lra). pose proof (modulus_pos y). nra.
Qed.
Lemma leaf_ok v acc b : good v -> length v = 2%nat -> leaf (v, acc) b = cmul (turn acc) (nth (if b then 1 else 0) v c0).
Proof.
  intros [N G] L. destruct v as [|z0 [|z1 [|]]]; try discriminate. unfold leaf, node_u3, normalize_with_phase. rewrite N. destruct (Rlt_dec EPSILON 1) as [|X]; [|exfalso; apply X, eps_lt].
  cbn [nth map]. set (al := arg z0). set (w0 := scale (/ 1) (cmul (turn (- al)) z0)). set (w1 := scale (/ 1) (cmul (turn (- al)) z1)).
  assert (S1 : modulus z0 * modulus z0 + modulus z1 * modulus z1 = 1). { rewrite !modulus_sq. assert (Q := norm_sq [z0; z1]). rewrite N, !sum2_cons, sum2_nil in Q. lra. }
  assert (M0 := modulus_pos z0). assert (M1 := modulus_pos z1).
  assert (W0 : w0 = real (modulus z0)). { unfold w0. rewrite <- (turn_arg z0) at 1. fold al. transitivity (cmul (cmul (turn al) (turn (- al))) (real (modulus z0))); [|rewrite turn_opp; ring]. rewrite Rinv_1, scale_real, real_1. ring. }
  assert (W1 : modulus w1 = modulus z1) by (unfold w1; change (modulus (unphase 1 al z1) = modulus z1); rewrite modulus_unphase by lra; field).
  assert (W1' : cmul (turn (acc + al)) w1 = cmul (turn acc) z1). { rewrite <- (unphase_back 1 al acc z1) by lra. rewrite real_1. unfold w1, unphase. ring. }
  rewrite W0. unfold rot_params. cbn [fst real theta phi lam gp]. rewrite clip_id by nra. unfold u3m, u3_matrix. cbn [theta phi lam gp]. destruct (half_acos (modulus z0) ltac:(nra)) as [-> ->].
  replace (1 - modulus z0 * modulus z0) with (modulus z1 * modulus z1) by lra. rewrite sqrt_square by exact M1. fold (turn (acc + al)). change (modulus z0, 0) with (real (modulus z0)). change (modulus z1, 0) with (real (modulus z1)).
  destruct b.
  - match goal with |- cmul (cmul (cos ?t, sin ?t) _) _ = _ => fold (turn t); set (ph := t) end. assert (E : cmul (real (modulus z1)) (turn ph) = w1).
    { unfold ph. rewrite W1. destruct (Rlt_dec EPSILON (modulus z1)) as [X|X]; [rewrite <- W1; apply turn_arg|]. destruct (G z1) as [Z|Z]; [right; left; reflexivity| |contradiction].
      rewrite Z, real_0. assert (w1 = c0) as ->; [|ring]. apply norm2_zero. rewrite <- modulus_sq, W1, Z. ring. }
    rewrite <- W1', <- E. ring.
  - rewrite turn_add. rewrite <- (turn_arg z0) at 2. fold al. ring.
Qed.
Lemma amp_step n b x : x <> [] -> amp_of n (b :: x) = cmul (factor n b) (amp_of (child b n) x).
Proof. intros H. unfold amp_of. destruct x as [|c x]; [congruence|]. change (removelast (b :: c :: x)) with (b :: removelast (c :: x)). change (last (b :: c :: x) false) with (last (c :: x) false). unfold node_of. cbn [fold_left pre]. ring. Qed.
Lemma amp_ok x v acc : x <> [] -> length v = (2 ^ length x)%nat -> good v -> amp_of (v, acc) x = cmul (turn acc) (at_ v x).
Proof.
  revert v acc. induction x as [|b x IH]; intros v acc X L G; [congruence|]. destruct x as [|c x].
  - change (length [b]) with 1%nat in L. unfold amp_of. change (removelast [b]) with (@nil bool). change (last [b] false) with b. change (node_of (v, acc) []) with (v, acc). cbn [pre]. rewrite leaf_ok by assumption.
    rewrite at_nth by exact L. cbn [rev app number]. rewrite Nat.mul_0_r, Nat.add_0_r. ring.
  - rewrite amp_step by discriminate. rewrite factor_ok by apply G. remember (c :: x) as y eqn:Y. cbn [at_]. assert (Ly : length (half b v) = (2 ^ length y)%nat) by (apply half_length, L). destruct (child_ok v acc b G) as [Z|(P & al & E & Gc)].
    + rewrite Z, real_0. rewrite (at_nth (half b v)) by exact Ly. rewrite norm_zero by exact Z. ring.
    + rewrite E, IH; [|subst y; discriminate|rewrite map_length; exact Ly|exact Gc]. rewrite at_map by (unfold unphase; apply cplx_eq; cbn; ring). apply unphase_back, P.
Qed.
(** ** prepare *)
Lemma number_onto n j : (j < 2 ^ n)%nat -> exists x, length x = n /\ number x = j.
Proof.
  revert j. induction n as [|n IH]; intros j H; [exists []; split; [reflexivity|]; cbn in *; lia|]. cbn [Nat.pow] in H. destruct (IH (j / 2)%nat) as (x & L & E); [apply Nat.div_lt_upper_bound; lia|].
  exists (Nat.odd j :: x). split; [cbn; lia|]. cbn [number]. rewrite E. assert (D := Nat.div2_odd j). rewrite Nat.div2_div in D. destruct (Nat.odd j); cbn [Nat.b2n] in D; lia.
Qed.
Lemma sum2_perm u v : Permutation u v -> sum2 u = sum2 v.
Proof. induction 1; rewrite ?sum2_cons; lra. Qed.
Lemma map_nth_seq (v : list cplx) : map (fun i => nth i v c0) (seq 0 (length v)) = v.
Proof. induction v as [|z v IH]; [reflexivity|]. cbn [length seq map nth]. f_equal. rewrite <- seq_shift, map_map. exact IH. Qed.
Lemma swap_perm v n : length v = (2 ^ n)%nat -> Permutation (swap_endianness v n) v.
Proof.
  intros L. set (f := fun j => Z.to_nat (bitrev_index n (Z.of_nat j))). assert (F : forall x, length x = n -> f (number x) = number (rev x)) by (intros x X; unfold f; rewrite <- X, bitrev_ok, Nat2Z.id; reflexivity).
  assert (P : Permutation (map f (seq 0 (2 ^ n))) (seq 0 (2 ^ n))).
  { apply NoDup_Permutation_bis.
    - apply (NoDup_map_inv f). rewrite map_map. replace (map (fun x => f (f x)) (seq 0 (2 ^ n))) with (seq 0 (2 ^ n)); [apply seq_NoDup|].
      rewrite <- (map_id (seq 0 (2 ^ n))) at 1. apply map_ext_in. intros j J. apply in_seq in J. destruct (number_onto n j) as (x & X & <-); [lia|]. rewrite F by exact X. rewrite F by (rewrite rev_length; exact X). rewrite rev_involutive. reflexivity.
    - rewrite map_length. lia.
    - intros j J. apply in_map_iff in J. destruct J as (i & <- & I). apply in_seq in I. destruct (number_onto n i) as (x & X & <-); [lia|]. rewrite F by exact X. apply in_seq. assert (B := number_lt (rev x)). rewrite rev_length, X in B. lia. }
  apply (Permutation_map (fun i => nth i v c0)) in P. rewrite map_map in P. rewrite <- L in P at 2. rewrite map_nth_seq in P. exact P.
Qed.
Lemma good_perm u v : Permutation u v -> good v -> good u.
Proof. intros P [N G]. split; [unfold norm in *; rewrite (sum2_perm _ _ P); exact N|]. intros z Z. apply G. eapply Permutation_in; [exact P|exact Z]. Qed.
Lemma prepare_ok n v reversed c : (n <= 32)%nat -> (forall z, In z v -> modulus z = 0 \/ EPSILON * norm v < modulus z) -> prepare n v reversed = Some c ->
  forall x, length x = n -> run c (zero_state n) x = scale (/ norm v) (nth (number (if reversed then rev x else x)) v c0).
Proof.
  intros B G H x X. unfold prepare in H. destruct (Nat.eqb_spec (length v) (2 ^ n)) as [L|]; [|discriminate]. cbn [negb] in H. destruct (Nat.eqb_spec n 0) as [|N]; [discriminate|].
  destruct (Rle_dec (norm v) (/ 10 ^ 8)) as [|P]; [discriminate|]. injection H as <-. assert (Pv : 0 < norm v). { assert (0 < / 10 ^ 8) by (apply Rinv_0_lt_compat, pow_lt; lra). lra. }
  unfold prepare_qswitch. set (t := map (scale (/ norm v)) v). assert (T1 : norm t = 1) by (apply norm_unit, Pv).
  assert (Gt : good t). { split; [exact T1|]. intros z Z. apply in_map_iff in Z. destruct Z as (y & <- & Y). assert (0 < / norm v) by (apply Rinv_0_lt_compat, Pv). rewrite modulus_scale by lra. destruct (G y Y) as [E|E]; [left; rewrite E; ring|right].
    replace EPSILON with (/ norm v * (EPSILON * norm v)) by (field; lra). apply Rmult_lt_compat_l; assumption. }
  assert (Lt : length t = (2 ^ n)%nat) by (unfold t; rewrite map_length; exact L).
  rewrite T1. replace (map (scale (/ 1)) t) with t. 2:{ rewrite <- (map_id t) at 1. apply map_ext. intros z. rewrite Rinv_1. apply cplx_eq; cbn; ring. }
  set (u := if reversed then t else swap_endianness t n). assert (Gu : good u) by (unfold u; destruct reversed; [exact Gt|]; eapply good_perm; [apply swap_perm, Lt|exact Gt]).
  assert (Lu : length u = (2 ^ n)%nat) by (unfold u; destruct reversed; [exact Lt|]; unfold swap_endianness; rewrite map_length, seq_length; reflexivity).
  rewrite circuit_run by lia. rewrite amp_ok; [|intros E; subst x; cbn in X; lia|rewrite X; exact Lu|exact Gu]. rewrite turn_0, at_nth by (rewrite X; exact Lu). transitivity (nth (number (rev x)) u c0); [ring|].
  unfold u. destruct reversed.
  - apply nth_scale.
  - assert (E := swap_endianness_ok t (rev x)). rewrite rev_length, X, rev_involutive in E. rewrite E by exact Lt. apply nth_scale.
Qed.
