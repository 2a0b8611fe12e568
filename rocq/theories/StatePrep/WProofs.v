(** The W state. *)
From Coq Require Import List ZArith Reals Lra Lia Bool FunctionalExtensionality.
Import ListNotations.
From Verif.Inverse Require Import InvSpec InvProofs.
From Verif.Fourier Require Import RegProofs.
From Verif.CtrlOps Require Import CtrlComplex.
From Verif.StatePrep Require Import PrepModel PrepSpec PrepNum XxyyProofs.
Local Open Scope R_scope.

(** ** bits *)
Lemma bits_ext (x y : list bool) : length x = length y -> (forall p, (p < length x)%nat -> getbit x p = getbit y p) -> x = y.
Proof. intros L H. apply (nth_ext _ _ false false); [exact L|]. exact H. Qed.
Lemma unit_length n j : length (unit_bits n j) = n. Proof. unfold unit_bits. rewrite map_length, seq_length. reflexivity. Qed.
Lemma unit_get n j p : (p < n)%nat -> getbit (unit_bits n j) p = (p =? j)%nat.
Proof. intros H. unfold getbit, unit_bits. rewrite (nth_indep _ false ((fun k => (k =? j)%nat) 0%nat)) by (rewrite map_length, seq_length; exact H). rewrite (map_nth (fun k => (k =? j)%nat)), seq_nth by exact H. reflexivity. Qed.
Lemma get_set x q b p : (q < length x)%nat -> getbit (setbit x q b) p = if (p =? q)%nat then b else getbit x p.
Proof. intros H. destruct (Nat.eqb_spec p q) as [->|D]; [apply getbit_set_same, H | apply getbit_set_other; exact D]. Qed.
Lemma unit_ok n j x : length x = n -> (forall p, (p < n)%nat -> getbit x p = (p =? j)%nat) -> x = unit_bits n j.
Proof. intros L H. apply bits_ext; [rewrite unit_length; exact L|]. intros p P. rewrite unit_get by lia. apply H. lia. Qed.
Lemma unit_swap n i k : (i < n)%nat -> (k < n)%nat -> i <> k -> setbit (setbit (unit_bits n i) i false) k true = unit_bits n k.
Proof.
  intros I K D. apply unit_ok; [rewrite !setbit_length; apply unit_length|]. intros p P. rewrite !get_set by (rewrite ?setbit_length, unit_length; assumption). rewrite unit_get by exact P.
  destruct (Nat.eqb_spec p k), (Nat.eqb_spec p i); try reflexivity; lia.
Qed.
Lemma unit_swap' n i k : (i < n)%nat -> (k < n)%nat -> i <> k -> setbit (setbit (unit_bits n k) i true) k false = unit_bits n i.
Proof.
  intros I K D. apply unit_ok; [rewrite !setbit_length; apply unit_length|]. intros p P. rewrite !get_set by (rewrite ?setbit_length, unit_length; assumption). rewrite unit_get by exact P.
  destruct (Nat.eqb_spec p k), (Nat.eqb_spec p i); try reflexivity; lia.
Qed.
(** ** states with a single excitation *)
Definition single (n : nat) (f : nat -> cplx) (psi : state) : Prop :=
  (forall j, (j < n)%nat -> psi (unit_bits n j) = f j) /\ (forall x, length x = n -> (forall j, (j < n)%nat -> x <> unit_bits n j) -> psi x = c0).
Lemma single_ext n f g psi : (forall j, (j < n)%nat -> f j = g j) -> single n f psi -> single n g psi.
Proof. intros E [A B]. split; [|exact B]. intros j J. rewrite <- E by exact J. apply A, J. Qed.
Lemma act_p t q psi x : act (pg t) q psi x = if getbit x q then cmul (turn t) (psi x) else psi x.
Proof.
  unfold act, on_qubit. rewrite !m_p. assert (E : psi (setbit x q (getbit x q)) = psi x) by (rewrite setbit_get; reflexivity). destruct (getbit x q); cbn [xorb]; rewrite E; ring.
Qed.
Lemma single_p n f psi t q : (q < n)%nat -> single n f psi -> single n (fun j => if (j =? q)%nat then cmul (turn t) (f j) else f j) (apply (U (pg t) q) psi).
Proof.
  intros Q [A B]. split.
  - intros j J. cbn [apply]. rewrite act_p, unit_get, A by assumption. rewrite (Nat.eqb_sym q j). reflexivity.
  - intros x L H. cbn [apply]. rewrite act_p, (B x L H). destruct (getbit x q); ring.
Qed.
Lemma single_x n : (0 < n)%nat -> single n (fun j => if (j =? 0)%nat then c1 else c0) (apply (Not 0) (zero_state n)).
Proof.
  intros N. assert (E : forall x, length x = n -> bits_eqb (setbit x 0 (negb (getbit x 0))) (repeat false n) = true -> x = unit_bits n 0).
  { intros x L H. apply bits_eqb_eq in H. apply unit_ok; [exact L|]. intros p P. assert (G := f_equal (fun y => getbit y p) H). cbn beta in G. rewrite get_set in G by lia. unfold getbit in *. rewrite nth_repeat in G.
    destruct (Nat.eqb_spec p 0) as [->|]; [|exact G]. destruct (nth 0 x false); [reflexivity|discriminate]. }
  split.
  - intros j J. cbn [apply]. unfold zero_state, basis_state. destruct (bits_eqb _ _) eqn:Q.
    + apply E in Q; [|apply unit_length]. assert (G := f_equal (fun y => getbit y j) Q). cbn beta in G. rewrite !unit_get, Nat.eqb_refl in G by assumption. rewrite <- G. reflexivity.
    + destruct (Nat.eqb_spec j 0) as [->|]; [|reflexivity]. exfalso. assert (H : setbit (unit_bits n 0) 0 (negb (getbit (unit_bits n 0) 0)) = repeat false n).
      { apply bits_ext; [rewrite setbit_length, unit_length, repeat_length; reflexivity|]. rewrite setbit_length, unit_length. intros p P. rewrite get_set by (rewrite unit_length; exact N). rewrite !unit_get by assumption.
        unfold getbit. rewrite nth_repeat. destruct (p =? 0)%nat; reflexivity. }
      rewrite H in Q. assert (bits_eqb (repeat false n) (repeat false n) = true) by (apply bits_eqb_eq; reflexivity). congruence.
  - intros x L H. cbn [apply]. unfold zero_state, basis_state. destruct (bits_eqb _ _) eqn:Q; [|reflexivity]. exfalso. exact (H 0%nat N (E x L Q)).
Qed.
Lemma i_mi : cmul (copp ci) (turn (PI / 2)) = c1. Proof. rewrite turn_half. apply cplx_eq; cbn; ring. Qed.
Lemma i_mi' : cmul (copp ci) (turn (- (PI / 2))) = copp c1. Proof. replace (- (PI / 2)) with (- PI / 2) by field. rewrite turn_mhalf. apply cplx_eq; cbn; ring. Qed.
Lemma single_xxyy n f psi a i : (S i < n)%nat -> f (S i) = c0 -> single n f psi ->
  single n (fun j => if (j =? i)%nat then cmul (real (cos (a / 2))) (f i) else if (j =? S i)%nat then cmul (real (sin (a / 2))) (f i) else f j) (run (xxyy a (PI / 2) i (i + 1)) psi).
Proof.
  intros I Z [A B].
  assert (V : forall x, length x = n -> run (xxyy a (PI / 2) i (i + 1)) psi x = xxyy_map a (PI / 2) (view i (i + 1) x psi) (getbit x i) (getbit x (i + 1))).
  { intros x L. rewrite (view_here i (i + 1) x) at 1. rewrite view_xxyy by lia. reflexivity. }
  split.
  - intros j J. rewrite V by apply unit_length. rewrite !unit_get by lia. unfold xxyy_map. rewrite i_mi, i_mi'. destruct (Nat.eqb_spec j i) as [->|Di].
    + rewrite Nat.eqb_refl. replace (i + 1 =? i)%nat with false by (symmetry; apply Nat.eqb_neq; lia). unfold view.
      rewrite unit_swap by lia. rewrite (A (i + 1)%nat) by lia. replace (i + 1)%nat with (S i) by lia. rewrite Z.
      replace (setbit (setbit (unit_bits n i) i true) (S i) false) with (unit_bits n i). { rewrite A by lia. ring. }
      symmetry. apply unit_ok; [rewrite !setbit_length; apply unit_length|]. intros p P. rewrite !get_set by (rewrite ?setbit_length, unit_length; lia). rewrite unit_get by exact P.
      destruct (Nat.eqb_spec p (S i)), (Nat.eqb_spec p i); try reflexivity; lia.
    + replace (i =? j)%nat with false by (symmetry; apply Nat.eqb_neq; lia). destruct (Nat.eqb_spec j (S i)) as [->|Ds].
      * replace (i + 1)%nat with (S i) by lia. rewrite Nat.eqb_refl. unfold view. rewrite unit_swap' by lia. rewrite (A i) by lia.
        replace (setbit (setbit (unit_bits n (S i)) i false) (S i) true) with (unit_bits n (S i)). { rewrite (A (S i)), Z by lia. ring. }
        symmetry. apply unit_ok; [rewrite !setbit_length; apply unit_length|]. intros p P. rewrite !get_set by (rewrite ?setbit_length, unit_length; lia). rewrite unit_get by exact P.
        destruct (Nat.eqb_spec p (S i)), (Nat.eqb_spec p i); try reflexivity; lia.
      * replace (i + 1 =? j)%nat with false by (symmetry; apply Nat.eqb_neq; lia). unfold view.
        replace (setbit (setbit (unit_bits n j) i false) (i + 1) false) with (unit_bits n j); [apply A, J|].
        symmetry. apply unit_ok; [rewrite !setbit_length; apply unit_length|]. intros p P. rewrite !get_set by (rewrite ?setbit_length, unit_length; lia). rewrite unit_get by exact P.
        destruct (Nat.eqb_spec p (i + 1)), (Nat.eqb_spec p i), (Nat.eqb_spec p j); try reflexivity; lia.
  - intros x L H. rewrite V by exact L.
    assert (W : forall c d, (getbit x i = false /\ getbit x (i + 1) = true /\ c = true /\ d = false) \/ (getbit x i = true /\ getbit x (i + 1) = false /\ c = false /\ d = true) -> view i (i + 1) x psi c d = c0).
    { intros c d C. unfold view. apply B; [rewrite !setbit_length; exact L|]. intros j J E.
      assert (G : forall p, (p < n)%nat -> (if (p =? i + 1)%nat then d else if (p =? i)%nat then c else getbit x p) = (p =? j)%nat).
      { intros p P. rewrite <- (unit_get n j p P), <- E. rewrite !get_set by (rewrite ?setbit_length; lia). reflexivity. }
      apply (H (if c then i + 1 else i)%nat); [destruct c; lia|]. apply unit_ok; [exact L|]. intros p P. assert (Gp := G p P). assert (Gi := G i ltac:(lia)). assert (Gs := G (i + 1)%nat ltac:(lia)).
      rewrite Nat.eqb_refl in Gi, Gs. replace (i =? i + 1)%nat with false in Gi by (symmetry; apply Nat.eqb_neq; lia).
      destruct C as [(C1 & C2 & -> & ->)|(C1 & C2 & -> & ->)].
      - symmetry in Gi. apply Nat.eqb_eq in Gi. subst j. destruct (Nat.eqb_spec p (i + 1)) as [->|]; [rewrite C2; reflexivity|]. destruct (Nat.eqb_spec p i) as [->|]; [exact C1|exact Gp].
      - symmetry in Gs. apply Nat.eqb_eq in Gs. subst j. destruct (Nat.eqb_spec p (i + 1)) as [->|]; [rewrite C2; symmetry; apply Nat.eqb_neq; lia|]. destruct (Nat.eqb_spec p i) as [->|]; [exact C1|exact Gp]. }
    assert (Hx : view i (i + 1) x psi (getbit x i) (getbit x (i + 1)) = c0) by (rewrite <- view_here; apply B; assumption).
    unfold xxyy_map. destruct (getbit x i), (getbit x (i + 1)); try exact Hx; rewrite Hx, W by auto; ring.
Qed.
(** ** the angles *)
Section angles.
Context (a : list cplx).
Let T := / 10 ^ 15.
Definition rest (i : nat) : R := norm (skipn i a).
Definition big (i : nat) : bool := if Rlt_dec (/ 10 ^ 15) (rest i) then true else false.
Definition here (i : nat) : R := match i with O => rest 0 | S k => if big k then rest (S k) else 0 end.
Definition kept (j : nat) : R := if big j then modulus (nth j a c0) else here j.
Lemma skipn_step i : (i < length a)%nat -> skipn i a = nth i a c0 :: skipn (S i) a.
Proof. revert i. induction a as [|z l IH]; cbn [length]; intros i H; [lia|]. destruct i; [reflexivity|]. cbn [skipn nth]. rewrite IH by lia. destruct l; reflexivity. Qed.
Lemma rest_sq i : (i < length a)%nat -> rest i * rest i = modulus (nth i a c0) * modulus (nth i a c0) + rest (S i) * rest (S i).
Proof. intros H. unfold rest. rewrite !norm_sq, modulus_sq, skipn_step by exact H. apply sum2_cons. Qed.
Lemma rest_pos i : 0 <= rest i. Proof. apply norm_pos. Qed.
Lemma rest_mono i : (i < length a)%nat -> rest (S i) <= rest i.
Proof. intros H. pose proof (rest_sq i H). pose proof (rest_pos i). pose proof (rest_pos (S i)). pose proof (modulus_pos (nth i a c0)). nra. Qed.
Lemma rest_ge i : (i < length a)%nat -> modulus (nth i a c0) <= rest i.
Proof. intros H. pose proof (rest_sq i H). pose proof (rest_pos i). pose proof (rest_pos (S i)). pose proof (modulus_pos (nth i a c0)). nra. Qed.
Lemma big_here i : (i < length a)%nat -> big i = true -> here i = rest i.
Proof.
  intros H G. destruct i as [|i]; [reflexivity|]. cbn [here]. replace (big i) with true; [reflexivity|]. unfold big in *. destruct (Rlt_dec (/ 10 ^ 15) (rest (S i))) as [g|]; [|discriminate].
  destruct (Rlt_dec (/ 10 ^ 15) (rest i)) as [|g']; [reflexivity|]. exfalso. pose proof (rest_mono i ltac:(lia)). lra.
Qed.
Lemma theta_ok i : (S i < length a)%nat -> cos (w_theta a i / 2) * here i = kept i /\ sin (w_theta a i / 2) * here i = here (S i).
Proof.
  intros H. assert (Hr := rest_sq i ltac:(lia)). assert (P := rest_pos i). assert (P' := rest_pos (S i)). assert (Pm := modulus_pos (nth i a c0)). assert (G := rest_ge i ltac:(lia)).
  unfold kept. cbn [here]. destruct (big i) eqn:B.
  - rewrite (big_here i) by (assumption || lia). unfold w_theta. fold (rest i). unfold big in B. destruct (Rlt_dec (/ 10 ^ 15) (rest i)) as [g|]; [|discriminate].
    assert (g0 : 0 < rest i). { assert (0 < / 10 ^ 15) by (apply Rinv_0_lt_compat, pow_lt; lra). lra. }
    set (m := modulus (nth i a c0)) in *. assert (Q : 0 <= m / rest i <= 1). { split; [apply Rmult_le_pos; [exact Pm|]; left; apply Rinv_0_lt_compat, g0|]. apply (Rmult_le_reg_r (rest i)); [exact g0|]. unfold Rdiv. rewrite Rmult_assoc, Rinv_l by lra. lra. }
    rewrite clip_id by exact Q. destruct (half_acos _ Q) as [-> ->]. split; [field; lra|].
    replace (1 - m / rest i * (m / rest i)) with (rest (S i) / rest i * (rest (S i) / rest i)).
    + rewrite sqrt_square; [field; lra|]. apply Rmult_le_pos; [exact P'|]. left. apply Rinv_0_lt_compat, g0.
    + replace (rest (S i) / rest i * (rest (S i) / rest i)) with (rest (S i) * rest (S i) / (rest i * rest i)) by (field; lra). replace (rest (S i) * rest (S i)) with (rest i * rest i - m * m) by lra. field. lra.
  - unfold w_theta. fold (rest i). unfold big in B. destruct (Rlt_dec (/ 10 ^ 15) (rest i)) as [|g]; [discriminate|]. rewrite clip_id by lra. rewrite acos_1. replace (2 * 0 / 2) with 0 by field. rewrite cos_0, sin_0. split; ring.
Qed.
(** the state after i steps *)
Definition amp (i j : nat) : cplx := if (j <? i)%nat then cmul (turn (arg (nth j a c0))) (real (kept j)) else if (j =? i)%nat then real (here i) else c0.
Definition step (i : nat) : list gate := xxyy (w_theta a i) (PI / 2) i (i + 1) ++ [U (pg (arg (nth i a c0))) i].
Lemma run_app c d psi : run (c ++ d) psi = run d (run c psi). Proof. unfold run. apply fold_left_app. Qed.
Lemma step_ok i psi : (S i < length a)%nat -> single (length a) (amp i) psi -> single (length a) (amp (S i)) (run (step i) psi).
Proof.
  intros H A. unfold step. rewrite run_app. apply (single_xxyy _ _ _ (w_theta a i) i) in A; [|exact H|unfold amp; rewrite (proj2 (Nat.ltb_ge _ _)), (proj2 (Nat.eqb_neq _ _)) by lia; reflexivity].
  apply (single_p _ _ _ (arg (nth i a c0)) i) in A; [|lia]. eapply single_ext; [|exact A]. intros j J. cbn beta. destruct (theta_ok i H) as [Tc Ts]. unfold amp. rewrite Nat.ltb_irrefl, Nat.eqb_refl, <- !real_mul, Tc, Ts.
  destruct (Nat.eqb_spec j i) as [->|D].
  - rewrite (proj2 (Nat.ltb_lt i (S i))) by lia. reflexivity.
  - destruct (Nat.eqb_spec j (S i)) as [->|D'].
    + rewrite Nat.ltb_irrefl. reflexivity.
    + destruct (Nat.ltb_spec j i), (Nat.ltb_spec j (S i)); reflexivity || lia.
Qed.
Lemma steps_ok k psi : (0 < length a)%nat -> (k <= length a - 1)%nat -> single (length a) (amp 0) psi -> single (length a) (amp k) (run (flat_map step (seq 0 k)) psi).
Proof.
  intros N. induction k as [|k IH]; intros K A; [exact A|]. rewrite seq_S, flat_map_app, run_app. cbn [flat_map plus]. rewrite app_nil_r. apply step_ok; [lia|]. apply IH; [lia|exact A].
Qed.
Definition last_ok (j : nat) : cplx := cmul (turn (arg (nth j a c0))) (real (if (j =? length a - 1)%nat then here j else kept j)).
Lemma w_run : (0 < length a)%nat -> norm a = 1 ->
  single (length a) last_ok (run (Not 0 :: flat_map step (seq 0 (length a - 1)) ++ [U (pg (arg (nth (length a - 1) a c0))) (length a - 1)]) (zero_state (length a))).
Proof.
  intros N U1. change (Not 0 :: ?l) with ([Not 0] ++ l). rewrite !run_app. cbn [run fold_left].
  assert (A : single (length a) (amp 0) (apply (Not 0) (zero_state (length a)))).
  { eapply single_ext; [|apply single_x, N]. intros j J. unfold amp, here, rest. cbn [skipn]. rewrite U1. destruct j; reflexivity. }
  apply (steps_ok (length a - 1)) in A; [|exact N|lia]. apply (single_p _ _ _ (arg (nth (length a - 1) a c0)) (length a - 1)) in A; [|lia].
  eapply single_ext; [|exact A]. intros j J. cbn beta. unfold last_ok, amp. destruct (Nat.eqb_spec j (length a - 1)) as [->|D].
  - rewrite Nat.ltb_irrefl. reflexivity.
  - rewrite (proj2 (Nat.ltb_lt _ _)) by lia. reflexivity.
Qed.
(** how far the amplitudes are from the given ones *)
Lemma modulus_real r t : 0 <= r -> modulus (cmul (turn t) (real r)) = r.
Proof. intros H. unfold modulus. rewrite norm2_turn. unfold norm2, real. cbn. replace (r * r + 0 * 0) with (r * r) by ring. apply sqrt_square, H. Qed.
Lemma here_le i : (i < length a)%nat -> modulus (nth i a c0) - T <= here i /\ here i <= rest i.
Proof.
  intros H. assert (P := rest_pos i). assert (G := rest_ge i H). assert (Tp : 0 < T) by (apply Rinv_0_lt_compat, pow_lt; lra). destruct i as [|i]; cbn [here]; [lra|]. destruct (big i) eqn:B; [lra|]. unfold big in B.
  destruct (Rlt_dec (/ 10 ^ 15) (rest i)) as [|g]; [discriminate|]. pose proof (rest_mono i ltac:(lia)). fold T in g. lra.
Qed.
Lemma here_last : (0 < length a)%nat -> here (length a - 1) <= modulus (nth (length a - 1) a c0).
Proof.
  intros N. destruct (here_le (length a - 1) ltac:(lia)) as [_ Q]. assert (Hr := rest_sq (length a - 1) ltac:(lia)). replace (rest (S (length a - 1))) with 0 in Hr.
  - pose proof (rest_pos (length a - 1)). pose proof (modulus_pos (nth (length a - 1) a c0)). nra.
  - unfold rest. rewrite skipn_all2 by lia. unfold norm. rewrite sum2_nil. symmetry. apply sqrt_0.
Qed.
Lemma last_near j : (j < length a)%nat -> modulus (csub (last_ok j) (nth j a c0)) <= T.
Proof.
  intros H. set (r := if (j =? length a - 1)%nat then here j else kept j).
  assert (Tp : 0 < T) by (apply Rinv_0_lt_compat, pow_lt; lra).
  assert (B : Rabs (r - modulus (nth j a c0)) <= T).
  { destruct (here_le j H) as [L1 L2]. apply Rabs_le. unfold r. destruct (Nat.eqb_spec j (length a - 1)) as [->|D].
    - pose proof (here_last ltac:(lia)). lra.
    - unfold kept. destruct (big j) eqn:G; [lra|]. unfold big in G. destruct (Rlt_dec (/ 10 ^ 15) (rest j)) as [|g]; [discriminate|]. fold T in g. pose proof (modulus_pos (nth j a c0)). lra. }
  unfold last_ok. fold r. replace (csub (cmul (turn (arg (nth j a c0))) (real r)) (nth j a c0)) with (cmul (turn (arg (nth j a c0))) (real (r - modulus (nth j a c0)))).
  - unfold modulus at 1. rewrite norm2_turn. unfold norm2, real. cbn [fst snd]. replace (0 * 0) with 0 by ring. rewrite Rplus_0_r. change (sqrt (Rsqr (r - modulus (nth j a c0))) <= T). rewrite sqrt_Rsqr_abs. exact B.
  - rewrite <- (turn_arg (nth j a c0)) at 4. replace (real (r - modulus (nth j a c0))) with (csub (real r) (real (modulus (nth j a c0)))) by (apply cplx_eq; cbn; ring). ring.
Qed.
Lemma last_exact j : (forall i, (i < length a)%nat -> modulus (nth i a c0) = 0 \/ T < modulus (nth i a c0)) -> (j < length a)%nat -> last_ok j = nth j a c0.
Proof.
  intros X H. unfold last_ok. set (r := if (j =? length a - 1)%nat then here j else kept j). assert (E : r = modulus (nth j a c0)); [|rewrite E; rewrite <- (turn_arg (nth j a c0)) at 3; ring].
  assert (Tp : 0 < T) by (apply Rinv_0_lt_compat, pow_lt; lra).
  assert (Z : forall i, (i < length a)%nat -> rest i <= T -> rest i = 0).
  { intros i I. remember (length a - i)%nat as k eqn:K. revert i I K. induction k as [|k IH]; intros i I K L; [lia|]. assert (Hr := rest_sq i I). pose proof (rest_ge i I). destruct (X i I) as [x|x]; [|lra]. rewrite x in Hr.
    assert (rest (S i) = 0).
    { destruct (Nat.lt_ge_cases (S i) (length a)) as [I'|I']; [apply IH; [exact I'|lia|pose proof (rest_mono i I); lra]|]. unfold rest. rewrite skipn_all2 by lia. unfold norm. rewrite sum2_nil. apply sqrt_0. }
    rewrite H1 in Hr. pose proof (rest_pos i). nra. }
  assert (Q : here j = rest j \/ rest j = 0 /\ here j = 0).
  { destruct j as [|j]; [left; reflexivity|]. cbn [here]. destruct (big j) eqn:B; [left; reflexivity|right]. split; [|reflexivity]. unfold big in B. destruct (Rlt_dec (/ 10 ^ 15) (rest j)) as [|g]; [discriminate|]. fold T in g.
    apply Z; [exact H|]. pose proof (rest_mono j ltac:(lia)). lra. }
  pose proof (rest_ge j H) as Ge. pose proof (modulus_pos (nth j a c0)) as Pm. unfold r. destruct (Nat.eqb_spec j (length a - 1)) as [->|D].
  - pose proof (here_last ltac:(lia)). lra.
  - unfold kept. destruct (big j) eqn:G; [reflexivity|]. unfold big in G. destruct (Rlt_dec (/ 10 ^ 15) (rest j)) as [|g]; [discriminate|]. fold T in g. pose proof (Z j H ltac:(lra)). lra.
Qed.
End angles.
(** ** the circuit *)
Lemma w_some n amps c : unbalanced_w_state n amps = Some c -> let a := map (scale (/ norm amps)) amps in
  length a = n /\ (0 < n)%nat /\ / 10 ^ 15 <= norm amps /\ norm a = 1 /\ single n (last_ok a) (run c (zero_state n)).
Proof.
  intros H a. unfold unbalanced_w_state in H. destruct (Nat.eqb_spec n (length amps)) as [E|]; [|discriminate]. cbn [negb] in H. destruct (Rlt_dec (norm amps) (/ 10 ^ 15)) as [|G]; [discriminate|]. fold a in H.
  assert (Tp : 0 < / 10 ^ 15) by (apply Rinv_0_lt_compat, pow_lt; lra).
  assert (L : length a = n) by (unfold a; rewrite map_length; congruence). assert (U1 : norm a = 1) by (apply norm_unit; lra).
  assert (N : (0 < n)%nat). { destruct amps; [|cbn in E; lia]. exfalso. unfold norm in G. rewrite sum2_nil, sqrt_0 in G. lra. }
  split; [exact L|]. split; [exact N|]. split; [lra|]. split; [exact U1|].
  rewrite <- L. assert (W := w_run a ltac:(lia) U1). rewrite L in W |- *. destruct (Nat.eqb_spec n 1) as [->|D].
  - injection H as <-. exact W.
  - injection H as <-. exact W.
Qed.
