(** Properties of the helpers for Chebyshev series and of the unary state of the CKS algorithm. *)
From Coq Require Import Reals Lra Lia List Arith Bool.
Import ListNotations.
From Verif.Inverse Require Import InvSpec.
From Verif.CtrlOps Require Import CtrlComplex.
From Verif.StatePrep Require Import PrepModel PrepSpec PrepNum.
From Verif.Cheb Require Import ChebModel ChebSpec ChebProofs SolveProofs UnaryProofs.
Local Open Scope R_scope.
(** The polynomials T_n of the specification are the Chebyshev polynomials: T_n(cos t) = cos(n t), and their values on [-1, 1] are in [-1, 1] *)
Theorem C96_chebyshev : forall n, (forall t, T n (cos t) = cos (INR n * t)) /\ (forall x, -1 <= x <= 1 -> Rabs (T n x) <= 1).
Proof. intros n. split; [intros t; apply T_cos|intros x; apply T_bound]. Qed.
Example C96_chebyshev_example : T 3 (1 / 2) = -1. Proof. unfold T. cbn. field. Qed.
(** The conversion of a Chebyshev series gives a polynomial with as many coefficients and the same value everywhere *)
Theorem C96_cheb2poly : forall c, length (cheb2poly c) = length c /\ forall x, eval (cheb2poly c) x = series 0 c x.
Proof. intros c. split; [apply (cheb2poly_ok c 0)|intros x; apply cheb2poly_ok]. Qed.
(** the example of the documentation *)
Example C96_cheb2poly_example : cheb2poly [0; 1; 2; 3] = [-2; -8; 4; 12].
Proof. unfold cheb2poly, unit_row. cbn. unfold next_row, vscale. cbn. repeat f_equal; ring. Qed.
(** The conversion of a polynomial: the linear system that is solved has one solution and no other, and it is a series with as many coefficients and the same value everywhere *)
Theorem C96_poly2cheb : forall p, exists c, poly2cheb_solution p c /\ (forall c', poly2cheb_solution p c' -> c' = c) /\ length c = length p /\ forall x, series 0 c x = eval p x.
Proof.
  assert (V : forall p c, poly2cheb_solution p c -> length c = length p /\ forall x, series 0 c x = eval p x).
  { intros p c [L H]. split; [exact L|]. intros x. rewrite <- H, <- L. symmetry. apply cheb2poly_ok. }
  intros p. destruct (solution_exists p) as [c S]. destruct (V p c S) as [L E]. exists c. repeat split; try assumption; try apply S. intros c' S'. destruct (V p c' S') as [L' E']. apply series_inj; [congruence|]. intros x. rewrite E, E'. reflexivity.
Qed.
Example C96_poly2cheb_example : poly2cheb_solution [-2; -8; 4; 12] [0; 1; 2; 3].
Proof. split; [reflexivity|]. exact C96_cheb2poly_example. Qed.
Lemma solution_values p c : poly2cheb_solution p c -> length c = length p /\ forall x, series 0 c x = eval p x.
Proof. intros H. destruct (C96_poly2cheb p) as [d [_ [U [L E]]]]. rewrite (U c H). split; assumption. Qed.
(** The conversions are inverse to each other *)
Theorem C96_round_trip : (forall c c', poly2cheb_solution (cheb2poly c) c' <-> c' = c) /\ (forall p c, poly2cheb_solution p c -> cheb2poly c = p).
Proof.
  assert (S : forall c, poly2cheb_solution (cheb2poly c) c) by (intros c; destruct (C96_cheb2poly c) as [L _]; split; [symmetry; exact L|rewrite L; reflexivity]). split.
  - intros c c'. split; [|intros ->; apply S]. intros H. destruct (C96_poly2cheb (cheb2poly c)) as [d [_ [U _]]]. rewrite (U c' H). symmetry. apply U, S.
  - intros p c [L H]. unfold cheb2poly. rewrite L. exact H.
Qed.
(** Rescaling a polynomial gives the polynomial p(alpha z) ... *)
Lemma rescale_from alpha p : forall n z, eval (map (fun '(i, c) => c * alpha ^ i) (combine (seq n (length p)) p)) z = alpha ^ n * eval p (alpha * z).
Proof. induction p as [|a p IH]; intros n z; cbn [length seq combine map eval]; [ring|]. rewrite IH. cbn [pow]. ring. Qed.
Theorem C96_rescale : forall alpha p, length (rescale alpha p) = length p /\ forall z, eval (rescale alpha p) z = eval p (alpha * z).
Proof. intros alpha p. split; [unfold rescale; rewrite map_length, combine_length, seq_length; lia|]. intros z. unfold rescale. rewrite rescale_from. cbn [pow]. ring. Qed.
(** ... also for a Chebyshev series *)
Theorem C96_rescale_series : forall alpha c c', poly2cheb_solution (rescale alpha (cheb2poly c)) c' -> length c' = length c /\ forall z, series 0 c' z = series 0 c (alpha * z).
Proof. intros alpha c c' H. destruct (solution_values _ _ H) as [L E]. destruct (C96_rescale alpha (cheb2poly c)) as [L' E']. destruct (C96_cheb2poly c) as [L2 E2]. split; [congruence|]. intros z. rewrite E, E', E2. reflexivity. Qed.
(** The documentation says that the result is p(z / alpha). It is not *)
Theorem C96_rescale_refuted : exists alpha p z, alpha <> 0 /\ eval (rescale alpha p) z <> eval p (z / alpha).
Proof. exists 2, [0; 1], 1. split; [lra|]. unfold rescale. cbn. lra. Qed.
(** The approximation: a result needs max_N >= 16; it is the beginning, with one coefficient or more, of the interpolation of a degree N = 16 * 2^k <= max_N, and differs from it by eps at most on [-1, 1]. Without a warning the last coefficients of that interpolation, those from 4N/5 on, have a sum of absolute values below eps; with a warning no degree tried has this *)
Theorem C96_approx : forall interp eps max_N, 0 <= eps ->
  match chebyshev_approx interp eps max_N with
  | None => (max_N < 16)%nat
  | Some (c, warned) => (16 <= max_N)%nat /\
      (exists k m, (16 * 2 ^ k <= max_N)%nat /\ (1 <= m)%nat /\ c = firstn m (interp (16 * 2 ^ k)%nat) /\ (forall x, -1 <= x <= 1 -> Rabs (series 0 (interp (16 * 2 ^ k)%nat) x - series 0 c x) <= eps) /\
        (warned = false -> sum_abs (skipn ((16 * 2 ^ k) * 4 / 5) (interp (16 * 2 ^ k)%nat)) < eps)) /\
      (warned = true -> forall k, (16 * 2 ^ k <= max_N)%nat -> eps <= sum_abs (skipn ((16 * 2 ^ k) * 4 / 5) (interp (16 * 2 ^ k)%nat)))
  end.
Proof.
  intros interp eps max_N He. unfold chebyshev_approx. destruct (search interp eps max_N (S max_N) 16 None) as [r N'] eqn:E. pose proof (search_fails _ _ _ _ _ _ _ _ E ltac:(lia) ltac:(lia)) as B.
  destruct r as [c|].
  - destruct (search_used _ _ _ _ _ _ _ _ E ltac:(lia) ltac:(lia)) as [[A _]|[k [K [A C]]]]; [discriminate|]. assert (2 ^ k <> 0)%nat by (apply Nat.pow_nonzero; lia). split; [nia|]. split.
    + exists k, (trunc_idx eps c). rewrite <- A. repeat split; [exact K|unfold trunc_idx; lia| |intros W; apply C, Nat.ltb_ge, W].
      intros x X. rewrite <- (firstn_skipn (trunc_idx eps c) c) at 1. rewrite series_app. replace (_ + _ - _) with (series (0 + length (firstn (trunc_idx eps c) c)) (skipn (trunc_idx eps c) c) x) by ring. eapply Rle_trans; [apply series_bound, X|]. apply trunc_ok, He.
    + intros W. apply B. apply Nat.ltb_lt. exact W.
  - destruct (Nat.lt_ge_cases max_N 16) as [Q|Q]; [exact Q|]. exfalso. cbn [search] in E. replace (16 <=? max_N)%nat with true in E by (symmetry; apply Nat.leb_le; exact Q). cbv zeta in E. destruct (Rlt_dec _ _); [discriminate|]. destruct (search_some interp eps max_N max_N (2 * 16) (interp 16%nat)) as [c' Hc]. rewrite E in Hc. discriminate.
Qed.
(** a case that converges at once: the interpolation is 1 + T_1 / 2 with zeros after it; the result has the two coefficients, without a warning *)
Example C96_approx_example : chebyshev_approx (fun N => 1 :: 1 / 2 :: repeat 0 (N - 1)) (1 / 4) 16 = Some ([1; 1 / 2], false).
Proof.
  assert (Z : forall l i, cut (1 / 4) 17 (0 :: l) i 0 = cut (1 / 4) 17 l (i - 1) 0) by (intros l i; cbn [cut]; rewrite Rabs_R0, Rplus_0_r; destruct (Rlt_dec (1 / 4) 0); [lra|reflexivity]).
  assert (H : cut (1 / 4) 17 [1 / 2; 1] 2 0 = 2%nat) by (cbn [cut]; destruct (Rlt_dec _ _) as [_|W]; [reflexivity|exfalso; apply W; rewrite (Rabs_pos_eq (1 / 2)) by lra; lra]).
  unfold chebyshev_approx. cbn [search]. change (16 <=? 16)%nat with true. cbv zeta iota. destruct (Rlt_dec _ _) as [Q|Q]; [|exfalso; apply Q; change (16 * 4 / 5)%nat with 12%nat; unfold sum_abs; cbn [Nat.sub repeat skipn fold_right]; rewrite Rabs_R0; lra].
  unfold trunc_idx. cbn [Nat.sub repeat rev app length]. do 15 rewrite Z. cbn [Nat.sub]. rewrite H. reflexivity.
Qed.
(** The state: for positive coefficients, two or more, on as many qubits, the circuit turns |0...0> into the sum of sqrt(c_k / sum of all) times the state with k ones and then zeros; every other amplitude is 0 *)
Theorem C96_unary : forall cs, (forall c, In c cs -> 0 < c) -> (2 <= length cs)%nat ->
  (forall k, (1 <= k <= length cs)%nat -> run (unary_prep (length cs) cs) (zero_state (length cs)) (unary (length cs) k) = real (sqrt (nth (k - 1) cs 0 / total cs))) /\
  (forall x, length x = length cs -> (forall k, (1 <= k <= length cs)%nat -> x <> unary (length cs) k) -> run (unary_prep (length cs) cs) (zero_state (length cs)) x = c0).
Proof.
  intros cs POS TWO. destruct (prepared cs POS TWO) as [A B]. split.
  - intros k K. rewrite A by lia. f_equal. unfold amp. change (tail_sum cs 0) with (total cs). destruct (Nat.leb_spec k (length cs - 1)) as [G|G]; [reflexivity|]. assert (k = length cs) by lia. subst k. rewrite tail_step by lia. replace (S (length cs - 1)) with (length cs) by lia. unfold tail_sum. rewrite skipn_all. cbn [total]. rewrite Rplus_0_r. reflexivity.
  - intros x L N. apply B; [exact L|]. intros k K. apply N. lia.
Qed.
Example C96_unary_example : run (unary_prep 3 [1; 2; 1]) (zero_state 3) [true; true; false] = real (sqrt (2 / 4)) /\ run (unary_prep 3 [1; 2; 1]) (zero_state 3) [false; true; false] = c0.
Proof.
  assert (P : forall c, In c [1; 2; 1] -> 0 < c) by (intros c [<-|[<-|[<-|[]]]]; lra). destruct (C96_unary [1; 2; 1] P ltac:(cbn; lia)) as [A B]. split.
  - etransitivity; [exact (A 2%nat ltac:(cbn; lia))|]. cbn [total nth Nat.sub]. f_equal. f_equal. field.
  - apply B; [reflexivity|]. intros k K Q. destruct k as [|k]; [lia|discriminate].
Qed.
Print Assumptions C96_chebyshev.
Print Assumptions C96_cheb2poly.
Print Assumptions C96_poly2cheb.
Print Assumptions C96_round_trip.
Print Assumptions C96_rescale.
Print Assumptions C96_rescale_series.
Print Assumptions C96_rescale_refuted.
Print Assumptions C96_approx.
Print Assumptions C96_unary.
