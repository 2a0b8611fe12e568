(** The linear system of poly2cheb has exactly one solution. *)
From Coq Require Import Reals Lra Lia List Arith Bool Psatz.
Import ListNotations.
From Verif.Cheb Require Import ChebModel ChebSpec ChebProofs.
Local Open Scope R_scope.
(** ** a polynomial that is 0 on an interval has no coefficient but 0 *)
Lemma eval_bound p x : 0 <= x <= 1 -> Rabs (eval p x) <= sum_abs p.
Proof.
  intros X. induction p as [|a p IH]; cbn [eval]; [rewrite Rabs_R0; unfold sum_abs; cbn; lra|]. unfold sum_abs in *. cbn [fold_right]. eapply Rle_trans; [apply Rabs_triang|]. apply Rplus_le_compat_l. rewrite Rabs_mult, (Rabs_pos_eq x) by lra. pose proof (Rabs_pos (eval p x)). nra.
Qed.
Lemma sum_abs_nonneg p : 0 <= sum_abs p.
Proof. induction p as [|a p IH]; unfold sum_abs in *; cbn [fold_right]; [lra|]. pose proof (Rabs_pos a). lra. Qed.
Lemma eval_zero p : (forall x, 0 < x <= 1 -> eval p x = 0) -> forall i, nth i p 0 = 0.
Proof.
  induction p as [|a p IH]; intros H i; [destruct i; reflexivity|]. assert (A : a = 0).
  { destruct (Req_dec a 0) as [E|E]; [exact E|exfalso]. pose proof (Rabs_pos_lt a E) as P. pose proof (sum_abs_nonneg p) as B. set (x := Rmin 1 (Rabs a / (2 * (sum_abs p + 1)))).
    assert (D : 0 < Rabs a / (2 * (sum_abs p + 1))) by (apply Rmult_lt_0_compat; [exact P|apply Rinv_0_lt_compat; lra]).
    assert (X : 0 < x <= 1) by (unfold x; split; [apply Rmin_glb_lt; lra|apply Rmin_l]). assert (X2 : x * (2 * (sum_abs p + 1)) <= Rabs a).
    { apply Rle_trans with (Rabs a / (2 * (sum_abs p + 1)) * (2 * (sum_abs p + 1))); [apply Rmult_le_compat_r; [lra|apply Rmin_r]|right; field; lra]. }
    pose proof (H x X) as Hx. cbn [eval] in Hx. pose proof (eval_bound p x ltac:(lra)) as Q. assert (Rabs a = x * Rabs (eval p x)) by (replace a with (- (x * eval p x)) by lra; rewrite Rabs_Ropp, Rabs_mult, (Rabs_pos_eq x) by lra; reflexivity). nra. }
  subst a. destruct i as [|i]; [reflexivity|]. cbn [nth]. apply IH. intros x X. pose proof (H x X) as Hx. cbn [eval] in Hx. apply (Rmult_eq_reg_l x); lra.
Qed.
Lemma eval_inj p q : length p = length q -> (forall x, 0 < x <= 1 -> eval p x = eval q x) -> p = q.
Proof.
  intros L H. apply (nth_ext p q 0 0 L). intros i _. enough (nth i (vsub p q) 0 = 0) by (rewrite nth_sub in H0 by exact L; lra). apply eval_zero. intros x X. rewrite eval_sub by exact L. rewrite H by exact X. ring.
Qed.
(** ** some series has the values of the polynomial *)
(** x times a series *)
Definition add_at (i : nat) (r : R) (c : list R) : list R := vadd c (map (fun j => if (j =? i)%nat then r else 0) (seq 0 (length c))).
Lemma series_add a : forall n b x, length a = length b -> series n (vadd a b) x = series n a x + series n b x.
Proof. induction a as [|u a IH]; intros n [|v b] x L; cbn [length] in L; try discriminate; cbn [vadd series]; [ring|]. rewrite IH by lia. ring. Qed.
Lemma series_spike N : forall n s i r x, (s <= i < s + N)%nat -> series n (map (fun j => if (j =? i)%nat then r else 0) (seq s N)) x = r * T (n + (i - s)) x.
Proof.
  assert (Z : forall N n s i r x, (i < s)%nat -> series n (map (fun j => if (j =? i)%nat then r else 0) (seq s N)) x = 0).
  { clear. induction N as [|N IH]; intros n s i r x H; cbn [seq map series]; [reflexivity|]. replace (s =? i)%nat with false by (symmetry; apply Nat.eqb_neq; lia). rewrite IH by lia. ring. }
  induction N as [|N IH]; intros n s i r x H; [lia|]. cbn [seq map series]. destruct (Nat.eqb_spec s i) as [->|D].
  - rewrite Z by lia. rewrite Nat.sub_diag, Nat.add_0_r. ring.
  - rewrite IH by lia. replace (S n + (i - S s))%nat with (n + (i - s))%nat by lia. ring.
Qed.
Lemma len_at i r c : length (add_at i r c) = length c.
Proof. unfold add_at. rewrite len_add; rewrite ?map_length, ?seq_length; reflexivity. Qed.
Lemma series_at i r c x : (i < length c)%nat -> series 0 (add_at i r c) x = series 0 c x + r * T i x.
Proof. intros H. unfold add_at. rewrite series_add by (rewrite map_length, seq_length; reflexivity). rewrite series_spike by lia. rewrite Nat.sub_0_r. reflexivity. Qed.
Lemma times_x c : forall N, (length c < N)%nat -> exists c', length c' = N /\ forall x, series 0 c' x = x * series 0 c x.
Proof.
  induction c as [|a c IH] using rev_ind; intros N H.
  - exists (repeat 0 N). split; [apply repeat_length|]. intros x. assert (Z : forall n, series n (repeat 0 N) x = 0) by (clear; induction N as [|N IH]; intros n; cbn [repeat series]; [reflexivity|]; rewrite IH; ring). rewrite Z. cbn. ring.
  - rewrite app_length in H. cbn [length] in H. destruct (IH N ltac:(lia)) as [c' [L E]]. destruct (length c) as [|n] eqn:Ln.
    + exists (add_at 1 a c'). rewrite len_at. split; [exact L|]. intros x. rewrite series_at by lia. rewrite series_app, E, Ln. cbn [series Nat.add]. rewrite T_0, T_1. ring.
    + exists (add_at n (a / 2) (add_at (S (S n)) (a / 2) c')). rewrite !len_at. split; [exact L|]. intros x. rewrite !series_at by (rewrite ?len_at; lia). rewrite series_app, E, Ln. cbn [series Nat.add]. rewrite T_rec. field.
Qed.
Lemma some_series p : exists c, length c = length p /\ forall x, series 0 c x = eval p x.
Proof.
  induction p as [|a p [c [L E]]]; [exists []; split; reflexivity|]. destruct (times_x c (S (length p)) ltac:(lia)) as [c' [L' E']]. exists (add_at 0 a c'). rewrite len_at. cbn [length]. split; [exact L'|]. intros x. rewrite series_at by lia. rewrite E', E, T_0. cbn [eval]. ring.
Qed.
Lemma solution_exists p : exists c, poly2cheb_solution p c.
Proof.
  destruct (some_series p) as [c [L E]]. exists c. split; [exact L|]. rewrite <- L. change (cheb2poly c = p). apply eval_inj; [rewrite (proj1 (cheb2poly_ok c 0)); exact L|]. intros x _. rewrite (proj2 (cheb2poly_ok c x)). apply E.
Qed.
(** ** only one series has them *)
Fixpoint tp (n : nat) : list R * list R := match n with O => ([1], [0; 1]) | S n => let '(a, b) := tp n in (b, vsub (vscale 2 (0 :: b)) (a ++ [0; 0])) end.
Lemma eval_app p : forall q x, eval (p ++ q) x = eval p x + x ^ length p * eval q x.
Proof. induction p as [|a p IH]; intros q x; cbn [app eval length pow]; [ring|]. rewrite IH. ring. Qed.
Lemma tp_ok n : (length (fst (tp n)) = S n /\ nth n (fst (tp n)) 0 <> 0 /\ (forall x, eval (fst (tp n)) x = T n x)) /\ (length (snd (tp n)) = S (S n) /\ nth (S n) (snd (tp n)) 0 <> 0 /\ (forall x, eval (snd (tp n)) x = T (S n) x)).
Proof.
  induction n as [|n [A B]].
  - cbn [tp fst snd length nth]. repeat split; try lra; intros x; rewrite ?T_0, ?T_1; cbn; ring.
  - cbn [tp]. destruct (tp n) as [a b]. cbn [fst snd] in *. split; [exact B|]. destruct A as [A1 [A2 A3]], B as [B1 [B2 B3]].
    assert (L : length (vscale 2 (0 :: b)) = length (a ++ [0; 0])) by (unfold vscale; rewrite map_length, app_length; cbn [length]; lia). split; [rewrite len_sub by exact L; rewrite app_length; cbn [length]; lia|]. split.
    + rewrite nth_sub by exact L. replace (nth (S (S n)) (a ++ [0; 0]) 0) with 0 by (rewrite app_nth2 by lia; replace (S (S n) - length a)%nat with 1%nat by lia; reflexivity). unfold vscale. cbn [map nth]. set (f := fun x => 2 * x). rewrite (nth_indep _ 0 (f 0)) by (rewrite map_length; lia). rewrite (map_nth f). unfold f. lra.
    + intros x. rewrite eval_sub by exact L. rewrite eval_scale, eval_app. cbn [eval]. rewrite A3, B3, T_rec. ring.
Qed.
Lemma lead c : forall a, exists p, length p = S (length c) /\ (forall x, eval p x = series 0 (c ++ [a]) x) /\ exists r, r <> 0 /\ nth (length c) p 0 = a * r.
Proof.
  intros a. destruct (tp_ok (length c)) as [[L [Z E]] _]. set (q := cheb2poly c). pose proof (proj1 (cheb2poly_ok c 0)) as LQ. fold q in LQ.
  assert (LL : length (q ++ [0]) = length (vscale a (fst (tp (length c))))) by (unfold vscale; rewrite app_length, map_length; cbn [length]; lia).
  exists (vadd (q ++ [0]) (vscale a (fst (tp (length c))))). split; [rewrite len_add by exact LL; unfold vscale; rewrite map_length; exact L|]. split.
  - intros x. rewrite eval_add by exact LL. rewrite eval_app, eval_scale, E, series_app. unfold q. rewrite (proj2 (cheb2poly_ok c x)). cbn [eval series Nat.add]. ring.
  - exists (nth (length c) (fst (tp (length c))) 0). split; [exact Z|]. assert (NA : forall u v i, length u = length v -> nth i (vadd u v) 0 = nth i u 0 + nth i v 0) by (induction u as [|s u IH]; intros [|t v] [|i] H; cbn [length] in H; try discriminate; cbn [vadd nth]; try ring; apply IH; lia).
    rewrite NA by exact LL. rewrite app_nth2 by lia. replace (length c - length q)%nat with 0%nat by lia. cbn [nth]. unfold vscale. set (f := fun x => a * x). rewrite (nth_indep (map f _) 0 (f 0)) by (rewrite map_length; lia). rewrite (map_nth f). unfold f. ring.
Qed.
Lemma series_zero c : (forall x, series 0 c x = 0) -> forall i, nth i c 0 = 0.
Proof.
  induction c as [|a c IH] using rev_ind; intros H i; [destruct i; reflexivity|]. destruct (lead c a) as [p [L [E [r [R1 R2]]]]]. assert (A : a = 0).
  { pose proof (eval_zero p (fun x _ => eq_trans (E x) (H x)) (length c)) as Z. rewrite R2 in Z. apply Rmult_integral in Z. destruct Z; [assumption|contradiction]. }
  subst a. destruct (Nat.lt_ge_cases i (length c)) as [G|G].
  - rewrite app_nth1 by exact G. apply IH. intros x. pose proof (H x) as Hx. rewrite series_app in Hx. cbn [series] in Hx. lra.
  - rewrite app_nth2 by exact G. destruct (i - length c)%nat as [|[|m]]; reflexivity.
Qed.
Lemma series_sub a : forall n b x, length a = length b -> series n (vsub a b) x = series n a x - series n b x.
Proof. induction a as [|u a IH]; intros n [|v b] x L; cbn [length] in L; try discriminate; cbn [vsub series]; [ring|]. rewrite IH by lia. ring. Qed.
Lemma series_inj c d : length c = length d -> (forall x, series 0 c x = series 0 d x) -> c = d.
Proof. intros L H. apply (nth_ext c d 0 0 L). intros i _. enough (nth i (vsub c d) 0 = 0) by (rewrite nth_sub in H0 by exact L; lra). apply series_zero. intros x. rewrite series_sub by exact L. rewrite H. ring. Qed.
