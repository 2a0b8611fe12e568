(** Reordering a list of actions: two orders that agree on every pair of conflicting actions have the same effect. *)
From Coq Require Export List Arith Lia Permutation.
Export ListNotations.
Local Open Scope nat_scope.

(** i occurs before j in l *)
Definition before {A} (l : list A) (i j : A) : Prop := exists l1 l2 l3, l = l1 ++ i :: l2 ++ j :: l3.

Section trace.
Variables (I S : Type) (eqv : S -> S -> Prop) (act : I -> S -> S) (conflict : I -> I -> Prop) (okI : I -> Prop).
Hypothesis eqv_refl : forall s, eqv s s.
Hypothesis eqv_trans : forall a b c, eqv a b -> eqv b c -> eqv a c.
Hypothesis eqv_sym : forall a b, eqv a b -> eqv b a.
Hypothesis act_ext : forall i s s', eqv s s' -> eqv (act i s) (act i s').
Hypothesis act_comm : forall i j s, okI i -> okI j -> ~ conflict i j -> eqv (act i (act j s)) (act j (act i s)).
Definition run (l : list I) (s : S) : S := fold_left (fun s i => act i s) l s.
Lemma run_ext l : forall s s', eqv s s' -> eqv (run l s) (run l s').
Proof. induction l as [|i l IH]; intros s s' H; [exact H|]. cbn. apply IH, act_ext, H. Qed.
Lemma run_app l l' s : run (l ++ l') s = run l' (run l s).
Proof. apply fold_left_app. Qed.
Lemma run_move u a : (forall x, In x u -> okI x) -> okI a -> (forall x, In x u -> ~ conflict x a) -> forall s, eqv (run (u ++ [a]) s) (run (a :: u) s).
Proof.
  induction u as [|x u IH]; intros Ou Oa H s; [apply eqv_refl|]. cbn [app run fold_left]. fold (run (u ++ [a]) (act x s)). fold (run u (act x (act a s))).
  eapply eqv_trans; [apply IH; auto; intros y Hy; [apply Ou|apply H]; right; exact Hy|]. cbn [run fold_left]. apply run_ext.
  apply eqv_sym. apply act_comm; [apply Ou; left; reflexivity|exact Oa|apply H; left; reflexivity].
Qed.
Lemma before_cons (x : I) l i j : before l i j -> before (x :: l) i j.
Proof. intros (a & b & c & ->). exists (x :: a), b, c. reflexivity. Qed.
Lemma before_head (a : I) l j : In j l -> before (a :: l) a j.
Proof. intros H. apply in_split in H. destruct H as (l1 & l2 & ->). exists [], l1, l2. reflexivity. Qed.
Lemma before_app_remove u v (a i j : I) : NoDup (u ++ a :: v) -> i <> a -> j <> a -> before (u ++ a :: v) i j -> before (u ++ v) i j.
Proof.
  intros N Hi Hj (x & y & z & E). revert u N E. induction x as [|h x IH]; intros u N E.
  - destruct u as [|k u]; cbn in E; injection E as E1 E; [congruence|]. subst k. 
    assert (In j (u ++ v)). { assert (H : In j (u ++ a :: v)) by (rewrite E; apply in_elt). rewrite in_app_iff in *. cbn in H. intuition congruence. }
    cbn. apply before_head. exact H.
  - destruct u as [|k u]; cbn in E; injection E as E1 E.
    + subst. cbn. exists x, y, z. reflexivity.
    + subst k. cbn. apply before_cons. apply IH; [inversion N; assumption|exact E].
Qed.
Lemma before_irrefl_two l (i j : I) : NoDup l -> before l i j -> before l j i -> False.
Proof.
  intros N (a & b & c & E) (a' & b' & c' & E'). subst l. revert a' N E'. induction a as [|h a IH]; intros [|h' a'] N E'; cbn in E'; injection E' as E1 E'.
  - subst. inversion N; subst. apply H1. apply in_app_iff. right. left. reflexivity.
  - subst. inversion N as [|? ? Ni _]; subst. apply Ni. rewrite E'. rewrite in_app_iff. right. right. apply in_app_iff. right. left. reflexivity.
  - subst. inversion N as [|? ? Ni _]; subst. apply Ni. apply in_app_iff. right. right. apply in_app_iff. right. left. reflexivity.
  - subst. inversion N; subst. exact (IH a' H2 E').
Qed.
Theorem reorder l1 : forall l2 s, NoDup l1 -> Permutation l1 l2 -> (forall i, In i l1 -> okI i) ->
  (forall i j, conflict i j -> before l1 i j -> before l2 i j) -> (forall i j, conflict i j -> conflict j i) -> eqv (run l1 s) (run l2 s).
Proof.
  induction l1 as [|a t IH]; intros l2 s N P O B Sy.
  - apply Permutation_nil in P. subst. apply eqv_refl.
  - assert (Ha : In a l2) by (apply (Permutation_in _ P); left; reflexivity). apply in_split in Ha. destruct Ha as (u & v & ->).
    inversion N as [|? ? Na Nt]; subst. assert (N2 : NoDup (u ++ a :: v)) by (apply (Permutation_NoDup P); exact N).
    assert (Pt : Permutation t (u ++ v)) by (apply (Permutation_cons_inv (a := a)); transitivity (u ++ a :: v); [exact P|symmetry; apply Permutation_middle]).
    assert (Nc : forall x, In x u -> ~ conflict x a).
    { intros x Hx C. assert (Hxt : In x t) by (apply (Permutation_in _ (Permutation_sym Pt)); apply in_app_iff; auto).
      assert (Bx := B a x (Sy _ _ C) (before_head a t x Hxt)). apply (before_irrefl_two (u ++ a :: v) a x N2 Bx).
      apply in_split in Hx. destruct Hx as (u1 & u2 & ->). exists u1, u2, v. rewrite <- app_assoc. reflexivity. }
    cbn [run fold_left]. fold (run t (act a s)). change (u ++ a :: v) with (u ++ [a] ++ v). rewrite app_assoc, run_app.
    apply eqv_trans with (run v (run (a :: u) s)).
    + cbn [run fold_left]. fold (run u (act a s)). rewrite <- run_app. apply IH; auto; [intros i Hi; apply O; right; exact Hi|].
      intros i j C Bij. assert (In i t /\ In j t). { destruct Bij as (x & y & z & ->). split; apply in_app_iff; right; [left; reflexivity|right; apply in_app_iff; right; left; reflexivity]. }
      apply (before_app_remove u v a i j N2); [intros ->; tauto|intros ->; tauto|]. apply B; [exact C|]. apply before_cons. exact Bij.
    + apply run_ext. apply eqv_sym. apply run_move; [|apply O; left; reflexivity|exact Nc].
      intros x Hx. apply O. right. apply (Permutation_in _ (Permutation_sym Pt)). apply in_app_iff. auto.
Qed.
End trace.
