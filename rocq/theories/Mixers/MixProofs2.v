(** Mixers with predicates. *)
From Coq Require Import List Arith Bool Reals Lia Lra Ring.
Import ListNotations.
From Verif.Inverse Require Import InvSpec InvProofs.
From Verif.Fourier Require Import RegProofs.
From Verif.CtrlOps Require Import CtrlComplex.
From Verif.StatePrep Require Import PrepModel PrepSpec PrepNum XxyyProofs WProofs DickeProofs.
From Verif.Mixers Require Import MixModel MixSpec MixProofs.
Local Open Scope R_scope.
Add Ring cring2 : complex_ring.

Lemma forallb_ext_in {A} (f g : A -> bool) l : (forall x, In x l -> f x = g x) -> forallb f l = forallb g l.
Proof. intros H. induction l as [|a l IH]; [reflexivity|]. cbn [forallb]. rewrite (H a) by (left; reflexivity). rewrite IH by (intros b B; apply H; right; exact B). reflexivity. Qed.
(** * Flips *)
Lemma flip_length x q : length (flip x q) = length x. Proof. unfold flip. apply setbit_length. Qed.
Lemma flip_get x q p : (q < length x)%nat -> getbit (flip x q) p = if (p =? q)%nat then negb (getbit x p) else getbit x p.
Proof. intros Q. unfold flip. rewrite get_set by exact Q. destruct (Nat.eqb_spec p q); [subst; reflexivity|reflexivity]. Qed.
Lemma flip_other x q p : p <> q -> getbit (flip x q) p = getbit x p. Proof. intros D. unfold flip. apply getbit_set_other. congruence. Qed.
Lemma flip_flip x q : flip (flip x q) q = x.
Proof.
  revert q. induction x as [|b x IH]; intros q; [destruct q; reflexivity|]. destruct q as [|q]; [unfold flip, getbit; cbn; rewrite negb_involutive; reflexivity|].
  change (b :: flip (flip x q) q = b :: x). rewrite IH. reflexivity.
Qed.
Lemma flip_comm x p q : flip (flip x p) q = flip (flip x q) p.
Proof.
  destruct (Nat.eq_dec p q) as [->|D]; [reflexivity|]. unfold flip. rewrite !getbit_set_other by congruence. apply setbit_comm. congruence.
Qed.
Lemma flip_app s t q : (q < length s)%nat -> flip (s ++ t) q = flip s q ++ t.
Proof.
  revert q. induction s as [|b s IH]; intros q Q; [cbn in Q; lia|]. destruct q as [|q]; [reflexivity|]. cbn in Q. change (b :: flip (s ++ t) q = b :: (flip s q ++ t)). rewrite IH by lia. reflexivity.
Qed.
Lemma get_app s t q : getbit (s ++ t) q = if (q <? length s)%nat then getbit s q else getbit t (q - length s).
Proof. unfold getbit. destruct (Nat.ltb_spec q (length s)); [apply app_nth1|apply app_nth2]; lia. Qed.
Lemma get_firstn n x q : getbit (firstn n x) q = if (q <? n)%nat then getbit x q else false.
Proof.
  revert n q. induction x as [|b x IH]; intros n q.
  - rewrite firstn_nil. unfold getbit. destruct q, (Nat.ltb_spec 0 n); try reflexivity; destruct (_ <? n)%nat; reflexivity.
  - destruct n as [|n]; [destruct q; reflexivity|]. destruct q as [|q]; [reflexivity|]. cbn [firstn]. unfold getbit in *. cbn [nth]. rewrite IH. reflexivity.
Qed.
Lemma scale_mul r z : scale r z = cmul (real r) z. Proof. destruct z. unfold scale, real. apply cplx_eq; cbn; ring. Qed.
Lemma act_rx a q psi x : act (rx a) q psi x = cadd (scale (cos (a / 2)) (psi x)) (cmul (copp ci) (scale (sin (a / 2)) (psi (flip x q)))).
Proof.
  unfold act, on_qubit. rewrite !m_rx, !scale_mul. unfold flip. destruct (getbit x q) eqn:E; cbn [negb].
  - assert (F : setbit x q true = x) by (rewrite <- E; apply setbit_get). rewrite F. ring.
  - assert (F : setbit x q false = x) by (rewrite <- E; apply setbit_get). rewrite F. ring.
Qed.
(** * Not and MCX gates are classical *)
Definition cstep (g : mgate) (x : list bool) : list bool :=
  match g with Std (Not q) => flip x q | MCX cs t => if matches x cs then flip x t else x | _ => x end.
Definition plain (i : nat) (g : mgate) : Prop :=
  match g with Std (Not q) => q <> i | MCX cs t => t <> i /\ (forall c, In c (map fst cs) -> c <> t /\ c <> i) | _ => False end.
Definition forth (c : list mgate) (x : list bool) : list bool := fold_left (fun x g => cstep g x) c x.
Definition back (c : list mgate) (x : list bool) : list bool := fold_right cstep x c.
Lemma matches_flip x cs q : (forall c, In c (map fst cs) -> c <> q) -> matches (flip x q) cs = matches x cs.
Proof.
  intros H. unfold matches. induction cs as [|[c b] cs IH]; [reflexivity|]. cbn [forallb]. rewrite IH by (intros d D; apply H; right; exact D). rewrite flip_other by (apply H; left; reflexivity). reflexivity.
Qed.
Lemma mapply_plain i g psi x : plain i g -> mapply g psi x = psi (cstep g x).
Proof. intros H. destruct g as [g|cs t|c a q|a cs]; [destruct g| | |]; cbn [plain] in H; try (exfalso; exact H); cbn [mapply apply cstep]; try reflexivity. destruct (matches x cs); reflexivity. Qed.
Lemma cstep_twice i g x : plain i g -> cstep g (cstep g x) = x.
Proof.
  intros H. destruct g as [g|cs t|c a q|a cs]; [destruct g| | |]; cbn [plain] in H; try (exfalso; exact H); cbn [cstep]; try reflexivity; [apply flip_flip|].
  destruct (matches x cs) eqn:E; [rewrite matches_flip by (intros c C; apply H; exact C); rewrite E; apply flip_flip|rewrite E; reflexivity].
Qed.
Lemma cstep_flip i g x : plain i g -> cstep g (flip x i) = flip (cstep g x) i.
Proof.
  intros H. destruct g as [g|cs t|c a q|a cs]; [destruct g| | |]; cbn [plain] in H; try (exfalso; exact H); cbn [cstep]; try reflexivity; [apply flip_comm|].
  rewrite matches_flip by (intros c C; apply H; exact C). destruct (matches x cs); [apply flip_comm|reflexivity].
Qed.
Lemma run_back i c psi : Forall (plain i) c -> forall x, mrun c psi x = psi (back c x).
Proof.
  intros H. revert psi. induction H as [|g c G H IH]; intros psi x; [reflexivity|]. change (mrun c (mapply g psi) x = psi (cstep g (back c x))). rewrite IH. apply (mapply_plain i). exact G.
Qed.
Lemma back_rev c x : back (rev c) x = forth c x. Proof. unfold back, forth. apply fold_left_rev_right. Qed.
Lemma back_forth i c x : Forall (plain i) c -> back c (forth c x) = x.
Proof. intros H. revert x. induction H as [|g c G H IH]; intros x; [reflexivity|]. change (cstep g (back c (forth c (cstep g x))) = x). rewrite IH. apply (cstep_twice i). exact G. Qed.
Lemma forth_back i c x : Forall (plain i) c -> forth c (back c x) = x.
Proof. intros H. revert x. induction H as [|g c G H IH]; intros x; [reflexivity|]. change (forth c (cstep g (cstep g (back c x))) = x). rewrite (cstep_twice i) by exact G. apply IH. Qed.
Lemma back_flip i c x : Forall (plain i) c -> back c (flip x i) = flip (back c x) i.
Proof. intros H. induction H as [|g c G H IH]; [reflexivity|]. change (cstep g (back c (flip x i)) = flip (cstep g (back c x)) i). rewrite IH. apply cstep_flip. exact G. Qed.
Lemma forth_app c d x : forth (c ++ d) x = forth d (forth c x). Proof. unfold forth. apply fold_left_app. Qed.
Lemma cstep_length g x : length (cstep g x) = length x. Proof. destruct g as [g|cs t|c a q|a cs]; [destruct g| | |]; cbn [cstep]; try reflexivity; [apply flip_length|]. destruct (matches x cs); [apply flip_length|reflexivity]. Qed.
Lemma forth_length c x : length (forth c x) = length x. Proof. revert x. induction c as [|g c IH]; intros x; [reflexivity|]. change (length (forth c (cstep g x)) = length x). rewrite IH. apply cstep_length. Qed.
Lemma back_length c x : length (back c x) = length x. Proof. induction c as [|g c IH]; [reflexivity|]. change (length (cstep g (back c x)) = length x). rewrite cstep_length. exact IH. Qed.

(** * One step *)
Lemma step_run pred n beta i psi x : Forall (plain i) (pred i) ->
  mrun (mixer_step pred n beta i) psi x = if getbit (forth (pred i) x) n then cadd (scale (cos (beta / 2)) (psi x)) (cmul (copp ci) (scale (sin (beta / 2)) (psi (flip x i)))) else psi x.
Proof.
  intros H. unfold mixer_step. rewrite !mrun_app. rewrite (run_back i) by (apply Forall_rev; exact H). rewrite back_rev. cbn [mrun fold_left]. change (mrun (pred i) psi) with (mrun (pred i) psi).
  set (phi := fold_left (fun psi g => mapply g psi) (pred i) psi). assert (E : forall y, phi y = psi (back (pred i) y)) by (intros y; apply (run_back i); exact H).
  cbn [mapply]. rewrite act_rx, !E, back_flip, (back_forth i) by exact H. reflexivity.
Qed.
Lemma keeps_step L (P : list bool -> Prop) pred n beta i : Forall (plain i) (pred i) ->
  (forall x, length x = L -> getbit (forth (pred i) x) n = true -> P (flip x i) -> P x) -> keeps L P (mixer_step pred n beta i).
Proof.
  intros H E psi S x Lx N. rewrite step_run by exact H. destruct (getbit (forth (pred i) x) n) eqn:G; [|apply S; assumption].
  rewrite (S x Lx N). rewrite (S (flip x i)); [rewrite !scale_mul; ring|rewrite flip_length; exact Lx|]. intros Q. apply N, E; assumption.
Qed.

(** * Independent sets *)
Section indep.
Context (n : nat) (adj : nat -> list nat) (HG : simple_graph n adj).
Lemma indep_plain i : (i < n)%nat -> Forall (plain i) (indep_predicate adj n i).
Proof.
  intros I. unfold indep_predicate. destruct (Nat.eqb_spec (length (adj i)) 0).
  - constructor; [cbn; lia|constructor].
  - unfold mcx. destruct (map (fun j => (j, false)) (adj i)) eqn:E; [constructor|]. rewrite <- E. constructor; [|constructor]. cbn. split; [lia|]. intros c C. rewrite map_map in C. cbn in C. rewrite map_id in C.
    destruct (HG i I c C) as (A & B & _). lia.
Qed.
Lemma matches_zero x l : matches x (map (fun j => (j, false)) l) = forallb (fun j => negb (getbit x j)) l.
Proof. unfold matches. induction l as [|j l IH]; [reflexivity|]. cbn [map forallb]. rewrite IH. destruct (getbit x j); reflexivity. Qed.
Lemma indep_eval i x : (i < n)%nat -> length x = S n -> getbit x n = false -> getbit (forth (indep_predicate adj n i) x) n = forallb (fun j => negb (getbit x j)) (adj i).
Proof.
  intros I Lx C. unfold indep_predicate. destruct (Nat.eqb_spec (length (adj i)) 0) as [E|E].
  - apply length_zero_iff_nil in E. rewrite E. change (getbit (flip x n) n = true). rewrite flip_get, Nat.eqb_refl, C by lia. reflexivity.
  - unfold mcx. destruct (map (fun j => (j, false)) (adj i)) eqn:M; [destruct (adj i); [cbn in E; lia|discriminate]|]. rewrite <- M. cbn [forth fold_left cstep]. rewrite matches_zero.
    destruct (forallb _ (adj i)); [rewrite flip_get, Nat.eqb_refl, C by lia; reflexivity|exact C].
Qed.
Definition indep_ok (x : list bool) : Prop := getbit x n = false /\ independent adj (firstn n x).
Lemma indep_flip i x : (i < n)%nat -> length x = S n -> forallb (fun j => negb (getbit x j)) (adj i) = true -> independent adj (firstn n (flip x i)) -> independent adj (firstn n x).
Proof.
  intros I Lx F H u v U V A. rewrite get_firstn in U, V. destruct (Nat.ltb_spec u n) as [Lu|]; [|discriminate]. destruct (Nat.ltb_spec v n) as [Lv|]; [|discriminate].
  rewrite forallb_forall in F. destruct (Nat.eq_dec u i) as [->|Du]; [specialize (F v A); rewrite V in F; discriminate|].
  destruct (Nat.eq_dec v i) as [->|Dv]; [destruct (HG u Lu i A) as (_ & _ & B); specialize (F u B); rewrite U in F; discriminate|].
  apply (H u v); [| |exact A]; rewrite get_firstn, flip_other by assumption; apply Nat.ltb_lt in Lu, Lv; rewrite ?Lu, ?Lv; assumption.
Qed.
Lemma keeps_indep beta : keeps (S n) indep_ok (max_indep_set_mixer adj n beta).
Proof.
  apply keeps_flat. intros i I. apply in_seq in I. apply keeps_step; [apply indep_plain; lia|]. intros x Lx G [C H]. rewrite flip_other in C by lia. rewrite indep_eval in G by (try assumption; lia).
  split; [exact C|]. apply (indep_flip i); try assumption; lia.
Qed.
Lemma supp_zero L (P : list bool -> Prop) : P (repeat false L) -> supp L P (zero_state L).
Proof. intros H x Lx N. unfold zero_state, basis_state. destruct (bits_eqb x (repeat false L)) eqn:E; [|reflexivity]. apply bits_eqb_eq in E. subst x. contradiction. Qed.
Lemma get_repeat_false q L : getbit (repeat false L) q = false.
Proof. unfold getbit. revert q. induction L as [|L IH]; intros [|q]; cbn; auto. Qed.
Lemma indep_run angles s a : length s = n -> mrun (max_indep_set n adj angles) (zero_state (S n)) (s ++ [a]) <> c0 -> a = false /\ independent adj s.
Proof.
  intros Ls N. assert (K : supp (S n) indep_ok (mrun (max_indep_set n adj angles) (zero_state (S n)))).
  { apply keeps_layers; [intros g; apply keeps_rz|apply keeps_indep|]. apply supp_zero. split; [apply get_repeat_false|]. intros i j Gi _. rewrite get_firstn, get_repeat_false in Gi. destruct (i <? n)%nat; discriminate. }
  assert (Q : indep_ok (s ++ [a]) \/ ~ indep_ok (s ++ [a])).
  { (* decidable *) unfold indep_ok. replace (firstn n (s ++ [a])) with s by (rewrite <- Ls, firstn_app, Nat.sub_diag, firstn_all; cbn; rewrite app_nil_r; reflexivity).
    assert (D : independent adj s \/ ~ independent adj s).
    { set (f := forallb (fun i => forallb (fun j => negb (getbit s i && getbit s j && existsb (Nat.eqb j) (adj i))) (seq 0 n)) (seq 0 n)). destruct f eqn:F; unfold f in F.
      - left. intros i j Gi Gj A. rewrite forallb_forall in F. assert (Li : (i < n)%nat). { destruct (le_lt_dec n i); [unfold getbit in Gi; rewrite nth_overflow in Gi by lia; discriminate|assumption]. }
        assert (Lj : (j < n)%nat). { destruct (le_lt_dec n j); [unfold getbit in Gj; rewrite nth_overflow in Gj by lia; discriminate|assumption]. }
        specialize (F i ltac:(apply in_seq; lia)). rewrite forallb_forall in F. specialize (F j ltac:(apply in_seq; lia)). rewrite Gi, Gj in F. cbn in F. apply negb_true_iff in F.
        assert (T : existsb (Nat.eqb j) (adj i) = true) by (apply existsb_exists; exists j; split; [exact A|apply Nat.eqb_refl]). congruence.
      - right. intros H. assert (T : forallb (fun i => forallb (fun j => negb (getbit s i && getbit s j && existsb (Nat.eqb j) (adj i))) (seq 0 n)) (seq 0 n) = true); [|congruence].
        apply forallb_forall. intros i _. apply forallb_forall. intros j _. apply negb_true_iff. destruct (getbit s i) eqn:Gi; [|reflexivity]. destruct (getbit s j) eqn:Gj; [|reflexivity]. cbn [andb].
        destruct (existsb (Nat.eqb j) (adj i)) eqn:X; [|reflexivity]. apply existsb_exists in X. destruct X as (w & W & E). apply Nat.eqb_eq in E. subst w. destruct (H i j Gi Gj W). }
    destruct (getbit (s ++ [a]) n); [right; intros [? _]; discriminate|]. destruct D as [D|D]; [left; split; [reflexivity|exact D]|right; intros [_ ?]; contradiction]. }
  destruct Q as [[Q1 Q2]|Q].
  - split.
    + rewrite get_app, Ls, Nat.ltb_irrefl, Nat.sub_diag in Q1. exact Q1.
    + replace s with (firstn n (s ++ [a])) by (rewrite <- Ls, firstn_app, Nat.sub_diag, firstn_all; cbn; rewrite app_nil_r; reflexivity). exact Q2.
  - destruct N. apply K; [rewrite app_length; cbn; lia|exact Q].
Qed.
(** ** every independent set is reached by one mixer *)
Context (beta : R) (Hc : cos (beta / 2) <> 0) (Hs : sin (beta / 2) <> 0).
Lemma scale_nz r z : r <> 0 -> z <> c0 -> scale r z <> c0.
Proof. intros H N E. apply N. apply (f_equal (scale (/ r))) in E. destruct z as [u v]. unfold scale, c0 in *. cbn in E. injection E as E1 E2. apply cplx_eq; cbn; [transitivity (/ r * (r * u)); [field; exact H|rewrite E1; ring]|transitivity (/ r * (r * v)); [field; exact H|rewrite E2; ring]]. Qed.
Lemma rot_nz z : z <> c0 -> cmul (copp ci) z <> c0.
Proof. intros N E. apply N. replace z with (cmul ci (cmul (copp ci) z)) by (destruct z; apply cplx_eq; cbn; ring). rewrite E. apply c_mul_0. Qed.
Lemma reach k : (k <= n)%nat -> forall s, length s = n ->
  ((exists j, (k <= j)%nat /\ getbit s j = true) -> mrun (flat_map (mixer_step (indep_predicate adj n) n beta) (seq 0 k)) (zero_state (S n)) (s ++ [false]) = c0) /\
  (independent adj s -> (forall j, (k <= j)%nat -> getbit s j = false) -> mrun (flat_map (mixer_step (indep_predicate adj n) n beta) (seq 0 k)) (zero_state (S n)) (s ++ [false]) <> c0).
Proof.
  induction k as [|k IH]; intros K s Ls.
  - cbn [seq flat_map mrun fold_left]. unfold zero_state, basis_state. split.
    + intros (j & _ & J). destruct (bits_eqb (s ++ [false]) (repeat false (S n))) eqn:E; [|reflexivity]. exfalso. apply bits_eqb_eq in E. assert (B : getbit (s ++ [false]) j = false) by (rewrite E; apply get_repeat_false).
      rewrite get_app in B. destruct (Nat.ltb_spec j (length s)); [congruence|]. unfold getbit in J. rewrite nth_overflow in J by lia. discriminate.
    + intros _ Z. assert (E : s ++ [false] = repeat false (S n)).
      { apply bits_ext; [rewrite app_length, repeat_length; cbn; lia|]. intros p _. rewrite get_repeat_false, get_app. destruct (p <? length s)%nat; [apply Z; lia|]. destruct (p - length s)%nat as [|[|q]]; reflexivity. }
      rewrite E. replace (bits_eqb _ _) with true by (symmetry; apply bits_eqb_eq; reflexivity). intros C. apply (f_equal fst) in C. cbn in C. lra.
  - assert (IHx := IH ltac:(lia) s Ls). assert (IHf := IH ltac:(lia) (flip s k) ltac:(rewrite flip_length; exact Ls)).
    rewrite seq_S, flat_map_app, mrun_app. cbn [flat_map plus]. rewrite app_nil_r, step_run by (apply indep_plain; lia). set (phi := mrun _ (zero_state (S n))) in *.
    rewrite indep_eval; [|lia|rewrite app_length; cbn; lia|rewrite get_app, Ls, Nat.ltb_irrefl, Nat.sub_diag; reflexivity]. rewrite flip_app by lia.
    replace (forallb (fun j => negb (getbit (s ++ [false]) j)) (adj k)) with (forallb (fun j => negb (getbit s j)) (adj k)).
    2: { apply forallb_ext_in. intros j J. destruct (HG k ltac:(lia) j J) as (Lj & _). rewrite get_app. replace (j <? length s)%nat with true by (symmetry; apply Nat.ltb_lt; lia). reflexivity. }
    split.
    + intros (j & J & Gj). destruct IHx as [Ax _], IHf as [Af _]. rewrite Ax by (exists j; split; [lia|exact Gj]). rewrite Af by (exists j; split; [lia|rewrite flip_other by lia; exact Gj]).
      destruct (forallb _ _); [rewrite !scale_mul; ring|reflexivity].
    + intros IN Z. destruct (getbit s k) eqn:Gk.
      * replace (forallb (fun j => negb (getbit s j)) (adj k)) with true by (symmetry; apply forallb_forall; intros j J; destruct (getbit s j) eqn:Gj; [destruct (IN k j Gk Gj J)|reflexivity]).
        destruct IHx as [Ax _], IHf as [_ Bf]. rewrite Ax by (exists k; split; [lia|exact Gk]). replace (scale (cos (beta / 2)) c0) with c0 by (rewrite scale_mul; ring).
        replace (cadd c0 (cmul (copp ci) (scale (sin (beta / 2)) (phi (flip s k ++ [false]))))) with (cmul (copp ci) (scale (sin (beta / 2)) (phi (flip s k ++ [false])))) by ring.
        apply rot_nz, scale_nz; [exact Hs|]. apply Bf.
        -- intros u v U V. rewrite flip_get in U, V by lia. apply IN; [destruct (Nat.eqb_spec u k); [subst; rewrite Gk in U; discriminate|exact U]|destruct (Nat.eqb_spec v k); [subst; rewrite Gk in V; discriminate|exact V]].
        -- intros j J. rewrite flip_get by lia. destruct (Nat.eqb_spec j k) as [->|D]; [rewrite Gk; reflexivity|apply Z; lia].
      * destruct IHx as [_ Bx], IHf as [Af _]. assert (B : phi (s ++ [false]) <> c0). { apply Bx; [exact IN|]. intros j J. destruct (Nat.eq_dec j k) as [->|D]; [exact Gk|apply Z; lia]. }
        destruct (forallb _ _); [|exact B]. rewrite Af by (exists k; split; [lia|rewrite flip_get, Nat.eqb_refl, Gk by lia; reflexivity]).
        replace (scale (sin (beta / 2)) c0) with c0 by (rewrite scale_mul; ring). replace (cadd (scale (cos (beta / 2)) (phi (s ++ [false]))) (cmul (copp ci) c0)) with (scale (cos (beta / 2)) (phi (s ++ [false]))) by ring.
        apply scale_nz; assumption.
Qed.
End indep.
