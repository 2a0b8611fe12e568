(** Dicke states. *)
From Coq Require Import List ZArith Reals Lra Lia Bool.
Import ListNotations.
From Verif.Inverse Require Import InvSpec InvProofs.
From Verif.Fourier Require Import RegProofs.
From Verif.CtrlOps Require Import CtrlComplex.
From Verif.StatePrep Require Import PrepModel PrepSpec PrepNum XxyyProofs WProofs.
Local Open Scope R_scope.

(** ** a controlled partial swap *)
Definition block (q e : nat) (ex : list nat) (t : R) : list gate := [CNot q e; CRy (e :: ex) t q; CNot q e].
Definition other (x : list bool) (q e : nat) (v : bool) : list bool := setbit (setbit x q v) e (negb v).
Lemma block_ok q e ex t psi x : q <> e -> (q < length x)%nat -> (e < length x)%nat -> (forall c, In c ex -> c <> q /\ c <> e) ->
  run (block q e ex t) psi x =
    if xorb (getbit x q) (getbit x e) && forallb (getbit x) ex then
      if getbit x q then cadd (cmul (real (sin (t / 2))) (psi (other x q e false))) (cmul (real (cos (t / 2))) (psi (other x q e true)))
      else csub (cmul (real (cos (t / 2))) (psi (other x q e false))) (cmul (real (sin (t / 2))) (psi (other x q e true)))
    else psi x.
Proof.
  intros D Q E X. unfold run, block. cbn [fold_left]. unfold apply at 1. set (y := setbit x e (xorb (getbit x e) (getbit x q))).
  assert (Yq : getbit y q = getbit x q) by (unfold y; apply getbit_set_other; congruence). assert (Ye : getbit y e = xorb (getbit x e) (getbit x q)) by (unfold y; apply getbit_set_same; exact E).
  assert (Lq : (q < length y)%nat) by (unfold y; rewrite setbit_length; exact Q). assert (Le : (e < length y)%nat) by (unfold y; rewrite setbit_length; exact E).
  assert (Yx : forallb (getbit y) ex = forallb (getbit x) ex). { clear - X. induction ex as [|c l IH]; [reflexivity|]. cbn [forallb]. rewrite IH by (intros d H; apply X; right; exact H). f_equal. apply getbit_set_other. apply (X c). left. reflexivity. }
  unfold apply at 1. cbn [forallb]. rewrite Ye, Yx, (xorb_comm (getbit x e)). destruct (xorb (getbit x q) (getbit x e) && forallb (getbit x) ex) eqn:C.
  - apply andb_true_iff in C. destruct C as [C _]. unfold act, on_qubit. rewrite !m_ry, Yq.
    assert (P : forall v, apply (CNot q e) psi (setbit y q v) = psi (other x q e v)).
    { intros v. cbn [apply]. rewrite getbit_set_same by exact Lq. rewrite getbit_set_other by congruence. rewrite Ye, (xorb_comm (getbit x e)), C. unfold other, y. f_equal.
      rewrite (setbit_comm x e q) by congruence. rewrite setbit_twice. destruct v; reflexivity. }
    rewrite !P. destruct (getbit x q); replace (real (- sin (t / 2))) with (copp (real (sin (t / 2)))) by (apply cplx_eq; cbn; ring); ring.
  - cbn [apply]. rewrite Ye, Yq. unfold y. rewrite setbit_twice. rewrite xorb_assoc, xorb_nilpotent, xorb_false_r, setbit_get. reflexivity.
Qed.
(** ** the shapes of basis states *)
Definition isA (h m : nat) (x : list bool) : Prop := forall j, (j < h)%nat -> getbit x j = (h - m <=? j)%nat.
Definition isB (h m : nat) (x : list bool) : Prop := forall j, (j < h)%nat -> getbit x j = ((h - m - 1 <=? j) && (j <? h - 1))%nat.
Ltac bb := repeat match goal with |- context [(?a =? ?b)%nat] => destruct (Nat.eqb_spec a b) | |- context [(?a <=? ?b)%nat] => destruct (Nat.leb_spec a b) | |- context [(?a <? ?b)%nat] => destruct (Nat.ltb_spec a b) end; cbn [andb]; try reflexivity; try lia.
Section split.
Context (n h : nat) (Hn : (h <= n)%nat) (H2 : (2 <= h)%nat) (g : nat -> nat -> R).
Definition scs_inv (r : nat) (psi : state) : Prop :=
  (forall x m, length x = n -> (m <= h)%nat -> isA h m x -> psi x = real ((if ((1 <=? m) && (m <=? r))%nat then sqrt (INR m / INR h) else 1) * g m (weight (skipn h x)))) /\
  (forall x m, length x = n -> (1 <= m <= h - 1)%nat -> isB h m x -> psi x = real (if (m <=? r)%nat then sqrt (INR (h - m) / INR h) * g m (weight (skipn h x)) else 0)) /\
  (forall x, length x = n -> (forall m, (m <= h)%nat -> ~ isA h m x) -> (forall m, (1 <= m <= h - 1)%nat -> ~ isB h m x) -> psi x = c0).
Lemma skipn_other x q e v : (q < h)%nat -> (e < h)%nat -> skipn h (other x q e v) = skipn h x.
Proof.
  assert (S1 : forall q b x k, (q < k)%nat -> skipn k (setbit x q b) = skipn k x).
  { clear. intros q b x. revert q. induction x as [|a x IH]; intros q k K; [reflexivity|]. destruct k; [lia|]. destruct q; [reflexivity|]. cbn [setbit skipn]. apply IH. lia. }
  intros Q E. unfold other. rewrite !S1 by assumption. reflexivity.
Qed.
Definition ctl (s : nat) : list nat := if (s =? 1)%nat then [] else [(h - s)%nat].
Lemma other_get x s v j : (h <= length x)%nat -> (1 <= s <= h - 1)%nat -> getbit (other x (h - s - 1) (h - 1) v) j = if (j =? h - 1)%nat then negb v else if (j =? h - s - 1)%nat then v else getbit x j.
Proof. intros L S1. unfold other. rewrite !get_set by (rewrite ?setbit_length; lia). reflexivity. Qed.
Lemma other_same x s v : (h <= length x)%nat -> (1 <= s <= h - 1)%nat -> getbit x (h - s - 1) = v -> getbit x (h - 1) = negb v -> other x (h - s - 1) (h - 1) v = x.
Proof.
  intros L S1 A B. apply bits_ext; [unfold other; rewrite !setbit_length; reflexivity|]. intros p P. rewrite other_get by assumption. destruct (Nat.eqb_spec p (h - 1)) as [->|]; [congruence|]. destruct (Nat.eqb_spec p (h - s - 1)) as [->|]; congruence.
Qed.
(** A_s and B_s are exchanged *)
Lemma A_to_B x s : (h <= length x)%nat -> (1 <= s <= h - 1)%nat -> isA h s x -> isB h s (other x (h - s - 1) (h - 1) true).
Proof. intros L S1 A j J. rewrite other_get by assumption. cbn [negb]. rewrite (A j J). bb. Qed.
Lemma B_to_A x s : (h <= length x)%nat -> (1 <= s <= h - 1)%nat -> isB h s x -> isA h s (other x (h - s - 1) (h - 1) false).
Proof. intros L S1 A j J. rewrite other_get by assumption. cbn [negb]. rewrite (A j J). bb. Qed.
Lemma cond_A x s m : (1 <= s <= h - 1)%nat -> (m <= h)%nat -> isA h m x -> xorb (getbit x (h - s - 1)) (getbit x (h - 1)) && forallb (getbit x) (ctl s) = (m =? s)%nat.
Proof. intros S1 M A. rewrite !A by lia. unfold ctl. destruct (Nat.eqb_spec s 1); cbn [forallb]; rewrite ?A by lia; bb. Qed.
Lemma cond_B x s m : (1 <= s <= h - 1)%nat -> (1 <= m <= h - 1)%nat -> isB h m x -> xorb (getbit x (h - s - 1)) (getbit x (h - 1)) && forallb (getbit x) (ctl s) = (s <=? m)%nat.
Proof. intros S1 M A. rewrite !A by lia. unfold ctl. destruct (Nat.eqb_spec s 1); cbn [forallb]; rewrite ?A by lia; bb. Qed.
Lemma cond_other x s v : (h <= length x)%nat -> (1 <= s <= h - 1)%nat -> xorb (getbit x (h - s - 1)) (getbit x (h - 1)) && forallb (getbit x) (ctl s) = true ->
  xorb (getbit (other x (h - s - 1) (h - 1) v) (h - s - 1)) (getbit (other x (h - s - 1) (h - 1) v) (h - 1)) && forallb (getbit (other x (h - s - 1) (h - 1) v)) (ctl s) = true.
Proof.
  intros L S1 C. apply andb_true_iff in C. destruct C as [_ C]. apply andb_true_iff. split.
  - rewrite !other_get by assumption. rewrite !Nat.eqb_refl, (proj2 (Nat.eqb_neq (h - s - 1) (h - 1))) by lia. destruct v; reflexivity.
  - rewrite <- C. unfold ctl. destruct (Nat.eqb_spec s 1); [reflexivity|]. cbn [forallb]. rewrite other_get by assumption. rewrite !(proj2 (Nat.eqb_neq _ _)) by lia. reflexivity.
Qed.
Lemma other_other x s v w : (h <= length x)%nat -> (1 <= s <= h - 1)%nat -> other (other x (h - s - 1) (h - 1) v) (h - s - 1) (h - 1) w = other x (h - s - 1) (h - 1) w.
Proof. intros L S1. apply bits_ext; [unfold other; rewrite !setbit_length; reflexivity|]. intros p P. rewrite !other_get by (assumption || (unfold other; rewrite !setbit_length; assumption)). destruct (p =? h - 1)%nat; [reflexivity|]. destruct (p =? h - s - 1)%nat; reflexivity. Qed.
Lemma scs_step r t psi : (S r <= h - 1)%nat -> t = 2 * acos (sqrt (INR (S r) / INR h)) -> scs_inv r psi -> scs_inv (S r) (run (block (h - S r - 1) (h - 1) (ctl (S r)) t) psi).
Proof.
  intros R T (IA & IB & IO). set (s := S r) in *. assert (S1 : (1 <= s <= h - 1)%nat) by (unfold s; lia).
  assert (Hp : 0 < INR h) by (apply lt_0_INR; lia). assert (Sp : 0 < INR s) by (apply lt_0_INR; lia). assert (Sh : INR s <= INR h) by (apply le_INR; lia).
  assert (Q : 0 <= INR s / INR h <= 1). { split; [apply Rmult_le_pos; [lra|left; apply Rinv_0_lt_compat, Hp]|]. apply (Rmult_le_reg_r (INR h)); [exact Hp|]. unfold Rdiv. rewrite Rmult_assoc, Rinv_l by lra. lra. }
  assert (Qs : 0 <= sqrt (INR s / INR h) <= 1) by (split; [apply sqrt_pos|]; rewrite <- sqrt_1; apply sqrt_le_1_alt; lra).
  assert (Tc : cos (t / 2) = sqrt (INR s / INR h)) by (rewrite T; apply half_acos, Qs).
  assert (Ts : sin (t / 2) = sqrt (INR (h - s) / INR h)). { rewrite T. rewrite (proj2 (half_acos _ Qs)). f_equal. rewrite sqrt_sqrt by lra. rewrite minus_INR by lia. field. lra. }
  assert (B : forall x, length x = n -> run (block (h - s - 1) (h - 1) (ctl s) t) psi x =
    if xorb (getbit x (h - s - 1)) (getbit x (h - 1)) && forallb (getbit x) (ctl s) then
      if getbit x (h - s - 1) then cadd (cmul (real (sin (t / 2))) (psi (other x (h - s - 1) (h - 1) false))) (cmul (real (cos (t / 2))) (psi (other x (h - s - 1) (h - 1) true)))
      else csub (cmul (real (cos (t / 2))) (psi (other x (h - s - 1) (h - 1) false))) (cmul (real (sin (t / 2))) (psi (other x (h - s - 1) (h - 1) true)))
    else psi x).
  { intros x L. apply block_ok; try lia. intros c C. unfold ctl in C. destruct (Nat.eqb_spec s 1); [destruct C|]. destruct C as [<-|[]]. lia. }
  clear T. split; [|split].
  - intros x m L M A. rewrite B by exact L. rewrite (cond_A x s m) by assumption. destruct (Nat.eqb_spec m s) as [->|D].
    + rewrite (A (h - s - 1)%nat) by lia. replace (h - s <=? h - s - 1)%nat with false by (symmetry; apply Nat.leb_gt; lia).
      rewrite (other_same x s false) by (lia || (rewrite A by lia; bb)). rewrite (IA x s) by assumption.
      rewrite (IB (other x (h - s - 1) (h - 1) true) s) by (unfold other; rewrite ?setbit_length; assumption || (apply A_to_B; [lia|exact S1|exact A])).
      replace (s <=? r)%nat with false by (symmetry; apply Nat.leb_gt; unfold s; lia). rewrite andb_false_r. rewrite (proj2 (Nat.leb_le 1 s)), (Nat.leb_refl s), Tc by lia. cbn [andb]. apply cplx_eq; cbn; ring.
    + rewrite (IA x m) by assumption. do 2 f_equal. unfold s in *. replace (m <=? S r)%nat with (m <=? r)%nat; [reflexivity|]. bb.
  - intros x m L M A. rewrite B by exact L. rewrite (cond_B x s m) by assumption. destruct (Nat.leb_spec s m) as [D|D].
    + assert (Ga : getbit x (h - s - 1) = true) by (rewrite A by lia; bb). assert (Ge : getbit x (h - 1) = false) by (rewrite A by lia; bb). rewrite Ga. rewrite (other_same x s true) by (assumption || lia). rewrite (IB x m) by assumption.
      replace (m <=? r)%nat with false by (symmetry; apply Nat.leb_gt; unfold s in D; lia). destruct (Nat.eqb_spec m s) as [->|Dm].
      * rewrite (IA (other x (h - s - 1) (h - 1) false) s) by (try (unfold other; rewrite !setbit_length); lia || (apply B_to_A; [lia|exact S1|exact A])).
        replace (s <=? r)%nat with false by (symmetry; apply Nat.leb_gt; unfold s; lia). rewrite andb_false_r, Nat.leb_refl, Ts. rewrite skipn_other by lia. apply cplx_eq; cbn; ring.
      * replace (m <=? s)%nat with false by (symmetry; apply Nat.leb_gt; lia). rewrite (IO (other x (h - s - 1) (h - 1) false)); [rewrite real_0; ring|unfold other; rewrite !setbit_length; exact L| |].
        -- intros m' M' A'. assert (Z := A' (h - s - 1)%nat ltac:(lia)). assert (Z' := A' (h - s - 2)%nat ltac:(lia)). rewrite other_get in Z, Z' by lia. revert Z Z'. rewrite (A (h - s - 2)%nat) by lia. bb.
        -- intros m' M' A'. assert (Z := A' (h - 1)%nat ltac:(lia)). rewrite other_get in Z by lia. revert Z. bb.
    + rewrite (IB x m) by assumption. unfold s in *. replace (m <=? r)%nat with true by (symmetry; apply Nat.leb_le; lia). replace (m <=? S r)%nat with true by (symmetry; apply Nat.leb_le; lia). reflexivity.
  - intros x L NA NB. rewrite B by exact L. assert (Z := IO x L NA NB). destruct (xorb (getbit x (h - s - 1)) (getbit x (h - 1)) && forallb (getbit x) (ctl s)) eqn:C; [|exact Z].
    assert (Cx := proj1 (proj1 (andb_true_iff _ _) C)).
    assert (O : psi (other x (h - s - 1) (h - 1) (negb (getbit x (h - s - 1)))) = c0).
    { set (v := negb (getbit x (h - s - 1))). set (y := other x (h - s - 1) (h - 1) v). assert (Ly : length y = n) by (unfold y, other; rewrite !setbit_length; exact L).
      assert (Cy := cond_other x s v ltac:(lia) S1 C). fold y in Cy.
      assert (Back : other y (h - s - 1) (h - 1) (negb v) = x). { unfold y. rewrite other_other by lia. apply other_same; [lia|exact S1| |]; unfold v; rewrite ?negb_involutive; [reflexivity|]. destruct (getbit x (h - s - 1)), (getbit x (h - 1)); try discriminate; reflexivity. }
      assert (Va : getbit y (h - s - 1) = v). { unfold y. rewrite other_get by lia. rewrite Nat.eqb_refl. destruct (Nat.eqb_spec (h - s - 1) (h - 1)); [lia|reflexivity]. }
      assert (Dec : (exists m, (m <= h)%nat /\ isA h m y) \/ (exists m, (1 <= m <= h - 1)%nat /\ isB h m y) \/ ((forall m, (m <= h)%nat -> ~ isA h m y) /\ (forall m, (1 <= m <= h - 1)%nat -> ~ isB h m y))).
      { assert (DA : forall k, (exists m, (m <= k)%nat /\ isA h m y) \/ (forall m, (m <= k)%nat -> ~ isA h m y)).
        { assert (D1 : forall m, isA h m y \/ ~ isA h m y). { intros m. unfold isA. destruct (forallb (fun j => Bool.eqb (getbit y j) (h - m <=? j)%nat) (seq 0 h)) eqn:F.
            - left. intros j J. rewrite forallb_forall in F. apply eqb_prop, F, in_seq. lia.
            - right. intros A. assert (F' : forallb (fun j => Bool.eqb (getbit y j) (h - m <=? j)%nat) (seq 0 h) = true); [|congruence]. apply forallb_forall. intros j J. apply in_seq in J. rewrite (A j) by lia. apply eqb_reflx. }
          intros k. induction k as [|k [IHk|IHk]].
          - destruct (D1 0%nat) as [d|d]; [left; exists 0%nat; auto|right]. intros m M. replace m with 0%nat by lia. exact d.
          - left. destruct IHk as (m & M & A). exists m. split; [lia|exact A].
          - destruct (D1 (S k)) as [d|d]; [left; exists (S k); auto|right]. intros m M. destruct (Nat.eq_dec m (S k)) as [->|]; [exact d|apply IHk; lia]. }
        assert (DB : forall k, (exists m, (1 <= m <= k)%nat /\ isB h m y) \/ (forall m, (1 <= m <= k)%nat -> ~ isB h m y)).
        { assert (D1 : forall m, isB h m y \/ ~ isB h m y). { intros m. unfold isB. destruct (forallb (fun j => Bool.eqb (getbit y j) ((h - m - 1 <=? j) && (j <? h - 1))%nat) (seq 0 h)) eqn:F.
            - left. intros j J. rewrite forallb_forall in F. apply eqb_prop, F, in_seq. lia.
            - right. intros A. assert (F' : forallb (fun j => Bool.eqb (getbit y j) ((h - m - 1 <=? j) && (j <? h - 1))%nat) (seq 0 h) = true); [|congruence]. apply forallb_forall. intros j J. apply in_seq in J. rewrite (A j) by lia. apply eqb_reflx. }
          intros k. induction k as [|k [IHk|IHk]].
          - right. intros m M. lia.
          - left. destruct IHk as (m & M & A). exists m. split; [lia|exact A].
          - destruct (D1 (S k)) as [d|d]; [left; exists (S k); split; [lia|auto]|right]. intros m M. destruct (Nat.eq_dec m (S k)) as [->|]; [exact d|apply IHk; lia]. }
        destruct (DA h) as [a|a]; [left; exact a|]. destruct (DB (h - 1)%nat) as [b|b]; [right; left; exact b|right; right; split; assumption]. }
      destruct Dec as [(m & M & A)|[(m & M & A)|[NA' NB']]].
      - rewrite (cond_A y s m S1 M A) in Cy. apply Nat.eqb_eq in Cy. subst m. exfalso. apply (NB s S1). rewrite <- Back. rewrite <- Va, (A (h - s - 1)%nat) by lia. replace (h - s <=? h - s - 1)%nat with false by (symmetry; apply Nat.leb_gt; lia). apply A_to_B; [lia|exact S1|exact A].
      - rewrite (cond_B y s m S1 M A) in Cy. apply Nat.leb_le in Cy. destruct (Nat.eq_dec m s) as [->|Dm].
        + exfalso. apply (NA s); [lia|]. rewrite <- Back. rewrite <- Va, (A (h - s - 1)%nat) by lia. replace ((h - s - 1 <=? h - s - 1) && (h - s - 1 <? h - 1))%nat with true by (symmetry; bb). apply B_to_A; [lia|exact S1|exact A].
        + rewrite (IB y m Ly M A). replace (m <=? r)%nat with false by (symmetry; apply Nat.leb_gt; unfold s in Cy; lia). reflexivity.
      - apply IO; assumption. }
    assert (Sx : other x (h - s - 1) (h - 1) (getbit x (h - s - 1)) = x). { apply other_same; [lia|exact S1|reflexivity|]. destruct (getbit x (h - s - 1)), (getbit x (h - 1)); try discriminate; reflexivity. }
    destruct (getbit x (h - s - 1)); cbn [negb] in O; rewrite Sx, O, Z; ring.
Qed.
End split.
(** ** binomial coefficients *)
Lemma choose_0 n : choose n 0 = 1%nat. Proof. destruct n; reflexivity. Qed.
Lemma choose_big n k : (n < k)%nat -> choose n k = 0%nat.
Proof. revert k. induction n as [|n IH]; intros [|k] H; try lia; [reflexivity|]. cbn [choose]. rewrite !IH by lia. reflexivity. Qed.
Lemma choose_self n : choose n n = 1%nat. Proof. induction n as [|n IH]; [reflexivity|]. cbn [choose]. rewrite IH, choose_big by lia. reflexivity. Qed.
Lemma choose_pos n k : (k <= n)%nat -> (0 < choose n k)%nat.
Proof. revert k. induction n as [|n IH]; intros [|k] H; cbn [choose]; try lia. specialize (IH k ltac:(lia)). lia. Qed.
Lemma choose_absorb n k : (S k * choose (S n) (S k) = S n * choose n k)%nat.
Proof.
  revert k. induction n as [|n IH]; intros k.
  - destruct k; [reflexivity|]. rewrite !(choose_big _ (S (S k))) by lia. rewrite choose_big by lia. lia.
  - cbn [choose]. destruct k as [|k].
    + specialize (IH 0%nat). rewrite !choose_0 in *. cbn [choose] in IH. rewrite choose_0 in IH. destruct n; cbn [choose] in *; rewrite ?choose_0 in *; lia.
    + assert (A := IH k). assert (B := IH (S k)). cbn [choose] in A, B |- *. nia.
Qed.
Lemma choose_rest n k : (k <= n)%nat -> ((S n - k) * choose (S n) k = S n * choose n k)%nat.
Proof.
  intros H. destruct k as [|k]; [rewrite !choose_0; lia|]. assert (A := choose_absorb n k). assert (B : choose (S n) (S k) = (choose n k + choose n (S k))%nat) by reflexivity.
  rewrite Nat.mul_sub_distr_r. rewrite A. rewrite B. nia.
Qed.
(** ** the circuit *)
Section dicke.
Context (n k : nat) (K1 : (1 <= k)%nat) (Kn : (k <= n)%nat).
Definition gg (h m w : nat) : R := if (m + w =? k)%nat then sqrt (INR (choose h m) / INR (choose n k)) else 0.
Definition stage (h : nat) (psi : state) : Prop :=
  (forall x m, length x = n -> (m <= h)%nat -> isA h m x -> psi x = real (gg h m (weight (skipn h x)))) /\
  (forall x, length x = n -> (forall m, (m <= h)%nat -> ~ isA h m x) -> psi x = c0).
Lemma stage_inv h psi : (2 <= h <= n)%nat -> stage h psi -> scs_inv n h (gg h) 0 psi.
Proof.
  intros H [A O]. split; [|split].
  - intros x m L M X. rewrite (A x m L M X). replace ((1 <=? m) && (m <=? 0))%nat with false by (symmetry; bb). f_equal. ring.
  - intros x m L M X. rewrite (proj2 (Nat.leb_gt m 0)) by lia. rewrite real_0. apply O; [exact L|]. intros m' M' X'. assert (Z := X' (h - 1)%nat ltac:(lia)). assert (Z' := X' (h - 2)%nat ltac:(lia)). rewrite X in Z, Z' by lia. revert Z Z'. bb; intros; try discriminate; lia.
  - intros x L NA _. apply O; assumption.
Qed.
Lemma scs_run h l psi : (2 <= h <= n)%nat -> (1 <= l <= h - 1)%nat -> scs_inv n h (gg h) 0 psi -> scs_inv n h (gg h) l (run (split_cycle_shift h l) psi).
Proof.
  intros H L I. unfold split_cycle_shift. rewrite run_app.
  assert (S1 : scs_inv n h (gg h) 1 (run [CNot (h - 2) (h - 1); CRy [(h - 1)%nat] (2 * acos (sqrt (1 / INR h))) (h - 2); CNot (h - 2) (h - 1)] psi)).
  { assert (Z := scs_step n h ltac:(lia) ltac:(lia) (gg h) 0 (2 * acos (sqrt (1 / INR h))) psi ltac:(lia) eq_refl I). replace (h - 1 - 1)%nat with (h - 2)%nat in Z by lia. exact Z. }
  assert (G : forall j phi, (S j <= l)%nat -> scs_inv n h (gg h) 1 phi -> scs_inv n h (gg h) (S j) (run (flat_map (fun i => let index := (h - i)%nat in
       [CNot (index - 2) (h - 1); CRy [(h - 1)%nat; (index - 1)%nat] (2 * acos (sqrt (INR (h - index + 1) / INR h))) (index - 2); CNot (index - 2) (h - 1)]) (seq 1 j)) phi)).
  { intros j phi. induction j as [|j IH]; intros J Q; [exact Q|]. rewrite seq_S, flat_map_app, run_app. cbn [flat_map]. rewrite app_nil_r. specialize (IH ltac:(lia) Q).
    assert (Z := scs_step n h ltac:(lia) ltac:(lia) (gg h) (S j) _ _ ltac:(lia) eq_refl IH). unfold ctl in Z. cbn [Nat.eqb] in Z. cbn zeta.
    replace (h - (1 + j) - 2)%nat with (h - S (S j) - 1)%nat by lia. replace (h - (1 + j) - 1)%nat with (h - S (S j))%nat by lia. replace (h - (h - (1 + j)) + 1)%nat with (S (S j)) by lia. exact Z. }
  replace l with (S (l - 1)) at 1 by lia. apply G; [lia|exact S1].
Qed.
Lemma weight_at (x : list bool) h : (1 <= h <= length x)%nat -> weight (skipn (h - 1) x) = ((if getbit x (h - 1) then 1 else 0) + weight (skipn h x))%nat.
Proof.
  intros H. assert (E : skipn (h - 1) x = getbit x (h - 1) :: skipn h x).
  { replace h with (S (h - 1)) at 3 by lia. assert (B : (h - 1 < length x)%nat) by lia. revert B. generalize (h - 1)%nat. clear. induction x as [|b x IH]; cbn [length]; intros l B; [lia|]. destruct l; [reflexivity|]. exact (IH l ltac:(lia)). }
  rewrite E. unfold weight. cbn [filter]. destruct (getbit x (h - 1)); reflexivity.
Qed.
Lemma ratio_step a b c d : (0 < b)%nat -> (a * c = b * d)%nat -> sqrt (INR a / INR b) * sqrt (INR c / INR (choose n k)) = sqrt (INR d / INR (choose n k)).
Proof.
  intros B E. assert (Bp : 0 < INR b) by (apply lt_0_INR, B). assert (Cp : 0 < INR (choose n k)) by (apply lt_0_INR, choose_pos, Kn). rewrite <- sqrt_mult_alt by (apply Rmult_le_pos; [apply pos_INR|left; apply Rinv_0_lt_compat, Bp]).
  f_equal. apply (f_equal INR) in E. rewrite !mult_INR in E. apply (Rmult_eq_reg_r (INR b * INR (choose n k))); [|apply Rgt_not_eq, Rmult_lt_0_compat; assumption]. field_simplify; [|lra|lra]. rewrite E. reflexivity.
Qed.
Lemma stage_down h psi : (2 <= h <= n)%nat -> scs_inv n h (gg h) (min k (h - 1)) psi -> stage (h - 1) psi.
Proof.
  intros H (A & B & O). assert (Bp : 0 < INR h) by (apply lt_0_INR; lia). split.
  - intros x m L M X. rewrite weight_at by lia. set (w := weight (skipn h x)). destruct (getbit x (h - 1)) eqn:E.
    + assert (X' : isA h (m + 1) x). { intros j J. destruct (Nat.eq_dec j (h - 1)) as [->|]; [rewrite E; symmetry; apply Nat.leb_le; lia|]. rewrite (X j) by lia. bb. }
      rewrite (A x (m + 1)%nat L ltac:(lia) X'). fold w. f_equal. unfold gg. replace (m + 1 + w)%nat with (m + (1 + w))%nat by lia. destruct (Nat.eqb_spec (m + (1 + w)) k) as [W|W]; [|destruct (_ && _)%bool; ring].
      rewrite (proj2 (Nat.leb_le 1 (m + 1))) by lia. cbn [andb]. assert (Eq : ((m + 1) * choose h (m + 1) = h * choose (h - 1) m)%nat). { assert (Z := choose_absorb (h - 1) m). replace (S (h - 1)) with h in Z by lia. rewrite Nat.add_1_r. exact Z. }
      destruct (Nat.leb_spec (m + 1) (min k (h - 1))) as [Q|Q]; [apply ratio_step; [lia|exact Eq]|]. assert (Em : (m + 1 = h)%nat) by lia.
      rewrite <- (ratio_step (m + 1) h (choose h (m + 1)) (choose (h - 1) m)) by (lia || exact Eq). rewrite Em. unfold Rdiv at 2. rewrite Rinv_r by lra. rewrite sqrt_1. ring.
    + destruct (Nat.eq_dec m 0) as [->|Dm].
      * assert (X' : isA h 0 x). { intros j J. destruct (Nat.eq_dec j (h - 1)) as [->|]; [rewrite E; symmetry; apply Nat.leb_gt; lia|]. rewrite (X j) by lia. bb. }
        rewrite (A x 0%nat L ltac:(lia) X'). fold w. cbn [Nat.leb andb plus]. unfold gg. cbn [plus]. rewrite !choose_0. f_equal. ring.
      * assert (X' : isB h m x). { intros j J. destruct (Nat.eq_dec j (h - 1)) as [->|]; [rewrite E; symmetry; bb|]. rewrite (X j) by lia. bb. }
        rewrite (B x m L ltac:(lia) X'). fold w. f_equal. unfold gg. cbn [plus]. destruct (Nat.eqb_spec (m + w) k) as [W|W]; [|destruct (m <=? _)%nat; ring]. rewrite (proj2 (Nat.leb_le m _)) by lia.
        apply ratio_step; [lia|]. assert (Z := choose_rest (h - 1) m ltac:(lia)). replace (S (h - 1)) with h in Z by lia. exact Z.
  - intros x L NA. apply O; [exact L| |].
    + intros m M X. destruct (Nat.eq_dec m 0) as [->|D]; [apply (NA 0%nat); [lia|]; intros j J; rewrite (X j) by lia; bb|]. apply (NA (m - 1)%nat); [lia|]. intros j J. rewrite (X j) by lia. bb.
    + intros m M X. apply (NA m); [lia|]. intros j J. rewrite (X j) by lia. bb.
Qed.
Lemma stage_step h l psi : (2 <= h <= n)%nat -> l = min k (h - 1) -> stage h psi -> stage (h - 1) (run (split_cycle_shift h l) psi).
Proof. intros H -> S1. apply stage_down; [exact H|]. apply scs_run; [exact H|lia|]. apply stage_inv; assumption. Qed.
Lemma first_loop j psi : (j <= n - k)%nat -> (1 <= n - j)%nat -> stage n psi -> stage (n - j) (run (flat_map (fun offset => split_cycle_shift (n - offset) k) (seq 0 j)) psi).
Proof.
  intros J N S1. induction j as [|j IH]; [cbn [seq flat_map run fold_left]; rewrite Nat.sub_0_r; exact S1|]. rewrite seq_S, flat_map_app, run_app. cbn [flat_map plus]. rewrite app_nil_r. replace (n - S j)%nat with (n - j - 1)%nat by lia.
  apply stage_step; [lia|lia|]. apply IH; lia.
Qed.
Lemma second_loop j psi : (j <= k - 1)%nat -> stage k psi -> stage (k - j) (run (flat_map (fun offset => split_cycle_shift (k - offset) (k - offset - 1)) (seq 0 j)) psi).
Proof.
  intros J S1. induction j as [|j IH]; [cbn [seq flat_map run fold_left]; rewrite Nat.sub_0_r; exact S1|]. rewrite seq_S, flat_map_app, run_app. cbn [flat_map plus]. rewrite app_nil_r. replace (k - S j)%nat with (k - j - 1)%nat by lia.
  apply stage_step; [lia|lia|]. apply IH; lia.
Qed.
Lemma stage_n : stage n (basis_state (repeat false (n - k) ++ repeat true k)).
Proof.
  assert (G : forall j, (j < n)%nat -> getbit (repeat false (n - k) ++ repeat true k) j = (n - k <=? j)%nat).
  { intros j J. unfold getbit. destruct (Nat.leb_spec (n - k) j) as [Q|Q].
    - rewrite app_nth2 by (rewrite repeat_length; lia). rewrite repeat_length. rewrite (nth_indep _ false true) by (rewrite repeat_length; lia). apply nth_repeat.
    - rewrite app_nth1 by (rewrite repeat_length; lia). apply nth_repeat. }
  assert (Ln : length (repeat false (n - k) ++ repeat true k) = n) by (rewrite app_length, !repeat_length; lia).
  split.
  - intros x m L M X. rewrite skipn_all2 by lia. unfold basis_state, gg. change (weight []) with 0%nat. rewrite Nat.add_0_r. destruct (bits_eqb x _) eqn:E.
    + apply bits_eqb_eq in E. assert (m = k). { subst x. destruct (Nat.lt_total m k) as [Q|[Q|Q]]; [|exact Q|].
        - assert (Z := X (n - k)%nat ltac:(lia)). rewrite G in Z by lia. revert Z. bb; intros; discriminate.
        - assert (Z := X (n - m)%nat ltac:(lia)). rewrite G in Z by lia. revert Z. bb; intros; discriminate. }
      subst m. rewrite Nat.eqb_refl. unfold Rdiv. rewrite Rinv_r by (apply Rgt_not_eq, lt_0_INR, choose_pos, Kn). rewrite sqrt_1. reflexivity.
    + destruct (Nat.eqb_spec m k) as [->|]; [|reflexivity]. exfalso. assert (x = repeat false (n - k) ++ repeat true k); [|apply bits_eqb_eq in H; congruence]. apply bits_ext; [lia|]. intros p P. rewrite G by lia. apply X. lia.
  - intros x L NA. unfold basis_state. destruct (bits_eqb x _) eqn:E; [|reflexivity]. apply bits_eqb_eq in E. exfalso. apply (NA k Kn). subst x. exact G.
Qed.
Lemma dicke_run x : length x = n -> run (dicke_state n k) (basis_state (repeat false (n - k) ++ repeat true k)) x = real (if (weight x =? k)%nat then 1 / sqrt (INR (choose n k)) else 0).
Proof.
  intros L. unfold dicke_state. rewrite run_app. assert (S1 := first_loop (n - k) _ ltac:(lia) ltac:(lia) stage_n). replace (n - (n - k))%nat with k in S1 by lia.
  apply (second_loop (k - 1)) in S1; [|lia]. replace (k - (k - 1))%nat with 1%nat in S1 by lia. destruct S1 as [A _]. destruct x as [|b x]; [cbn in L; lia|].
  rewrite (A (b :: x) (if b then 1 else 0)%nat L); [|destruct b; lia|intros j J; replace j with 0%nat by lia; destruct b; reflexivity].
  cbn [skipn]. unfold gg. replace (weight (b :: x)) with ((if b then 1 else 0) + weight x)%nat by (destruct b; reflexivity). destruct (_ =? k)%nat; [|reflexivity]. f_equal.
  replace (choose 1 (if b then 1 else 0)) with 1%nat by (destruct b; reflexivity). cbn [INR]. rewrite sqrt_div_alt by (apply lt_0_INR, choose_pos, Kn). rewrite sqrt_1. reflexivity.
Qed.
End dicke.
