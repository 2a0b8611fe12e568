(** Arrays and counted loops used by the models of the JAX code.

    A one dimensional [jnp] array is a [list Z].  [aget] reads an entry (the
    models only read in-bounds entries, where JAX and [nth] agree), [aset] is
    [x.at[i].set(v)] (JAX drops out-of-bounds updates, and so does [aset]).
    [fori n body s] is [lax.fori_loop(0, n, body, s)]. *)
From Coq Require Export List ZArith Lia Bool Arith.
From Coq Require Export ZifyBool ZifyNat.
Export ListNotations.
Local Open Scope Z_scope.

Definition aget (l : list Z) (i : nat) : Z := nth i l 0.

Fixpoint aset (l : list Z) (i : nat) (v : Z) : list Z :=
  match l, i with
  | [], _ => []
  | _ :: t, O => v :: t
  | h :: t, S j => h :: aset t j v
  end.

Fixpoint fori {S : Type} (n : nat) (body : nat -> S -> S) (s : S) : S :=
  match n with
  | O => s
  | Datatypes.S m => body m (fori m body s)
  end.

(** [lax.while_loop] with explicit fuel: [None] is "did not terminate within the fuel". *)
Fixpoint while {S : Type} (fuel : nat) (cond : S -> bool) (body : S -> S) (s : S) : option S :=
  if cond s then
    match fuel with
    | O => None
    | Datatypes.S f => while f cond body (body s)
    end
  else Some s.

Lemma fori_ind {S : Type} (P : nat -> S -> Prop) (n : nat) body (s : S) :
  P O s ->
  (forall i st, (i < n)%nat -> P i st -> P (Datatypes.S i) (body i st)) ->
  P n (fori n body s).
Proof.
  intros H0 Hs. revert Hs. induction n as [|m IH]; intros Hs; cbn [fori]; [exact H0|].
  apply Hs; [lia|]. apply IH. intros i st Hi. apply Hs. lia.
Qed.

Lemma length_aset l i v : length (aset l i v) = length l.
Proof. revert i; induction l as [|h t IH]; intros [|i]; cbn [aset length]; auto. Qed.

Lemma aget_aset_eq l i v : (i < length l)%nat -> aget (aset l i v) i = v.
Proof.
  unfold aget; revert i; induction l as [|h t IH]; intros [|i] H; cbn [aset length nth] in *; try lia.
  apply IH; lia.
Qed.

Lemma aget_aset_neq l i j v : i <> j -> aget (aset l i v) j = aget l j.
Proof.
  unfold aget; revert i j; induction l as [|h t IH]; intros [|i] [|j] H; cbn [aset length nth] in *; try lia; auto.
Qed.

Lemma aget_aset l i j v :
  aget (aset l i v) j = if (i =? j)%nat && (i <? length l)%nat then v else aget l j.
Proof.
  destruct (Nat.eqb_spec i j) as [->|Hne]; cbn [andb].
  - destruct (Nat.ltb_spec j (length l)).
    + apply aget_aset_eq; assumption.
    + unfold aget. rewrite !nth_overflow; auto; rewrite ?length_aset; lia.
  - apply aget_aset_neq; assumption.
Qed.

Lemma aget_overflow l i : (length l <= i)%nat -> aget l i = 0.
Proof. intros H; unfold aget; apply nth_overflow; exact H. Qed.

Lemma aget_repeat n i : aget (repeat 0 n) i = 0.
Proof.
  unfold aget; revert i; induction n as [|n IH]; intros [|i]; cbn [repeat nth]; auto.
Qed.

Lemma aget_app_l l1 l2 i : (i < length l1)%nat -> aget (l1 ++ l2) i = aget l1 i.
Proof. intros; unfold aget; apply app_nth1; assumption. Qed.

Lemma aget_app_r l1 l2 i : (length l1 <= i)%nat -> aget (l1 ++ l2) i = aget l2 (i - length l1).
Proof. intros; unfold aget; apply app_nth2; lia. Qed.

Lemma aget_firstn l n i : (i < n)%nat -> aget (firstn n l) i = aget l i.
Proof.
  unfold aget; revert n i; induction l as [|h t IH]; intros [|n] [|i] H; cbn [firstn nth]; try lia; auto.
  apply IH; lia.
Qed.

Lemma list_ext_aget l1 l2 :
  length l1 = length l2 -> (forall i, (i < length l1)%nat -> aget l1 i = aget l2 i) -> l1 = l2.
Proof.
  revert l2; induction l1 as [|h t IH]; intros [|h2 t2] Hl He; cbn [length] in *; try lia; auto.
  f_equal.
  - exact (He O ltac:(lia)).
  - apply IH; [lia|]. intros i Hi. exact (He (Datatypes.S i) ltac:(lia)).
Qed.

Lemma while_ind {S : Type} (P : S -> Prop) fuel cond body (s s' : S) :
  P s -> (forall st, P st -> cond st = true -> P (body st)) ->
  while fuel cond body s = Some s' -> P s' /\ cond s' = false.
Proof.
  intros H0 Hs. revert s H0. induction fuel as [|f IH]; intros s H0 H; cbn [while] in H;
  destruct (cond s) eqn:Hc; try discriminate.
  - injection H as <-; auto.
  - eapply IH; [|exact H]. apply Hs; assumption.
  - injection H as <-; auto.
Qed.

(** Termination: a non-negative measure that strictly decreases bounds the fuel needed. *)
Lemma while_terminates {S : Type} (P : S -> Prop) (mu : S -> nat) fuel cond body (s : S) :
  P s -> (forall st, P st -> cond st = true -> P (body st) /\ (mu (body st) < mu st)%nat) ->
  (mu s <= fuel)%nat -> exists s', while fuel cond body s = Some s'.
Proof.
  intros H0 Hs. revert s H0. induction fuel as [|f IH]; intros s H0 Hmu; cbn [while];
  destruct (cond s) eqn:Hc; eauto.
  - destruct (Hs s H0 Hc); lia.
  - destruct (Hs s H0 Hc) as [Hp Hm]. apply IH; [exact Hp|lia].
Qed.
