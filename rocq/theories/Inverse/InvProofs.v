(** Proofs about inversion. *)
From Coq Require Import List Ascii Bool Lia Arith Ring Setoid.
From Verif.Inverse Require Import InvModel InvSpec.
Import ListNotations.

(** * bits *)
Lemma setbit_length : forall x q b, length (setbit x q b) = length x.
Proof. induction x as [|a x IH]; intros [|q] b; cbn; auto. Qed.
Lemma getbit_set_same : forall x q b, q < length x -> getbit (setbit x q b) q = b.
Proof. unfold getbit. induction x as [|a x IH]; intros [|q] b H; cbn in *; try lia; auto. apply IH; lia. Qed.
Lemma getbit_set_other : forall x q p b, p <> q -> getbit (setbit x q b) p = getbit x p.
Proof. unfold getbit. induction x as [|a x IH]; intros [|q] [|p] b H; cbn in *; try lia; auto. Qed.
Lemma setbit_twice : forall x q b b', setbit (setbit x q b) q b' = setbit x q b'.
Proof. induction x as [|a x IH]; intros [|q] b b'; cbn; [reflexivity..|]. f_equal. apply IH. Qed.
Lemma setbit_get : forall x q, setbit x q (getbit x q) = x.
Proof. unfold getbit. induction x as [|a x IH]; intros [|q]; cbn; [reflexivity..|]. f_equal. apply IH. Qed.
Lemma bits_eqb_eq : forall a b, bits_eqb a b = true <-> a = b.
Proof.
  induction a as [|x a IH]; intros [|y b]; cbn; try (split; [discriminate|discriminate]); try (split; reflexivity).
  rewrite andb_true_iff, IH, Bool.eqb_true_iff. split; [intros [-> ->]; reflexivity|intros E; injection E; auto].
Qed.
Definition agree_off (qs : list nat) (x y : list bool) : Prop := length y = length x /\ forall q, ~ In q qs -> getbit y q = getbit x q.
Lemma agree_refl : forall qs x, agree_off qs x x. Proof. intros; split; auto. Qed.
Lemma agree_trans : forall qs x y z, agree_off qs x y -> agree_off qs y z -> agree_off qs x z.
Proof. intros qs x y z [A B] [C D]. split; [congruence|]. intros q N. rewrite D, B; auto. Qed.
Lemma agree_incl : forall qs qs' x y, incl qs qs' -> agree_off qs x y -> agree_off qs' x y.
Proof. intros qs qs' x y I [A B]. split; [exact A|]. intros q N. apply B. auto. Qed.
Lemma agree_set : forall qs q x b, In q qs -> agree_off qs x (setbit x q b).
Proof. intros qs q x b I. split; [apply setbit_length|]. intros p N. apply getbit_set_other. intros ->; auto. Qed.

Section ind.
Context {A : Type}.
Lemma op_ind' : forall P : op A -> Prop,
  (forall n t p l g ps, P (U3 n t p l g ps)) -> (forall p, P (Pauli p)) ->
  (forall s b, P b -> P (Ctrl s b)) ->
  (forall s b body, P b -> Forall (fun i => P (fst i)) body -> P (Pt s b body)) ->
  (forall n nq ncl body ps, Forall (fun i => P (fst i)) body -> P (Comp n nq ncl body ps)) ->
  P Alloc -> P Dealloc -> (forall n, P (Barrier n)) -> (forall n a b, P (Opaque n a b)) -> forall o, P o.
Proof.
  intros P H1 H2 H3 H4 H5 H6 H7 H8 H9. fix IH 1.
  assert (B : forall body : list (op A * list nat), Forall (fun i => P (fst i)) body).
  { fix IHb 1. intros [|[o loc] body]; constructor; [apply IH|apply IHb]. }
  intros [n t p l g ps|p|s b|s b body|n nq ncl body ps| | |n|n a b].
  - apply H1.
  - apply H2.
  - apply H3, IH.
  - apply H4; [apply IH|apply B].
  - apply H5, B.
  - exact H6.
  - exact H7.
  - apply H8.
  - apply H9.
Qed.
End ind.

Section inv.
Context {A : Type} (aopp : A -> A) (aadd : A -> A -> A).
Notation op := (op A). Notation inverse := (inverse aopp aadd). Notation inverse_onto := (inverse_onto aopp aadd).

Lemma inverse_comp : forall n nq ncl body ps, inverse (Comp n nq ncl body ps) =
  match ncl with 0 => match inverse_onto body [] with Some l => Some (Comp (toggle n) nq 0 (filter (fun i => negb (is_alloc (fst i))) l) ps) | None => None end | _ => None end.
Proof. reflexivity. Qed.
Lemma inverse_pt : forall s b body, inverse (Pt s b body) = match inverse b, inverse_onto body [] with Some b, Some l => Some (Pt s b l) | _, _ => None end.
Proof. reflexivity. Qed.

(** the shape of an inverted list *)
Definition inv_pair (i j : op * list nat) : Prop := snd j = snd i /\ inverse (fst i) = Some (fst j).
Lemma inverse_onto_shape : forall c acc d, inverse_onto c acc = Some d -> exists e, d = rev e ++ acc /\ Forall2 inv_pair c e.
Proof.
  induction c as [|[o qs] c IH]; intros acc d H; cbn [InvModel.inverse_onto] in H.
  - injection H as <-. exists []. split; [reflexivity|constructor].
  - destruct (inverse o) as [o'|] eqn:E; [|discriminate]. destruct (IH _ _ H) as (e & -> & F).
    exists ((o', qs) :: e). split; [cbn [rev]; rewrite <- app_assoc; reflexivity|]. constructor; [split; [reflexivity|exact E]|exact F].
Qed.
Lemma inverse_onto_none : forall c acc, inverse_onto c acc = None <-> exists i, In i c /\ inverse (fst i) = None.
Proof.
  induction c as [|[o qs] c IH]; intros acc; cbn [InvModel.inverse_onto].
  - split; [discriminate|]. intros (i & [] & _).
  - destruct (inverse o) as [o'|] eqn:E.
    + rewrite IH. split; [intros (i & I & N); exists i; cbn; auto|]. intros (i & [<-|I] & N); [cbn in N; congruence|exists i; auto].
    + split; [intros _; exists (o, qs); cbn; auto|reflexivity].
Qed.
Lemma circuit_shape : forall c d, inverse_circuit aopp aadd c = Some d -> Forall2 inv_pair c (rev d).
Proof.
  intros c d H. apply inverse_onto_shape in H as (e & -> & F). rewrite app_nil_r, rev_involutive. exact F.
Qed.

Lemma inverse_arity : forall o o', inverse o = Some o' -> arity o' = arity o.
Proof.
  induction o as [n t p l g ps|p|s b IH|s b body IH _|n nq ncl body ps _| | |n|n a b] using op_ind'; intros o' H.
  - injection H as <-. reflexivity.
  - injection H as <-. reflexivity.
  - cbn [InvModel.inverse] in H. destruct (inverse b) as [b'|]; [|discriminate]. injection H as <-. cbn. rewrite (IH _ eq_refl). reflexivity.
  - rewrite inverse_pt in H. destruct (inverse b) as [b'|]; [|discriminate]. destruct (inverse_onto body []); [|discriminate]. injection H as <-. cbn. rewrite (IH _ eq_refl). reflexivity.
  - rewrite inverse_comp in H. destruct ncl; [|discriminate]. destruct (inverse_onto body []); [|discriminate]. injection H as <-. reflexivity.
  - injection H as <-. reflexivity.
  - injection H as <-. reflexivity.
  - injection H as <-. reflexivity.
  - discriminate.
Qed.
Lemma wf_body_In : forall n (l : list (op * list nat)), wf_body n l <-> forall o loc, In (o, loc) l -> well_formed o /\ NoDup loc /\ length loc = arity o /\ (forall i, In i loc -> i < n).
Proof.
  intros n l; induction l as [|[o loc] l IH].
  - split; [intros _ o loc []|constructor].
  - split.
    + intros H o' loc' I. inversion H as [|n0 o0 l0 r W N L B R]; subst. destruct I as [E|I]; [injection E as <- <-; auto|]. apply IH; auto.
    + intros H. destruct (H o loc (or_introl eq_refl)) as (W & N & L & B). constructor; auto. apply IH. intros; apply H; cbn; auto.
Qed.
Lemma shape_In : forall c e o' loc, Forall2 inv_pair c e -> In (o', loc) e -> exists o, In (o, loc) c /\ inverse o = Some o'.
Proof.
  intros c e o' loc F; induction F as [|i j c e [E1 E2] F IH]; intros I; [destruct I|].
  destruct I as [->|I]; [|destruct (IH I) as (o & J & K); exists o; cbn; auto].
  destruct i as [o loc0]. cbn in E1, E2. subst. exists o. cbn; auto.
Qed.
Lemma inverse_wf : forall o o', inverse o = Some o' -> well_formed o -> well_formed o'.
Proof.
  induction o as [n t p l g ps|p|s b IH|s b body IH IHb|n nq ncl body ps IHb| | |n|n a b] using op_ind'; intros o' H W.
  - injection H as <-. constructor.
  - injection H as <-. constructor.
  - cbn [InvModel.inverse] in H. destruct (inverse b) as [b'|]; [|discriminate]. injection H as <-. inversion W; subst. constructor. auto.
  - rewrite inverse_pt in H. destruct (inverse b) as [b'|] eqn:E; [|discriminate]. destruct (inverse_onto body []) as [d|] eqn:D; [|discriminate]. injection H as <-.
    inversion W as [| | |s0 b0 bd Wb Wd| | | | |]; subst. constructor; [auto|]. apply inverse_onto_shape in D as (e & -> & F). rewrite app_nil_r, (inverse_arity _ _ E).
    apply wf_body_In. intros o loc I. apply in_rev in I. destruct (shape_In _ _ _ _ F I) as (o0 & J & K).
    rewrite wf_body_In in Wd. destruct (Wd _ _ J) as (W1 & W2 & W3 & W4). rewrite Forall_forall in IHb. split; [apply (IHb _ J _ K W1)|]. rewrite (inverse_arity _ _ K). auto.
  - rewrite inverse_comp in H. destruct ncl; [|discriminate]. destruct (inverse_onto body []) as [d|] eqn:D; [|discriminate]. injection H as <-.
    inversion W as [| | | |n0 nq0 ncl0 bd ps0 Wd| | | |]; subst. constructor. apply inverse_onto_shape in D as (e & -> & F). rewrite app_nil_r.
    apply wf_body_In. intros o loc I. apply filter_In in I as [I _]. apply in_rev in I. destruct (shape_In _ _ _ _ F I) as (o0 & J & K).
    rewrite wf_body_In in Wd. destruct (Wd _ _ J) as (W1 & W2 & W3 & W4). rewrite Forall_forall in IHb. split; [apply (IHb _ J _ K W1)|]. rewrite (inverse_arity _ _ K). auto.
  - injection H as <-. constructor.
  - injection H as <-. constructor.
  - injection H as <-. constructor.
  - discriminate.
Qed.
Lemma inverse_none : forall o, inverse o = None <-> non_unitary o.
Proof.
  induction o as [n t p l g ps|p|s b IH|s b body IH IHb|n nq ncl body ps IHb| | |n|n a b] using op_ind'.
  - split; [discriminate|intros H; inversion H].
  - split; [discriminate|intros H; inversion H].
  - cbn [InvModel.inverse]. destruct (inverse b).
    + split; [discriminate|]. intros H; inversion H; subst. apply IH in H1. discriminate.
    + split; [|reflexivity]. intros _. constructor. apply IH. reflexivity.
  - rewrite inverse_pt. rewrite Forall_forall in IHb. destruct (inverse b).
    + destruct (inverse_onto body []) as [d|] eqn:D.
      * split; [discriminate|]. intros H; inversion H; subst; [apply IH in H1; discriminate|].
        assert (X : inverse_onto body [] = None) by (apply inverse_onto_none; exists (o0, loc); split; [assumption|]; apply (IHb (o0, loc)); assumption). congruence.
      * split; [|reflexivity]. intros _. apply inverse_onto_none in D as ([o1 loc] & I & N). eapply nu_pt_body; [exact I|]. apply (IHb _ I), N.
    + split; [|reflexivity]. intros _. constructor. apply IH. reflexivity.
  - rewrite inverse_comp. rewrite Forall_forall in IHb. destruct ncl as [|ncl].
    + destruct (inverse_onto body []) as [d|] eqn:D.
      * split; [discriminate|]. intros H; inversion H; subst; [congruence|].
        assert (X : inverse_onto body [] = None) by (apply inverse_onto_none; exists (o, loc); split; [assumption|]; apply (IHb (o, loc)); assumption). congruence.
      * split; [|reflexivity]. intros _. apply inverse_onto_none in D as ([o1 loc] & I & N). eapply nu_comp; [exact I|]. apply (IHb _ I), N.
    + split; [|reflexivity]. intros _. apply nu_cl. discriminate.
  - split; [discriminate|intros H; inversion H].
  - split; [discriminate|intros H; inversion H].
  - split; [discriminate|intros H; inversion H].
  - split; [|reflexivity]. intros _. constructor.
Qed.
End inv.

Section effect.
Context {A R : Type} (aopp : A -> A) (aadd : A -> A -> A).
Context (rO rI : R) (radd rmul rsub : R -> R -> R) (ropp : R -> R) (RT : ring_theory rO rI radd rmul rsub ropp eq).
Context (expi chalf shalf : A -> R) (im : R).
Context (L : angle_laws aadd rI radd rmul ropp expi chalf shalf im aopp).
Add Ring rr : RT.
Notation effect := (effect aadd rO rI radd rmul ropp expi chalf shalf im).
Notation inverse := (inverse aopp aadd).
Notation amp := (@amp R).

Definition globals (qs loc : list nat) : list nat := map (fun i => nth i qs 0) loc.
Fixpoint run_body (qs : list nat) (l : list (op A * list nat)) (psi : amp) : amp :=
  match l with [] => psi | (o, loc) :: l => run_body qs l (effect o (globals qs loc) psi) end.
Lemma effect_comp : forall n nq ncl body ps qs psi, effect (Comp n nq ncl body ps) qs psi = run_body qs body psi.
Proof.
  intros n nq ncl body ps qs psi. cbn [InvSpec.effect]. revert psi. induction body as [|[o loc] body IH]; intros psi; [reflexivity|]. apply IH.
Qed.
Lemma effect_pt : forall s b body qs psi, effect (Pt s b body) qs psi = run_body qs body psi.
Proof.
  intros s b body qs psi. cbn [InvSpec.effect]. revert psi. induction body as [|[o loc] body IH]; intros psi; [reflexivity|]. apply IH.
Qed.
Lemma globals_incl : forall qs loc, (forall i, In i loc -> i < length qs) -> incl (globals qs loc) qs.
Proof. intros qs loc H q I. apply in_map_iff in I as (i & <- & I). apply nth_In. auto. Qed.
Lemma globals_NoDup : forall qs loc, NoDup qs -> NoDup loc -> (forall i, In i loc -> i < length qs) -> NoDup (globals qs loc).
Proof.
  intros qs loc N M H. unfold globals. induction M as [|i loc NI M IH]; cbn [map]; constructor.
  - intros I. apply in_map_iff in I as (j & E & I). apply NI.
    rewrite (NoDup_nth qs 0) in N. rewrite <- (N j i); auto; apply H; cbn; auto.
  - apply IH. intros; apply H; cbn; auto.
Qed.

(** * locality *)
Definition same_on (qs : list nat) (x : list bool) (psi psi' : amp) : Prop := forall y, agree_off qs x y -> psi y = psi' y.
Lemma run_body_local : forall qs body, Forall (fun i => well_formed (fst i) -> forall qs psi psi' x, length qs = arity (fst i) -> same_on qs x psi psi' -> effect (fst i) qs psi x = effect (fst i) qs psi' x) body ->
  wf_body (length qs) body -> forall psi psi' x, same_on qs x psi psi' -> run_body qs body psi x = run_body qs body psi' x.
Proof.
  intros qs body F. induction F as [|[o loc] body P F IH]; intros W psi psi' x S; cbn [run_body]; [apply S, agree_refl|].
  inversion W as [|n0 o0 l0 r Wo N Len B Wr]; subst. apply IH; [exact Wr|]. intros y Ay. cbn [fst] in P. apply P; [exact Wo|unfold globals; rewrite map_length; exact Len|].
  intros z Az. apply S. eapply agree_trans; [exact Ay|]. eapply agree_incl; [|exact Az]. apply globals_incl, B.
Qed.
Lemma on_qubit_local : forall m q qs psi psi' x, In q qs -> same_on qs x psi psi' -> on_qubit radd rmul m q psi x = on_qubit radd rmul m q psi' x.
Proof.
  intros m q qs psi psi' x I S. unfold on_qubit. rewrite (S (setbit x q false)), (S (setbit x q true)) by (apply agree_set, I). reflexivity.
Qed.
Lemma effect_local : forall o, well_formed o -> forall qs psi psi' x, length qs = arity o -> same_on qs x psi psi' -> effect o qs psi x = effect o qs psi' x.
Proof.
  induction o as [n t p l g ps|p|s b IH|s b body IH IHb|n nq ncl body ps IHb| | |n|n a b] using op_ind'; intros W qs psi psi' x Len S.
  - cbn [InvSpec.effect]. apply (on_qubit_local _ _ qs); [|exact S]. apply nth_In. rewrite Len. cbn. lia.
  - cbn [InvSpec.effect]. apply (on_qubit_local _ _ qs); [|exact S]. apply nth_In. rewrite Len. cbn. lia.
  - cbn [InvSpec.effect]. inversion W; subst. destruct (bits_eqb _ s); [|apply S, agree_refl]. apply IH; [assumption|rewrite skipn_length, Len; cbn; lia|].
    intros y Ay. apply S. eapply agree_incl; [|exact Ay]. intros q I. rewrite <- (firstn_skipn (length s) qs). apply in_or_app; auto.
  - rewrite !effect_pt. inversion W; subst. cbn in Len. apply run_body_local; [exact IHb|rewrite Len; assumption|exact S].
  - rewrite !effect_comp. inversion W; subst. cbn in Len. apply run_body_local; [exact IHb|rewrite Len; assumption|exact S].
  - apply S, agree_refl.
  - apply S, agree_refl.
  - apply S, agree_refl.
  - apply S, agree_refl.
Qed.

(** * inverse matrices *)
Lemma on_qubit_inv : forall m m' q psi x, q < length x ->
  (forall o c, radd (rmul (m' o false) (m false c)) (rmul (m' o true) (m true c)) = if Bool.eqb o c then rI else rO) ->
  on_qubit radd rmul m' q (on_qubit radd rmul m q psi) x = psi x.
Proof.
  intros m m' q psi x Q H. unfold on_qubit. rewrite !getbit_set_same, !setbit_twice by exact Q.
  set (o := getbit x q). set (a := psi (setbit x q false)). set (b := psi (setbit x q true)).
  transitivity (radd (rmul (radd (rmul (m' o false) (m false false)) (rmul (m' o true) (m true false))) a) (rmul (radd (rmul (m' o false) (m false true)) (rmul (m' o true) (m true true))) b)); [ring|].
  rewrite !H. replace (psi x) with (psi (setbit x q o)) by (unfold o; rewrite setbit_get; reflexivity). fold o. destruct o; cbn [Bool.eqb]; fold a; fold b; ring.
Qed.
Lemma u3_inv : forall t p l g o c,
  radd (rmul (u3_matrix aadd rmul ropp expi chalf shalf (aopp t) (aopp l) (aopp p) (aopp g) o false) (u3_matrix aadd rmul ropp expi chalf shalf t p l g false c))
       (rmul (u3_matrix aadd rmul ropp expi chalf shalf (aopp t) (aopp l) (aopp p) (aopp g) o true) (u3_matrix aadd rmul ropp expi chalf shalf t p l g true c)) = if Bool.eqb o c then rI else rO.
Proof.
  destruct L as (EA & EI & CE & SO & CS & _). intros t p l g o c. unfold u3_matrix. rewrite !EA, !CE, !SO.
  pose proof (EI p) as Hp. pose proof (EI l) as Hl. pose proof (EI g) as Hg. pose proof (CS t) as Ht.
  assert (Hs : rmul (shalf t) (shalf t) = rsub rI (rmul (chalf t) (chalf t))) by (rewrite <- Ht; ring).
  set (ep := expi p) in *. set (ep' := expi (aopp p)) in *. set (el := expi l) in *. set (el' := expi (aopp l)) in *. set (eg := expi g) in *. set (eg' := expi (aopp g)) in *.
  set (cc := chalf t) in *. set (ss := shalf t) in *. clearbody ep ep' el el' eg eg' cc ss.
  destruct o, c; cbn [Bool.eqb]; ring [Hp Hl Hg Hs].
Qed.
Lemma u3_inv' : forall t p l g o c,
  radd (rmul (u3_matrix aadd rmul ropp expi chalf shalf t p l g o false) (u3_matrix aadd rmul ropp expi chalf shalf (aopp t) (aopp l) (aopp p) (aopp g) false c))
       (rmul (u3_matrix aadd rmul ropp expi chalf shalf t p l g o true) (u3_matrix aadd rmul ropp expi chalf shalf (aopp t) (aopp l) (aopp p) (aopp g) true c)) = if Bool.eqb o c then rI else rO.
Proof.
  destruct L as (EA & EI & CE & SO & CS & _). intros t p l g o c. unfold u3_matrix. rewrite !EA, !CE, !SO.
  pose proof (EI p) as Hp. pose proof (EI l) as Hl. pose proof (EI g) as Hg. pose proof (CS t) as Ht.
  assert (Hs : rmul (shalf t) (shalf t) = rsub rI (rmul (chalf t) (chalf t))) by (rewrite <- Ht; ring).
  set (ep := expi p) in *. set (ep' := expi (aopp p)) in *. set (el := expi l) in *. set (el' := expi (aopp l)) in *. set (eg := expi g) in *. set (eg' := expi (aopp g)) in *.
  set (cc := chalf t) in *. set (ss := shalf t) in *. clearbody ep ep' el el' eg eg' cc ss.
  destruct o, c; cbn [Bool.eqb]; ring [Hp Hl Hg Hs].
Qed.
Lemma pauli_inv : forall p o c,
  radd (rmul (pauli_matrix rO rI ropp im p o false) (pauli_matrix rO rI ropp im p false c)) (rmul (pauli_matrix rO rI ropp im p o true) (pauli_matrix rO rI ropp im p true c)) = if Bool.eqb o c then rI else rO.
Proof.
  destruct L as (_ & _ & _ & _ & _ & I2). intros [] [] []; cbn [pauli_matrix Bool.eqb]; ring [I2].
Qed.

(** * undoing *)
Definition undoes (n : nat) (o o' : op A) : Prop := forall qs, NoDup qs -> length qs = arity o -> (forall q, In q qs -> q < n) ->
  forall psi x, length x = n -> effect o' qs (effect o qs psi) x = psi x.
Lemma ctrl_undoes : forall n s b b', well_formed b -> well_formed b' -> arity b' = arity b -> undoes n b b' -> undoes n (Ctrl s b) (Ctrl s b').
Proof.
  intros n s b b' W W' Ar U qs N Len B psi x Lx. cbn [InvSpec.effect]. cbn in Len.
  set (k := length s) in *.
  assert (Sp : qs = firstn k qs ++ skipn k qs) by (symmetry; apply firstn_skipn).
  assert (Dis : forall q, In q (firstn k qs) -> ~ In q (skipn k qs)).
  { rewrite Sp in N. clear - N. revert N. generalize (firstn k qs) as f, (skipn k qs) as g. induction f as [|a f IH]; intros g N q I J; [destruct I|].
    cbn in N. inversion N; subst. destruct I as [->|I]; [apply H1, in_or_app; auto|]. eapply IH; eauto. }
  destruct (bits_eqb (map (getbit x) (firstn k qs)) s) eqn:E; [|reflexivity].
  transitivity (effect b' (skipn k qs) (effect b (skipn k qs) psi) x).
  - apply effect_local; [exact W'|rewrite skipn_length; lia|]. intros y [Ly Ay].
    replace (map (getbit y) (firstn k qs)) with (map (getbit x) (firstn k qs)); [rewrite E; reflexivity|].
    apply map_ext_in. intros q I. symmetry. apply Ay. auto.
  - apply U; [|rewrite skipn_length; lia| |exact Lx].
    + rewrite Sp in N. clear - N. revert N. generalize (firstn k qs) as f. induction f as [|a f IH]; intros N; [exact N|]. apply IH. inversion N; assumption.
    + intros q I. apply B. rewrite Sp. apply in_or_app; auto.
Qed.
Lemma run_body_app : forall qs a b psi, run_body qs (a ++ b) psi = run_body qs b (run_body qs a psi).
Proof. intros qs a; induction a as [|[o loc] a IH]; intros b psi; [reflexivity|]. apply IH. Qed.
Lemma run_body_wf_local : forall qs body, wf_body (length qs) body -> forall psi psi' x, same_on qs x psi psi' -> run_body qs body psi x = run_body qs body psi' x.
Proof.
  intros qs body W. apply run_body_local; [|exact W]. apply Forall_forall. intros [o loc] _. cbn [fst]. apply effect_local.
Qed.
(** bodies: e is pointwise inverse to body *)
Lemma body_undoes : forall n qs body e, NoDup qs -> (forall q, In q qs -> q < n) -> wf_body (length qs) body -> wf_body (length qs) e ->
  Forall2 (fun i j => snd j = snd i /\ arity (fst j) = arity (fst i) /\ undoes n (fst i) (fst j)) body e ->
  forall psi x, length x = n -> run_body qs (rev e) (run_body qs body psi) x = psi x.
Proof.
  intros n qs body e N B Wb We F. induction F as [|[o loc] [o' loc'] body e [E1 [Ar U]] F IH]; intros psi x Lx; [reflexivity|].
  cbn [fst snd] in *. subst loc'. inversion Wb as [|n0 o0 l0 r Wo Nl Len Bl Wr]; subst. inversion We as [|n1 o1 l1 r1 Wo' _ Len' _ Wr']; subst.
  cbn [rev run_body]. rewrite run_body_app. cbn [run_body].
  assert (In1 : incl (globals qs loc) qs) by (apply globals_incl, Bl).
  transitivity (effect o' (globals qs loc) (effect o (globals qs loc) psi) x).
  - apply effect_local; [exact Wo'|unfold globals; rewrite map_length; exact Len'|].
    intros y [Ly _]. apply IH; [exact Wr|exact Wr'|congruence].
  - apply U; [apply globals_NoDup; assumption|unfold globals; rewrite map_length; exact Len|intros q I; apply B, In1, I|reflexivity].
Qed.
Lemma run_body_filter : forall qs l psi, run_body qs (filter (fun i => negb (is_alloc (fst i))) l) psi = run_body qs l psi.
Proof.
  intros qs l; induction l as [|[o loc] l IH]; intros psi; [reflexivity|]. cbn [filter fst].
  destruct o; cbn [is_alloc negb]; cbn [run_body]; rewrite IH; reflexivity.
Qed.
Lemma Forall2_rev' : forall B C (P : B -> C -> Prop) l m, Forall2 P l m -> Forall2 P (rev l) (rev m).
Proof.
  intros B C P l m F; induction F as [|a b l m H F IH]; [constructor|]. cbn [rev]. apply Forall2_app; [exact IH|]. constructor; [exact H|constructor].
Qed.
Lemma Forall2_impl' : forall B C (P Q : B -> C -> Prop) l m, (forall a b, P a b -> Q a b) -> Forall2 P l m -> Forall2 Q l m.
Proof. intros B C P Q l m H F; induction F; constructor; auto. Qed.
Lemma Forall2_flip' : forall B C (P : B -> C -> Prop) l m, Forall2 P l m -> Forall2 (fun b a => P a b) m l.
Proof. intros B C P l m F; induction F; constructor; auto. Qed.
Lemma inverse_undoes : forall n o o', inverse o = Some o' -> well_formed o -> undoes n o o' /\ undoes n o' o.
Proof.
  intros n. induction o as [nm t p l g ps|p|s b IH|s b body IH IHb|nm nq ncl body ps IHb| | |k|nm a b] using op_ind'; intros o' H W.
  - injection H as <-. split; intros qs N Len B psi x Lx; cbn [InvSpec.effect]; cbn in Len;
      (apply on_qubit_inv; [rewrite Lx; apply B, nth_In; lia|]); intros; [apply u3_inv|apply u3_inv'].
  - injection H as <-. assert (X : undoes n (Pauli p) (Pauli p)); [|auto]. intros qs N Len B psi x Lx; cbn [InvSpec.effect]; cbn in Len.
    apply on_qubit_inv; [rewrite Lx; apply B, nth_In; lia|]. intros; apply pauli_inv.
  - cbn [InvModel.inverse] in H. destruct (inverse b) as [b'|] eqn:E; [|discriminate]. injection H as <-. inversion W; subst.
    destruct (IH _ eq_refl) as [U V]; [assumption|]. pose proof (inverse_arity _ _ _ _ E). pose proof (inverse_wf _ _ _ _ E ltac:(assumption)).
    split; apply ctrl_undoes; auto.
  - rewrite inverse_pt in H. destruct (inverse b) as [b'|] eqn:E; [|discriminate]. destruct (inverse_onto aopp aadd body []) as [d|] eqn:D; [|discriminate]. injection H as <-.
    inversion W as [| | |s0 b0 bd Wb Wd| | | | |]; subst. apply inverse_onto_shape in D as (e & -> & F). rewrite app_nil_r.
    pose proof (inverse_arity _ _ _ _ E) as Ar.
    assert (We : wf_body (length s + arity b) e).
    { apply wf_body_In. intros o loc I. destruct (shape_In _ _ _ _ _ _ F I) as (o0 & J & K). rewrite wf_body_In in Wd. destruct (Wd _ _ J) as (W1 & W2 & W3 & W4).
      split; [exact (inverse_wf _ _ _ _ K W1)|]. rewrite (inverse_arity _ _ _ _ K). auto. }
    assert (FF : Forall2 (fun i j => snd j = snd i /\ arity (fst j) = arity (fst i) /\ undoes n (fst i) (fst j) /\ undoes n (fst j) (fst i)) body e).
    { clear - F IHb Wd. induction F as [|[o loc] [o' loc'] body e [E1 E2] F IH]; [constructor|]. inversion IHb; subst. inversion Wd; subst. constructor; [|apply IH; assumption].
      cbn [fst snd] in *. split; [exact E1|]. split; [exact (inverse_arity _ _ _ _ E2)|]. auto. }
    split; intros qs N Len B psi x Lx; rewrite !effect_pt; cbn in Len.
    + apply (body_undoes n); auto; try (rewrite Len; assumption). eapply Forall2_impl'; [|exact FF]. cbn. intros; tauto.
    + rewrite Ar in Len. rewrite <- (rev_involutive body) at 1. apply (body_undoes n); auto.
      * rewrite Len. apply wf_body_In. intros o loc I. apply in_rev in I. rewrite wf_body_In in We. auto.
      * rewrite Len. apply wf_body_In. intros o loc I. apply in_rev in I. rewrite wf_body_In in Wd. auto.
      * apply Forall2_rev'. apply Forall2_flip' in FF. eapply Forall2_impl'; [|exact FF]. cbn. intros a b0 (X1 & X2 & X3 & X4). auto.
  - rewrite inverse_comp in H. destruct ncl; [|discriminate]. destruct (inverse_onto aopp aadd body []) as [d|] eqn:D; [|discriminate]. injection H as <-.
    inversion W as [| | | |n0 nq0 ncl0 bd ps0 Wd| | | |]; subst. apply inverse_onto_shape in D as (e & -> & F). rewrite app_nil_r.
    assert (We : wf_body nq e).
    { apply wf_body_In. intros o loc I. destruct (shape_In _ _ _ _ _ _ F I) as (o0 & J & K). rewrite wf_body_In in Wd. destruct (Wd _ _ J) as (W1 & W2 & W3 & W4).
      split; [exact (inverse_wf _ _ _ _ K W1)|]. rewrite (inverse_arity _ _ _ _ K). auto. }
    assert (FF : Forall2 (fun i j => snd j = snd i /\ arity (fst j) = arity (fst i) /\ undoes n (fst i) (fst j) /\ undoes n (fst j) (fst i)) body e).
    { clear - F IHb Wd. induction F as [|[o loc] [o' loc'] body e [E1 E2] F IH]; [constructor|]. inversion IHb; subst. inversion Wd; subst. constructor; [|apply IH; assumption].
      cbn [fst snd] in *. split; [exact E1|]. split; [exact (inverse_arity _ _ _ _ E2)|]. auto. }
    split; intros qs N Len B psi x Lx; rewrite !effect_comp, run_body_filter; cbn in Len.
    + apply (body_undoes n); auto; try (rewrite Len; assumption). eapply Forall2_impl'; [|exact FF]. cbn. intros; tauto.
    + rewrite <- (rev_involutive body) at 1. apply (body_undoes n); auto.
      * rewrite Len. apply wf_body_In. intros o loc I. apply in_rev in I. rewrite wf_body_In in We. auto.
      * rewrite Len. apply wf_body_In. intros o loc I. apply in_rev in I. rewrite wf_body_In in Wd. auto.
      * apply Forall2_rev'. apply Forall2_flip' in FF. eapply Forall2_impl'; [|exact FF]. cbn. intros a b0 (X1 & X2 & X3 & X4). auto.
  - injection H as <-. split; intros qs N Len B psi x Lx; reflexivity.
  - injection H as <-. split; intros qs N Len B psi x Lx; reflexivity.
  - injection H as <-. split; intros qs N Len B psi x Lx; reflexivity.
  - discriminate.
Qed.

Lemma run_body_seq : forall n c, wf_body n c -> forall psi, run_body (seq 0 n) c psi = run_circuit aadd rO rI radd rmul ropp expi chalf shalf im c psi.
Proof.
  intros n c W. induction c as [|[o loc] c IH]; intros psi; [reflexivity|]. inversion W; subst. cbn [run_body]. unfold run_circuit. cbn [fold_left].
  replace (globals (seq 0 n) loc) with loc; [apply IH; assumption|]. unfold globals. rewrite <- (map_id loc) at 1. apply map_ext_in. intros i I. rewrite seq_nth by auto. reflexivity.
Qed.
Lemma wf_rev : forall n (c : list (op A * list nat)), wf_body n c -> wf_body n (rev c).
Proof. intros n c W. apply wf_body_In. intros o loc I. apply in_rev in I. rewrite wf_body_In in W. auto. Qed.
Theorem circuit_undoes : forall n c d, wf_circuit n c -> inverse_circuit aopp aadd c = Some d -> wf_circuit n d /\
  forall psi x, length x = n ->
    run_circuit aadd rO rI radd rmul ropp expi chalf shalf im d (run_circuit aadd rO rI radd rmul ropp expi chalf shalf im c psi) x = psi x /\
    run_circuit aadd rO rI radd rmul ropp expi chalf shalf im c (run_circuit aadd rO rI radd rmul ropp expi chalf shalf im d psi) x = psi x.
Proof.
  intros n c d W H. apply circuit_shape in H as F. rewrite <- (rev_involutive d) in *. set (e := rev d) in *. clearbody e. rewrite rev_involutive in F. clear H.
  assert (We : wf_body n e).
  { apply wf_body_In. intros o loc I. destruct (shape_In _ _ _ _ _ _ F I) as (o0 & J & K). unfold wf_circuit in W. rewrite wf_body_In in W. destruct (W _ _ J) as (W1 & W2 & W3 & W4).
    split; [exact (inverse_wf _ _ _ _ K W1)|]. rewrite (inverse_arity _ _ _ _ K). auto. }
  assert (FF : Forall2 (fun i j => snd j = snd i /\ arity (fst j) = arity (fst i) /\ undoes n (fst i) (fst j) /\ undoes n (fst j) (fst i)) c e).
  { clear We. unfold wf_circuit in W. induction F as [|[o loc] [o' loc'] body e [E1 E2] F IH]; [constructor|]. inversion W; subst. constructor; [|apply IH; assumption].
    cbn [fst snd] in *. split; [exact E1|]. split; [exact (inverse_arity _ _ _ _ E2)|]. apply inverse_undoes; assumption. }
  split; [apply wf_rev, We|]. intros psi x Lx. rewrite <- !(run_body_seq n) by (try apply wf_rev; assumption). split.
  - apply (body_undoes n); auto; try (rewrite seq_length; assumption); [apply seq_NoDup|intros q I; apply in_seq in I; lia|].
    eapply Forall2_impl'; [|exact FF]. cbn. intros; tauto.
  - rewrite <- (rev_involutive c) at 1. apply (body_undoes n); auto; try (rewrite seq_length; apply wf_rev; assumption); [apply seq_NoDup|intros q I; apply in_seq in I; lia|].
    apply Forall2_rev'. apply Forall2_flip' in FF. eapply Forall2_impl'; [|exact FF]. cbn. intros a b0 (X1 & X2 & X3 & X4). auto.
Qed.
End effect.

(** * inverting twice *)
Section twice.
Context {A : Type} (aopp : A -> A) (aadd : A -> A -> A) (OI : forall a, aopp (aopp a) = a).
Notation inverse := (inverse aopp aadd).
Lemma name_eqb_eq : forall a b, name_eqb a b = true <-> a = b.
Proof. intros a b. unfold name_eqb. destruct (list_eq_dec ascii_dec a b); split; congruence. Qed.
Lemma name_eqb_neq : forall a b, a <> b -> name_eqb a b = false.
Proof. intros a b H. destruct (name_eqb a b) eqn:E; [|reflexivity]. apply name_eqb_eq in E. contradiction. Qed.
Lemma name_in_In : forall a l, name_in a l = true <-> In a l.
Proof. intros a l. unfold name_in. rewrite existsb_exists. split; [intros (b & I & E); apply name_eqb_eq in E as ->; exact I|intros I; exists a; split; [exact I|apply name_eqb_eq; reflexivity]]. Qed.
Lemma name_in_not : forall a l, ~ In a l -> name_in a l = false.
Proof. intros a l H. destruct (name_in a l) eqn:E; [|reflexivity]. apply name_in_In in E. contradiction. Qed.
Lemma last3_app : forall m, last3 (m ++ dg) = dg.
Proof. intros m. unfold last3. rewrite app_length. cbn [length dg]. replace (length m + 3 - 3) with (length m) by lia. rewrite skipn_app, skipn_all, Nat.sub_diag. reflexivity. Qed.
Lemma drop3_app : forall m, drop3 (m ++ dg) = m.
Proof. intros m. unfold drop3. rewrite app_length. cbn [length dg]. replace (length m + 3 - 3) with (length m) by lia. rewrite firstn_app, firstn_all, Nat.sub_diag. cbn. apply app_nil_r. Qed.
Lemma last3_dg : forall n, last3 n = dg -> n = drop3 n ++ dg.
Proof. intros n H. rewrite <- H. unfold drop3, last3. symmetry. apply firstn_skipn. Qed.
Lemma ends_last3 : forall n, ends_dg n <-> last3 n = dg.
Proof. intros n. split; [intros (m & ->); apply last3_app|]. intros H. exists (drop3 n). apply last3_dg, H. Qed.
Lemma toggle_twice : forall n, single_dg n -> toggle (toggle n) = n.
Proof.
  intros n [N|(m & -> & N)]; unfold toggle.
  - rewrite (name_eqb_neq (last3 n)) by (rewrite <- ends_last3; exact N). rewrite last3_app. replace (name_eqb dg dg) with true by reflexivity. apply drop3_app.
  - rewrite last3_app. replace (name_eqb dg dg) with true by reflexivity. rewrite drop3_app. rewrite (name_eqb_neq (last3 m)) by (rewrite <- ends_last3; exact N). reflexivity.
Qed.
Lemma app_dg_not : forall m, ~ In (m ++ dg) (n_u3 :: fixed_names).
Proof.
  intros m I. assert (E : last3 (m ++ dg) = dg) by apply last3_app. cbn [In fixed_names] in I.
  repeat (destruct I as [I|I]; [rewrite <- I in E; cbv in E; discriminate|]). destruct I.
Qed.
Lemma u3_name_twice : forall n, u3_name_ok n -> u3_inverse_name (u3_inverse_name n) = n.
Proof.
  intros n H. unfold u3_inverse_name at 2. destruct (name_eqb n n_u3) eqn:E; [apply name_eqb_eq in E as ->; reflexivity|].
  destruct (name_in n fixed_names) eqn:F; [unfold u3_inverse_name; rewrite E, F; reflexivity|].
  destruct H as [N|(m & -> & N & M)].
  - rewrite (name_eqb_neq (last3 n)) by (rewrite <- ends_last3; exact N). unfold u3_inverse_name.
    pose proof (app_dg_not n) as X. rewrite (name_eqb_neq _ n_u3) by (intros Y; apply X; rewrite Y; left; reflexivity).
    rewrite name_in_not by (intros Y; apply X; right; exact Y). rewrite last3_app. replace (name_eqb dg dg) with true by reflexivity. apply drop3_app.
  - rewrite last3_app. replace (name_eqb dg dg) with true by reflexivity. rewrite drop3_app. unfold u3_inverse_name.
    rewrite (name_eqb_neq _ n_u3) by (intros Y; apply M; rewrite Y; left; reflexivity).
    rewrite name_in_not by (intros Y; apply M; right; exact Y). rewrite (name_eqb_neq (last3 m)) by (rewrite <- ends_last3; exact N). reflexivity.
Qed.
Lemma onto_of_pairs : forall l m, Forall2 (inv_pair aopp aadd) l m -> forall acc, inverse_onto aopp aadd l acc = Some (rev m ++ acc).
Proof.
  intros l m F; induction F as [|[o q] [o' q'] l m [E1 E2] F IH]; intros acc; [reflexivity|]. cbn [fst snd] in *. subst q'. cbn [inverse_onto]. rewrite E2, IH. cbn [rev]. rewrite <- app_assoc. reflexivity.
Qed.
Lemma pairs_twice : forall c e, Forall2 (inv_pair aopp aadd) c e -> (forall o q o', In (o, q) c -> inverse o = Some o' -> inverse o' = Some o) -> inverse_onto aopp aadd (rev e) [] = Some c.
Proof.
  intros c e F H. rewrite (onto_of_pairs _ (rev c)); [rewrite rev_involutive, app_nil_r; reflexivity|]. apply Forall2_rev'.
  induction F as [|[o q] [o' q'] c e [E1 E2] F IH]; constructor; [|apply IH; intros; eapply H; [right|]; eassumption]. cbn [fst snd] in *. split; [symmetry; exact E1|]. cbn. eapply H; [left; reflexivity|exact E2].
Qed.
Lemma inverse_alloc : forall o o', inverse o = Some o' -> is_alloc o' = is_alloc o.
Proof.
  intros o o' H. destruct o; try (injection H as <-; reflexivity); try discriminate.
  - cbn [InvModel.inverse] in H. destruct (inverse o); [injection H as <-; reflexivity|discriminate].
  - rewrite inverse_pt in H. destruct (inverse o), (inverse_onto aopp aadd body []); try discriminate. injection H as <-; reflexivity.
  - rewrite inverse_comp in H. destruct ncl; [|discriminate]. destruct (inverse_onto aopp aadd body []); [injection H as <-; reflexivity|discriminate].
Qed.
Lemma filter_id : forall B (f : B -> bool) l, (forall a, In a l -> f a = true) -> filter f l = l.
Proof. intros B f l H; induction l as [|a l IH]; [reflexivity|]. cbn. rewrite H by (left; reflexivity). rewrite IH by (intros; apply H; right; assumption). reflexivity. Qed.
Lemma inverse_twice : forall o o', clean aadd o -> inverse o = Some o' -> inverse o' = Some o.
Proof.
  induction o as [nm t p l g ps|p|s b IH|s b body IH IHb|nm nq ncl body ps IHb| | |k|nm a b] using op_ind'; intros o' C H.
  - inversion C; subst. cbn [InvModel.inverse] in H. injection H as <-. cbn [InvModel.inverse]. rewrite u3_name_twice by assumption. rewrite !OI. do 2 f_equal.
    destruct (name_eqb nm n_u3) eqn:E.
    + apply name_eqb_eq in E as ->. reflexivity.
    + destruct (name_eqb (u3_inverse_name nm) n_u3) eqn:E2; [|reflexivity]. exfalso. apply name_eqb_eq in E2. pose proof (u3_name_twice nm ltac:(assumption)) as X. rewrite E2 in X. cbv in X. subst nm. discriminate.
  - injection H as <-. reflexivity.
  - cbn [InvModel.inverse] in H. destruct (inverse b) as [b'|] eqn:E; [|discriminate]. injection H as <-. inversion C; subst. cbn [InvModel.inverse]. rewrite (IH b'); auto.
  - rewrite inverse_pt in H. destruct (inverse b) as [b'|] eqn:E; [|discriminate]. destruct (inverse_onto aopp aadd body []) as [d|] eqn:D; [|discriminate]. injection H as <-.
    inversion C as [| | |s0 b0 bd Cb Cd| | | | |]; subst. apply inverse_onto_shape in D as (e & -> & F). rewrite app_nil_r, inverse_pt. rewrite (IH b') by auto.
    rewrite (pairs_twice body e F); [reflexivity|]. intros o q o' I K. rewrite Forall_forall in IHb. apply (IHb _ I); [|exact K]. exact (Cd _ _ I).
  - rewrite inverse_comp in H. destruct ncl; [|discriminate]. destruct (inverse_onto aopp aadd body []) as [d|] eqn:D; [|discriminate]. injection H as <-.
    inversion C as [| | | |n0 nq0 ncl0 bd ps0 Cn Cd| | | |]; subst. apply inverse_onto_shape in D as (e & -> & F). rewrite app_nil_r, inverse_comp.
    assert (NA : forall i, In i (rev e) -> negb (is_alloc (fst i)) = true).
    { intros [o loc] I. apply in_rev in I. destruct (shape_In _ _ _ _ _ _ F I) as (o0 & J & K). cbn [fst]. rewrite (inverse_alloc _ _ K). destruct (Cd _ _ J) as [_ ->]. reflexivity. }
    rewrite (filter_id _ _ (rev e) NA).
    rewrite (pairs_twice body e F) by (intros o q o' I K; rewrite Forall_forall in IHb; apply (IHb _ I); [|exact K]; exact (proj1 (Cd _ _ I))).
    rewrite toggle_twice by exact Cn. rewrite filter_id; [reflexivity|]. intros [o loc] I. cbn [fst]. destruct (Cd _ _ I) as [_ ->]. reflexivity.
  - injection H as <-. reflexivity.
  - injection H as <-. reflexivity.
  - injection H as <-. reflexivity.
  - discriminate.
Qed.
Lemma circuit_twice : forall c d, (forall o q, In (o, q) c -> clean aadd o) -> inverse_circuit aopp aadd c = Some d -> inverse_circuit aopp aadd d = Some c.
Proof.
  intros c d C H. apply inverse_onto_shape in H as (e & -> & F). rewrite app_nil_r. apply pairs_twice; [exact F|]. intros o q o' I K. apply inverse_twice; [|exact K]. eapply C; exact I.
Qed.
End twice.
