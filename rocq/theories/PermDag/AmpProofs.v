(** Proofs: exchangeable instructions commute, so a valid reordering has the same effect. *)
From Verif.Lib Require Import Trace.
From Verif.PermDag Require Import PermModel PermSpec PermProofs AmpSpec.
From Coq Require Import List Bool Ring Permutation.
Import ListNotations.

Section amp_proofs.
Context {R : Type} (rO rI : R) (radd rmul rsub : R -> R -> R) (ropp : R -> R) (RT : ring_theory rO rI radd rmul rsub ropp eq).
Add Ring Rr : RT.
Notation apply := (apply rO radd rmul).
Notation implements := (implements rO).
Notation sum := (fold_right radd rO).
Notation run_at := (run_at rO radd rmul).
Notation "x + y" := (radd x y).
Notation "x * y" := (rmul x y).

Lemma sum_add {A} (f g : A -> R) l : sum (map (fun t => f t + g t) l) = sum (map f l) + sum (map g l).
Proof. induction l as [|t l IH]; cbn; [ring|]. rewrite IH. ring. Qed.
Lemma sum_zero {A} (l : list A) : sum (map (fun _ => rO) l) = rO.
Proof. induction l as [|t l IH]; cbn; [reflexivity|]. rewrite IH. ring. Qed.
Lemma sum_swap {A B} (f : A -> B -> R) l m : sum (map (fun a => sum (map (f a) m)) l) = sum (map (fun b => sum (map (fun a => f a b) l)) m).
Proof. induction l as [|a l IH]; cbn; [now rewrite sum_zero|]. rewrite IH. now rewrite <- sum_add. Qed.
Lemma sum_mul {A} (f : A -> R) c l : c * sum (map f l) = sum (map (fun t => c * f t) l).
Proof. induction l as [|t l IH]; cbn; [ring|]. rewrite <- IH. ring. Qed.
Lemma sum_ext {A} (f g : A -> R) l : (forall t, In t l -> f t = g t) -> sum (map f l) = sum (map g l).
Proof. intros H. induction l as [|t l IH]; cbn; [reflexivity|]. rewrite H by now left. rewrite IH; [reflexivity|]. intros. apply H. now right. Qed.

Lemma apply_proper a A psi : implements a A -> proper psi -> proper (apply A psi).
Proof.
  intros I P x y E. unfold apply. apply sum_ext. intros [d f] H. destruct (I d f H) as (_ & F & _). cbn [fst snd]. rewrite (F x y) by (intros; apply E).
  f_equal. apply P. intros s. unfold flip. now rewrite E.
Qed.

(** a term (d, f) of one instruction and a term (e, g) of another *)
Lemma term_comm a b A B d f e g x : implements a A -> implements b B -> ~ conflict a b -> In (d, f) A -> In (e, g) B ->
  f x * g (flip x d) = g x * f (flip x e).
Proof.
  intros IA IB NC HA HB. destruct (IA d f HA) as (TA & FA & ZA). destruct (IB e g HB) as (TB & FB & ZB).
  assert (SH : forall q, In q (qs a) -> In q (qs b) -> etype a q = etype b q /\ etype a q <> PN).
  { intros q Qa Qb. assert (D : {etype a q = etype b q /\ etype a q <> PN} + {~ (etype a q = etype b q /\ etype a q <> PN)}).
    { destruct (etype a q), (etype b q); (left; split; congruence) || (right; intros [? ?]; congruence). }
    destruct D as [D|D]; [exact D|]. exfalso. apply NC. right. exists q. now repeat split. }
  assert (SB : forall c, In c (cs a) -> In c (cs b) -> False) by (intros c Ca Cb; apply NC; left; exists c; now split).
  (* a shared Z-permeable qubit that a term flips makes the coefficient vanish *)
  pose (badp := fun d : config => fun q => match etype a q with PZ => d (Ket q) || d (Bra q) | _ => false end).
  assert (DEC : forall dd, {q | In q (qs a) /\ In q (qs b) /\ badp dd q = true} + {forall q, In q (qs a) -> In q (qs b) -> badp dd q = false}).
  { intros dd. generalize (qs a) as l. induction l as [|q l IH]; [right; intros q []|].
    destruct (in_dec PeanoNat.Nat.eq_dec q (qs b)) as [Iq|Iq].
    - destruct (badp dd q) eqn:Bq; [left; exists q; repeat split; [now left|exact Iq|exact Bq]|]. destruct IH as [(q' & H1 & H2 & H3)|IH]; [left; exists q'; repeat split; [now right|exact H2|exact H3]|].
      right. intros q' [<-|H] H'; [exact Bq|now apply IH].
    - destruct IH as [(q' & H1 & H2 & H3)|IH]; [left; exists q'; repeat split; [now right|exact H2|exact H3]|]. right. intros q' [<-|H] H'; [contradiction|now apply IH]. }
  destruct (DEC d) as [(q & Qa & Qb & Bq)|Nd].
  { unfold badp in Bq. destruct (etype a q) eqn:E; try discriminate. apply orb_true_iff in Bq. rewrite !(ZA q Qa E Bq). ring. }
  destruct (DEC e) as [(q & Qa & Qb & Bq)|Ne].
  { unfold badp in Bq. destruct (etype a q) eqn:E; try discriminate. apply orb_true_iff in Bq. destruct (SH q Qa Qb) as [E' _]. rewrite E in E'. rewrite !(ZB q Qb (eq_sym E') Bq). ring. }
  rewrite (FB (flip x d) x), (FA (flip x e) x); [ring| |].
  - intros s Hs. unfold flip. destruct (e s) eqn:Es; [exfalso|apply xorb_false_r]. pose proof (TB s Es) as Ts. destruct s as [q|q|c]; cbn in Hs, Ts.
    + destruct Hs as [Qa NX]. destruct (SH q Qa Ts) as [E N]. specialize (Ne q Qa Ts). unfold badp in Ne. destruct (etype a q); [|congruence|congruence]. now rewrite Es in Ne.
    + destruct Hs as [Qa NX]. destruct (SH q Qa Ts) as [E N]. specialize (Ne q Qa Ts). unfold badp in Ne. destruct (etype a q); [|congruence|congruence]. now rewrite Es, orb_true_r in Ne.
    + exact (SB c Hs Ts).
  - intros s Hs. unfold flip. destruct (d s) eqn:Ds; [exfalso|apply xorb_false_r]. pose proof (TA s Ds) as Ts. destruct s as [q|q|c]; cbn in Hs, Ts.
    + destruct Hs as [Qb NX]. destruct (SH q Ts Qb) as [E N]. specialize (Nd q Ts Qb). unfold badp in Nd. destruct (etype a q); [|congruence|congruence]. now rewrite Ds in Nd.
    + destruct Hs as [Qb NX]. destruct (SH q Ts Qb) as [E N]. specialize (Nd q Ts Qb). unfold badp in Nd. destruct (etype a q); [|congruence|congruence]. now rewrite Ds, orb_true_r in Nd.
    + exact (SB c Ts Hs).
Qed.
Lemma apply_comm a b A B psi x : implements a A -> implements b B -> ~ conflict a b -> proper psi ->
  apply A (apply B psi) x = apply B (apply A psi) x.
Proof.
  intros IA IB NC P. unfold apply.
  transitivity (sum (map (fun t => sum (map (fun u => snd t x * snd u (flip x (fst t)) * psi (flip (flip x (fst t)) (fst u))) B)) A)).
  { apply sum_ext. intros t _. rewrite sum_mul. apply sum_ext. intros u _. ring. }
  rewrite sum_swap. apply sum_ext. intros [e g] He. rewrite sum_mul. apply sum_ext. intros [d f] Hd. cbn [fst snd].
  rewrite (term_comm a b A B d f e g x IA IB NC Hd He). rewrite (P (flip (flip x d) e) (flip (flip x e) d)); [ring|].
  intros s. unfold flip. now destruct (x s), (d s), (e s).
Qed.

(** proper states as a type, to use the general reordering theorem *)
Lemma valid_run circ (ops : nat -> operator) out psi x :
  (forall i, i < length circ -> implements (at_ circ i) (ops i)) -> proper psi -> valid_reordering circ out ->
  run_at ops out psi x = run_at ops (seq 0 (length circ)) psi x.
Proof.
  intros IM P [PM O].
  pose (ok := fun i => i < length circ).
  pose (St := {p : config -> R | proper p}).
  pose (actp := fun (i : nat) (s : St) => match Compare_dec.lt_dec i (length circ) with
     | left H => exist proper (apply (ops i) (proj1_sig s)) (apply_proper _ _ _ (IM i H) (proj2_sig s))
     | right _ => s end).
  assert (ACT : forall i s, ok i -> proj1_sig (actp i s) = apply (ops i) (proj1_sig s)).
  { intros i s H. unfold actp. now destruct (Compare_dec.lt_dec i (length circ)). }
  assert (NOOP : forall i s, ~ ok i -> proj1_sig (actp i s) = proj1_sig s).
  { intros i s H. unfold actp. now destruct (Compare_dec.lt_dec i (length circ)). }
  assert (RUN : forall l s, (forall i, In i l -> ok i) -> proj1_sig (run nat St actp l s) = run_at ops l (proj1_sig s)).
  { induction l as [|i l IH]; intros s H; [reflexivity|]. cbn. unfold run in IH. rewrite IH by (intros; apply H; now right). unfold AmpSpec.run_at. now rewrite ACT by (apply H; now left). }
  assert (INo : forall i, In i out -> ok i) by (intros i H; apply (Permutation_in _ (Permutation_sym PM)) in H; apply in_seq in H; unfold ok; lia).
  assert (INs : forall i, In i (seq 0 (length circ)) -> ok i) by (intros i H; apply in_seq in H; unfold ok; lia).
  pose (conf := fun i j => ok i /\ ok j /\ (conflict (at_ circ i) (at_ circ j) \/ conflict (at_ circ j) (at_ circ i))).
  pose proof (reorder nat St (fun s t => forall x, proj1_sig s x = proj1_sig t x) actp conf ok) as RE.
  specialize (RE (fun s y => eq_refl) (fun a b d H1 H2 y => eq_trans (H1 y) (H2 y)) (fun a b H1 y => eq_sym (H1 y))).
  assert (EXT : forall i s s', (forall y, proj1_sig s y = proj1_sig s' y) -> forall y, proj1_sig (actp i s) y = proj1_sig (actp i s') y).
  { intros i s s' H y. destruct (Compare_dec.lt_dec i (length circ)) as [L|L].
    - rewrite !ACT by exact L. unfold apply. apply sum_ext. intros t _. now rewrite H.
    - rewrite !NOOP by exact L. apply H. }
  specialize (RE EXT).
  assert (COM : forall i j s, ok i -> ok j -> ~ conf i j -> forall y, proj1_sig (actp i (actp j s)) y = proj1_sig (actp j (actp i s)) y).
  { intros i j s Hi Hj NC y. 
    assert (E : forall i j, ok i -> ok j -> proj1_sig (actp i (actp j s)) = apply (ops i) (apply (ops j) (proj1_sig s))).
    { intros i' j' H1 H2. etransitivity; [apply ACT; exact H1|]. f_equal. apply ACT. exact H2. }
    rewrite (E i j Hi Hj), (E j i Hj Hi). apply (apply_comm (at_ circ i) (at_ circ j)); [now apply IM|now apply IM| |exact (proj2_sig s)].
    intros C. apply NC. split; [exact Hi|]. split; [exact Hj|now left]. }
  specialize (RE COM (seq 0 (length circ)) out (exist _ psi P) (seq_NoDup _ _) PM INs).
  pose proof (RUN out (exist _ psi P) INo) as R1. pose proof (RUN (seq 0 (length circ)) (exist _ psi P) INs) as R2. cbn [proj1_sig] in R1, R2.
  rewrite <- R1, <- R2. symmetry. apply RE.
  - intros i j (Hi & Hj & C) B. pose proof (before_seq _ _ _ B) as L.
    apply O; [exact L|exact Hj|]. destruct C as [C|C]; [exact C|]. destruct C as [(c & A1 & A2)|(q & A1 & A2 & A3)]; [left; exists c; now split|].
    right. exists q. split; [exact A2|]. split; [exact A1|]. intros [K1 K2]. apply A3. split; congruence.
  - intros i j (Hi & Hj & C). split; [exact Hj|]. split; [exact Hi|tauto].
Qed.
End amp_proofs.
