(** The meaning of programs: locality and inverses. *)
From Coq Require Import List ZArith Bool Lia Arith QArith Qcanon Ring Ring_theory.
Import ListNotations.
From Verif.Inverse Require Import InvModel InvSpec InvProofs.
From Verif.CtrlOps Require Import CtrlModel CtrlSpec CtrlProofs.
From Verif.Fourier Require Import FourierModel RegProofs.
From Verif.Qpe Require Import QpeProofs.
From Verif.Envs Require Import EnvModel EnvSpec EnvIns.
Local Open Scope nat_scope.

Section ind.
Context (P : item -> Prop).
Context (HGate : forall o qs, P (Gate o qs)) (HFlip : P Flip)
  (HControl : forall cs st inv body, Forall P body -> P (Control cs st inv body))
  (HCond : forall args f body, Forall P body -> P (Cond args f body))
  (HInvert : forall body, Forall P body -> P (Invert body)) (HPlain : forall body, Forall P body -> P (Plain body))
  (HConj : forall u body, Forall P body -> P (Conj u body)).
Fixpoint item_ind' (it : item) : P it :=
  let all := fix all (l : list item) : Forall P l := match l with [] => Forall_nil P | j :: l => Forall_cons j (item_ind' j) (all l) end in
  match it with
  | Gate o qs => HGate o qs
  | Flip => HFlip
  | Control cs st inv body => HControl cs st inv body (all body)
  | Cond args f body => HCond args f body (all body)
  | Invert body => HInvert body (all body)
  | Plain body => HPlain body (all body)
  | Conj u body => HConj u body (all body)
  end.
End ind.

(** [fine] for the content of an environment *)
Definition fine_all (n : nat) (forb : list nat) (around : option (bool * bool)) (l : list item) : Prop := fine n forb around (Plain l).
Lemma fine_all_in n forb around l : fine_all n forb around l <-> forall j, In j l -> fine n forb around j.
Proof.
  unfold fine_all. cbn [fine]. induction l as [|j l IH]; [split; [intros _ j []|auto]|]. split.
  - intros [A B] k [<-|I]; [exact A|]. apply IH; auto.
  - intros H. split; [apply H; left; reflexivity|]. apply IH. intros k I. apply H. right; exact I.
Qed.

Section ring.
Context {R : Type} (rO rI : R) (radd rmul rsub : R -> R -> R) (ropp : R -> R) (RT : ring_theory rO rI radd rmul rsub ropp eq).
Context (expi chalf shalf : Qc -> R) (im : R) (EU : euler rO rI radd rmul ropp expi chalf shalf im).
Add Ring rr12 : RT.
Notation amp := (list bool -> R).
Notation effect := (effect Qcplus rO rI radd rmul ropp expi chalf shalf im).
Notation gate := (gate rO rI radd rmul ropp expi chalf shalf im).
Notation meaning := (meaning rO rI radd rmul ropp expi chalf shalf im).
Notation moved := (moved rmul).
Context (N n : nat) (NN : n <= N).

Definition through (back : bool) (l : list item) (psi : amp) : amp := meaning back (Plain l) psi.
Lemma through_f j l psi : through false (j :: l) psi = through false l (meaning false j psi). Proof. reflexivity. Qed.
Lemma through_b j l psi : through true (j :: l) psi = meaning true j (through true l psi). Proof. reflexivity. Qed.
Lemma through_nil b psi : through b [] psi = psi. Proof. destruct b; reflexivity. Qed.
Definition gates_f (u : list (qop * list nat)) (psi : amp) : amp := fold_left (fun psi '(o, qs) => gate false o qs psi) u psi.
Definition gates_b (u : list (qop * list nat)) (psi : amp) : amp := fold_right (fun '(o, qs) => gate true o qs) psi u.

(** ** a property of operators that all programs have *)
Section closed.
(** [P forb F]: F, made of operations on qubits below n outside forb, has the property *)
Context (P : list nat -> (amp -> amp) -> Prop).
Context (Pid : forall forb, P forb (fun psi => psi)) (Pcomp : forall forb F G, P forb F -> P forb G -> P forb (fun psi => G (F psi))).
Context (Pgate : forall forb b o qs, gate_fine n forb (o, qs) -> P forb (gate b o qs)).
Context (Pguard : forall forb cs (f : list bool -> bool) F, (forall q, In q cs -> q < n) -> P (cs ++ forb) F -> P forb (fun psi x => if f (map (getbit x) cs) then F psi x else psi x)).
Lemma closed_list forb b l : Forall (fun j => P forb (meaning b j)) l -> P forb (through b l).
Proof.
  intros F. induction F as [|j l Pj F IH]; [exact (if b as b return P forb (through b []) then Pid forb else Pid forb)|]. destruct b.
  - apply (Pcomp forb _ _ IH Pj).
  - apply (Pcomp forb _ _ Pj IH).
Qed.
Lemma closed_gates_f forb u : (forall g, In g u -> gate_fine n forb g) -> P forb (gates_f u).
Proof.
  induction u as [|[o qs] u IH]; intros H; [apply Pid|]. apply (Pcomp forb (gate false o qs) (gates_f u)); [apply Pgate, H; left; reflexivity|]. apply IH. intros g I. apply H. right; exact I.
Qed.
Lemma closed_gates_b forb u : (forall g, In g u -> gate_fine n forb g) -> P forb (gates_b u).
Proof.
  induction u as [|[o qs] u IH]; intros H; [apply Pid|]. apply (Pcomp forb (gates_b u) (gate true o qs)); [|apply Pgate, H; left; reflexivity]. apply IH. intros g I. apply H. right; exact I.
Qed.
Lemma closed it : forall forb around b, fine n forb around it -> P forb (meaning b it).
Proof.
  induction it as [o qs| |cs st inv body IH|args f body IH|body IH|body IH|u body IH] using item_ind'; intros forb around b W.
  - apply Pgate, W.
  - destruct W.
  - destruct W as (_ & HC & W).
    assert (Q : P (cs ++ forb) (through b body)).
    { apply closed_list. apply Forall_forall. intros j I. rewrite Forall_forall in IH. destruct around as [[a ok]|].
      - destruct W as [_ W]. exact (IH j I _ _ b (proj1 (fine_all_in n _ _ body) W j I)).
      - exact (IH j I _ _ b (proj1 (fine_all_in n _ _ body) W j I)). }
    exact (Pguard forb cs (fun c => xorb inv (bits_eqb c st)) _ HC Q).
  - destruct W as (HC & _ & W).
    assert (Q : P (args ++ forb) (through b body)).
    { apply closed_list. apply Forall_forall. intros j I. rewrite Forall_forall in IH. exact (IH j I _ _ b (proj1 (fine_all_in n _ _ body) W j I)). }
    exact (Pguard forb args f _ HC Q).
  - apply (closed_list forb (negb b) body). apply Forall_forall. intros j I. rewrite Forall_forall in IH. exact (IH j I _ around _ (proj1 (fine_all_in n _ around body) W j I)).
  - apply (closed_list forb b body). apply Forall_forall. intros j I. rewrite Forall_forall in IH. exact (IH j I _ around _ (proj1 (fine_all_in n _ around body) W j I)).
  - destruct W as [HU W].
    assert (Q : P forb (through b body)).
    { apply closed_list. apply Forall_forall. intros j I. destruct around as [[a ok]|].
      - destruct W as [_ W]. destruct (W j I) as (o & qs & -> & G). apply Pgate, G.
      - rewrite Forall_forall in IH. exact (IH j I _ None _ (proj1 (fine_all_in n _ None body) W j I)). }
    apply (Pcomp forb (fun psi => through b body (gates_f u psi)) (gates_b u)); [|apply closed_gates_b, HU].
    apply (Pcomp forb (gates_f u) (through b body)); [apply closed_gates_f, HU|exact Q].
Qed.
Lemma closed_all forb around b l : fine_all n forb around l -> P forb (through b l).
Proof. intros W. apply (closed (Plain l) forb around b W). Qed.
End closed.

Lemma gate_inverse b o qs forb : gate_fine n forb (o, qs) -> exists o', gate b o qs = effect o' qs /\ well_formed o' /\ arity o' = arity o.
Proof.
  intros (Wo & I & _). destruct b; [|exists o; split; [reflexivity|split; [exact Wo|reflexivity]]]. cbn [EnvSpec.gate].
  unfold EnvSpec.gate. destruct (inverse Qcopp Qcplus o) as [o'|] eqn:E; [|congruence]. exists o'. split; [reflexivity|].
  split; [apply (inverse_wf _ _ _ _ E Wo)|apply (inverse_arity _ _ _ _ E)].
Qed.
(** ** extensionality and locality *)
Definition p_ext (_ : list nat) (F : amp -> amp) : Prop := forall psi phi x, (forall y, length y = length x -> psi y = phi y) -> F psi x = F phi x.
Lemma gate_ext forb b o qs : gate_fine n forb (o, qs) -> p_ext forb (gate b o qs).
Proof.
  intros W psi phi x E. destruct (gate_inverse b o qs forb W) as (o' & -> & Wo & A). destruct W as (_ & _ & _ & L & _).
  apply (effect_local Qcplus rO rI radd rmul ropp expi chalf shalf im o' Wo); [congruence|]. intros y [Ly _]. apply E. congruence.
Qed.
Lemma mean_ext it forb around b : fine n forb around it -> p_ext forb (meaning b it).
Proof.
  apply (closed p_ext).
  - intros fb psi phi x E. apply E. reflexivity.
  - intros fb F G HF HG psi phi x E. apply HG. intros y Ly. apply HF. intros z Lz. apply E. congruence.
  - apply gate_ext.
  - intros fb cs f F _ HF psi phi x E. destruct (f _); [apply HF, E|apply E; reflexivity].
Qed.
Lemma through_ext l forb around b : fine_all n forb around l -> p_ext forb (through b l). Proof. intros W. apply (mean_ext (Plain l) forb around b W). Qed.
Definition p_moved (forb : list nat) (F : amp -> amp) : Prop := p_ext forb F /\ forall g h,
  (forall x q, q < n -> getbit (h x) q = getbit x q) -> (forall x q a, q < n -> h (setbit x q a) = setbit (h x) q a) ->
  (forall x q a, q < n -> ~ In q forb -> g (setbit x q a) = g x) -> forall psi x, F (moved g h psi) x = rmul (g x) (F psi (h x)).
Lemma mean_moved it forb around b : fine n forb around it -> p_moved forb (meaning b it).
Proof.
  apply (closed p_moved).
  - intros fb. split; [intros psi phi x E; apply E; reflexivity|]. reflexivity.
  - intros fb F G [EF HF] [EG HG]. split.
    + intros psi phi x E. apply EG. intros y Ly. apply EF. intros z Lz. apply E. congruence.
    + intros g h A B C psi x. rewrite (EG _ (moved g h (F psi))); [apply HG; assumption|]. intros y _. apply HF; assumption.
  - intros fb b' o qs W. split; [apply (gate_ext fb), W|]. intros g h A B C psi x. destruct (gate_inverse b' o qs fb W) as (o' & -> & Wo & Ar). destruct W as (_ & _ & _ & L & _ & Q).
    apply (effect_moved rO rI radd rmul rsub ropp RT expi chalf shalf im (fun q => q < n /\ ~ In q fb) g h); auto; try congruence.
    + intros; apply A; tauto.
    + intros; apply B; tauto.
    + intros; apply C; tauto.
  - intros fb cs f F HC [EF HF]. split.
    + intros psi phi x E. destruct (f _); [apply EF, E|apply E; reflexivity].
    + intros g h A B C psi x. replace (map (getbit (h x)) cs) with (map (getbit x) cs) by (apply map_get_other; intros q I; symmetry; apply A, HC, I).
      destruct (f _); [|reflexivity]. apply HF; [exact A|exact B|]. intros y q a Hq NI. apply C; [exact Hq|]. intros I. apply NI, in_or_app; auto.
Qed.
Lemma through_moved l forb around b : fine_all n forb around l -> p_moved forb (through b l). Proof. intros W. apply (mean_moved (Plain l) forb around b W). Qed.
(** the result at x depends only on states that agree with x on something that is not changed *)
Lemma moved_local forb F (G : list bool -> bool) : p_moved forb F -> (forall y q a, q < n -> ~ In q forb -> G (setbit y q a) = G y) ->
  forall psi phi x, (forall y, length y = length x -> G y = G x -> psi y = phi y) -> F psi x = F phi x.
Proof.
  intros [EX M] HG psi phi x E. set (g := fun y => if Bool.eqb (G y) (G x) then rI else rO).
  assert (GS : forall y q a, q < n -> ~ In q forb -> g (setbit y q a) = g y) by (intros y q a A B; unfold g; rewrite HG by assumption; reflexivity).
  assert (Gx : g x = rI) by (unfold g; rewrite eqb_reflx; reflexivity).
  pose proof (M g (fun y => y) (fun _ _ _ => eq_refl) (fun _ _ _ _ => eq_refl) GS psi x) as A. pose proof (M g (fun y => y) (fun _ _ _ => eq_refl) (fun _ _ _ _ => eq_refl) GS phi x) as B.
  rewrite Gx in A, B. transitivity (rmul rI (F psi x)); [ring|]. rewrite <- A. transitivity (rmul rI (F phi x)); [|ring]. rewrite <- B.
  apply EX. intros y Ly. unfold QpeProofs.moved, g. destruct (Bool.eqb (G y) (G x)) eqn:Q; [|ring]. rewrite E; [reflexivity|exact Ly|apply eqb_prop, Q].
Qed.
(** ** backwards undoes forwards *)
Lemma gate_undo forb o qs b : gate_fine n forb (o, qs) -> forall psi x, length x = N -> gate (negb b) o qs (gate b o qs psi) x = psi x.
Proof.
  intros (Wo & I & ND & L & _ & Q) psi x Lx. unfold EnvSpec.gate. destruct (inverse Qcopp Qcplus o) as [o'|] eqn:E; [|congruence].
  pose proof (inverse_undoes Qcopp Qcplus rO rI radd rmul rsub ropp RT expi chalf shalf im (angle_ok rO rI radd rmul rsub ropp RT expi chalf shalf im EU) N o o' E Wo) as [U V].
  assert (B : forall q, In q qs -> q < N) by (intros q J; specialize (Q q J); lia).
  destruct b; cbn [negb]; [apply V|apply U]; auto. rewrite (inverse_arity _ _ _ _ E). exact L.
Qed.
Lemma gates_undo forb u : (forall g, In g u -> gate_fine n forb g) -> forall psi x, length x = N -> gates_b u (gates_f u psi) x = psi x.
Proof.
  induction u as [|[o qs] u IH]; intros H psi x Lx; [reflexivity|]. cbn [gates_b gates_f fold_left fold_right].
  fold (gates_f u (gate false o qs psi)). fold (gates_b u (gates_f u (gate false o qs psi))). pose proof (H _ (or_introl eq_refl)) as W.
  rewrite (gate_ext forb true o qs W _ (gate false o qs psi)); [apply (gate_undo forb o qs false W); exact Lx|].
  intros y Ly. apply IH; [intros g I; apply H; right; exact I|congruence].
Qed.
Lemma gates_undo' forb u : (forall g, In g u -> gate_fine n forb g) -> forall psi x, length x = N -> gates_f u (gates_b u psi) x = psi x.
Proof.
  induction u as [|[o qs] u IH]; intros H psi x Lx; [reflexivity|]. cbn [gates_b gates_f fold_left fold_right].
  fold (gates_b u psi). pose proof (H _ (or_introl eq_refl)) as W. fold (gates_f u (gate false o qs (gate true o qs (gates_b u psi)))).
  assert (W' : forall g, In g u -> gate_fine n forb g) by (intros g I; apply H; right; exact I).
  rewrite (closed_gates_f p_ext) with (forb := forb) (phi := gates_b u psi); [apply IH; auto| | | |exact W'|].
  - intros fb p1 p2 y E. apply E. reflexivity.
  - intros fb F G HF HG p1 p2 y E. apply HG. intros z Lz. apply HF. intros z' Lz'. apply E. congruence.
  - apply gate_ext.
  - intros y Ly. apply (gate_undo forb o qs true W). congruence.
Qed.
Definition undone (it : item) : Prop := forall forb around b, fine n forb around it -> forall psi x, length x = N -> meaning (negb b) it (meaning b it psi) x = psi x.
Lemma list_undone l forb around b : Forall undone l -> fine_all n forb around l -> forall psi x, length x = N -> through (negb b) l (through b l psi) x = psi x.
Proof.
  intros F W. rewrite fine_all_in in W. induction F as [|j l U F IH]; intros psi x Lx; [rewrite !through_nil; reflexivity|].
  assert (Wj : fine n forb around j) by (apply W; left; reflexivity).
  assert (Wl : forall k, In k l -> fine n forb around k) by (intros k I; apply W; right; exact I). destruct b; cbn [negb].
  - rewrite through_f, through_b. rewrite (through_ext l forb around false) with (phi := through true l psi); [apply IH; auto|apply fine_all_in, Wl|].
    intros y Ly. apply (U forb around true Wj). congruence.
  - rewrite through_f, through_b. rewrite (mean_ext j forb around true Wj) with (phi := meaning false j psi); [apply (U forb around false Wj), Lx|].
    intros y Ly. apply IH; auto. congruence.
Qed.
Lemma guard_undone l forb around b cs (f : list bool -> bool) : Forall undone l -> (forall q, In q cs -> q < n) -> fine_all n (cs ++ forb) around l -> forall psi x, length x = N ->
  (if f (map (getbit x) cs) then through (negb b) l (fun y => if f (map (getbit y) cs) then through b l psi y else psi y) x
   else if f (map (getbit x) cs) then through b l psi x else psi x) = psi x.
Proof.
  intros F HC W psi x Lx. destruct (f (map (getbit x) cs)) eqn:E; [|reflexivity].
  rewrite (moved_local (cs ++ forb) _ (fun y => f (map (getbit y) cs)) (through_moved l (cs ++ forb) around (negb b) W)) with (phi := through b l psi).
  - apply (list_undone l _ around b F W). exact Lx.
  - intros y q a Hq NI. f_equal. apply map_get_other. intros p I. apply getbit_set_other. intros ->. apply NI, in_or_app; auto.
  - intros y Ly Gy. rewrite Gy, E. reflexivity.
Qed.
Lemma mean_undo it : undone it.
Proof.
  induction it as [o qs| |cs st inv body IH|args f body IH|body IH|body IH|u body IH] using item_ind'; intros forb around b W psi x Lx.
  - apply (gate_undo forb o qs b W). exact Lx.
  - destruct W.
  - destruct W as (_ & HC & W). destruct around as [[a ok]|]; [destruct W as [_ W]|]; exact (guard_undone body forb _ b cs (fun c => xorb inv (bits_eqb c st)) IH HC W psi x Lx).
  - destruct W as (HC & _ & W). exact (guard_undone body forb _ b args f IH HC W psi x Lx).
  - exact (list_undone body forb around (negb b) IH W psi x Lx).
  - exact (list_undone body forb around b IH W psi x Lx).
  - destruct W as [HU W].
    assert (ML : exists fb ar, fine_all n fb ar body).
    { destruct around as [[a ok]|]; [destruct W as [_ W]|exists forb, None; exact W]. exists forb, None. apply fine_all_in. intros j I. destruct (W j I) as (o & qs & -> & G). exact G. }
    destruct ML as (fb & ar & WB).
    change (gates_b u (through (negb b) body (gates_f u (gates_b u (through b body (gates_f u psi))))) x = psi x).
    assert (BX : p_ext forb (gates_b u)).
    { apply (closed_gates_b p_ext); [intros f' p1 p2 y E; apply E; reflexivity| |apply gate_ext|exact HU].
      intros f' F G HF HG p1 p2 y E. apply HG. intros z Lz. apply HF. intros z' Lz'. apply E. congruence. }
    rewrite (BX _ (gates_f u psi)); [apply (gates_undo forb u HU); exact Lx|]. intros y Ly. assert (LyN : length y = N) by congruence.
    rewrite (through_ext body fb ar (negb b) WB _ (through b body (gates_f u psi))); [apply (list_undone body fb ar b IH WB); exact LyN|].
    intros z Lz. apply (gates_undo' forb u HU). congruence.
Qed.
Lemma through_undo l forb around b : fine_all n forb around l -> forall psi x, length x = N -> through (negb b) l (through b l psi) x = psi x.
Proof. intros W. apply (list_undone l forb around b); [|exact W]. apply Forall_forall. intros j _. apply mean_undo. Qed.
End ring.
