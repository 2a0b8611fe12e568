(** Proofs about phase estimation. *)
From Coq Require Import List ZArith Bool Lia Arith QArith Qcanon Field Ring Ring_theory.
Import ListNotations.
From Verif.Inverse Require Import InvModel InvSpec InvProofs.
From Verif.CtrlOps Require Import CtrlModel CtrlSpec CtrlProofs.
From Verif.Fourier Require Import FourierModel FourierSpec RegProofs FourierProofs FourierFinal AdderProofs.
From Verif.Hybrid Require Import HybridSpec HybridFinal.
From Verif.Qpe Require Import QpeModel QpeSpec.
Local Open Scope nat_scope.

Section ring.
Context {R : Type} (rO rI : R) (radd rmul rsub : R -> R -> R) (ropp : R -> R) (RT : ring_theory rO rI radd rmul rsub ropp eq).
Context (expi chalf shalf : Qc -> R) (im : R).
Add Ring rr9 : RT.
Notation amp := (list bool -> R).
Notation effect := (effect Qcplus rO rI radd rmul ropp expi chalf shalf im).
Notation run := (run_circuit Qcplus rO rI radd rmul ropp expi chalf shalf im).
Notation run_body := (run_body Qcplus rO rI radd rmul ropp expi chalf shalf im).
Notation dft := (dft rO rI radd rmul expi chalf).
Notation total := (total rO radd).
Notation power := (power rI rmul).
Notation rt := (FourierProofs.rt chalf).
Notation run_app := (FourierProofs.run_app rO rI radd rmul ropp expi chalf shalf im).

(** ** operations commute with what happens to other qubits *)
Section move.
Context (Q : nat -> Prop) (g : list bool -> R) (h : list bool -> list bool).
Context (HG : forall x q, Q q -> getbit (h x) q = getbit x q) (HS : forall x q a, Q q -> h (setbit x q a) = setbit (h x) q a) (GS : forall x q a, Q q -> g (setbit x q a) = g x).
Definition moved (psi : amp) : amp := fun x => rmul (g x) (psi (h x)).
Lemma on_moved m q psi x : Q q -> on_qubit radd rmul m q (moved psi) x = rmul (g x) (on_qubit radd rmul m q psi (h x)).
Proof. intros Hq. unfold on_qubit, moved. rewrite !HS, !GS, HG by exact Hq. ring. Qed.
Lemma effect_moved : forall o, well_formed o -> forall qs psi, length qs = arity o -> (forall q, In q qs -> Q q) -> forall x, effect o qs (moved psi) x = rmul (g x) (effect o qs psi (h x)).
Proof.
  assert (EX : forall o, well_formed o -> forall qs psi phi x, length qs = arity o -> (forall y, psi y = phi y) -> effect o qs psi x = effect o qs phi x).
  { intros o W qs psi phi x L E. apply (effect_local Qcplus rO rI radd rmul ropp expi chalf shalf im o W); [exact L|]. intros y _. apply E. }
  assert (B : forall qs b, Forall (fun i => well_formed (fst i) -> forall qs psi, length qs = arity (fst i) -> (forall q, In q qs -> Q q) -> forall x, effect (fst i) qs (moved psi) x = rmul (g x) (effect (fst i) qs psi (h x))) b ->
    (forall q, In q qs -> Q q) -> wf_body (length qs) b -> forall psi psi' x, (forall y, psi' y = moved psi y) -> run_body qs b psi' x = rmul (g x) (run_body qs b psi (h x))).
  { intros qs b F HQ. induction F as [|[o loc] b P F IH]; intros W psi psi' x E; cbn [InvProofs.run_body]; [apply E|].
    inversion W as [|n0 o0 l0 r Wo N Len Bd Wr]; subst. apply IH; [exact Wr|]. intros y. cbn [fst] in P. unfold moved at 1.
    rewrite <- P; [|exact Wo|unfold globals; rewrite map_length; exact Len|intros q I; apply HQ; revert I; apply globals_incl, Bd].
    apply EX; [exact Wo|unfold globals; rewrite map_length; exact Len|exact E]. }
  induction o as [n t p l gp ps|p|s b IH|s b body IH IHb|n nq ncl body ps IHb| | |n|n a b] using op_ind'; intros W qs psi Len HQ x; try reflexivity.
  - cbn [InvSpec.effect]. apply on_moved. apply HQ. apply nth_In. rewrite Len. cbn. lia.
  - cbn [InvSpec.effect]. apply on_moved. apply HQ. apply nth_In. rewrite Len. cbn. lia.
  - cbn [InvSpec.effect]. inversion W; subst.
    replace (map (getbit (h x)) (firstn (length s) qs)) with (map (getbit x) (firstn (length s) qs)).
    2: { apply map_ext_in. intros q I. symmetry. apply HG, HQ. rewrite <- (firstn_skipn (length s) qs). apply in_or_app; auto. }
    destruct (bits_eqb _ s); [|reflexivity]. apply IH; [assumption|rewrite skipn_length, Len; cbn; lia|].
    intros q I. apply HQ. rewrite <- (firstn_skipn (length s) qs). apply in_or_app; auto.
  - rewrite !effect_pt. inversion W; subst. cbn in Len. apply B; [exact IHb|exact HQ|rewrite Len; assumption|reflexivity].
  - rewrite !effect_comp. inversion W; subst. cbn in Len. apply B; [exact IHb|exact HQ|rewrite Len; assumption|reflexivity].
Qed.
Lemma run_moved N c : wf_circuit N c -> (forall o qs q, In (o, qs) c -> In q qs -> Q q) -> forall psi psi' x, (forall y, length y = length x -> psi' y = moved psi y) -> run c psi' x = rmul (g x) (run c psi (h x)).
Proof.
  intros W. induction W as [|N o qs c Wo ND LQ BD W IH]; intros HQ psi psi' x E; [apply E; reflexivity|].
  rewrite !FourierProofs.run_cons. apply IH; [intros o' qs' q I; apply (HQ o' qs' q); right; exact I|].
  intros y Ly. unfold moved. rewrite <- effect_moved; [|exact Wo|exact LQ|intros q I; apply (HQ o qs q); [left; reflexivity|exact I]].
  apply (effect_local Qcplus rO rI radd rmul ropp expi chalf shalf im o Wo); [exact LQ|]. intros z [Lz _]. apply E. congruence.
Qed.
End move.

(** ** linearity *)
Lemma effect_sum : forall o qs psi phi chi x, (forall y, chi y = radd (psi y) (phi y)) -> effect o qs chi x = radd (effect o qs psi x) (effect o qs phi x).
Proof.
  assert (B : forall qs b, Forall (fun i => forall qs psi phi chi x, (forall y, chi y = radd (psi y) (phi y)) -> effect (fst i) qs chi x = radd (effect (fst i) qs psi x) (effect (fst i) qs phi x)) b ->
    forall psi phi chi x, (forall y, chi y = radd (psi y) (phi y)) -> run_body qs b chi x = radd (run_body qs b psi x) (run_body qs b phi x)).
  { intros qs b F. induction F as [|[o loc] b P F IH]; intros psi phi chi x E; cbn [InvProofs.run_body]; [apply E|]. apply IH. intros y. apply P, E. }
  induction o as [n t p l gp ps|p|s b IH|s b body IH IHb|n nq ncl body ps IHb| | |n|n a b] using op_ind'; intros qs psi phi chi x E; try apply E.
  - cbn [InvSpec.effect]. unfold on_qubit. rewrite !E. ring.
  - cbn [InvSpec.effect]. unfold on_qubit. rewrite !E. ring.
  - cbn [InvSpec.effect]. destruct (bits_eqb _ s); [apply IH, E|apply E].
  - rewrite !effect_pt. apply B; assumption.
  - rewrite !effect_comp. apply B; assumption.
Qed.
Lemma run_sum c : forall psi phi chi x, (forall y, chi y = radd (psi y) (phi y)) -> run c chi x = radd (run c psi x) (run c phi x).
Proof. induction c as [|[o qs] c IH]; intros psi phi chi x E; [apply E|]. rewrite !FourierProofs.run_cons. apply IH. intros y. apply effect_sum, E. Qed.
Lemma run_zero c x : run c (fun _ => rO) x = rO.
Proof.
  pose proof (run_sum c (fun _ => rO) (fun _ => rO) (fun _ => rO) x (fun _ => eq_sym (Radd_0_l RT rO))) as H. set (a := run c (fun _ => rO) x) in *.
  transitivity (radd (radd a a) (ropp a)); [ring|]. rewrite <- H. ring.
Qed.
Lemma run_total {A} c (l : list A) (f : A -> amp) : forall chi x, (forall y, chi y = total l (fun a => f a y)) -> run c chi x = total l (fun a => run c (f a) x).
Proof.
  assert (EX : forall psi phi x, (forall y, psi y = phi y) -> run c psi x = run c phi x).
  { intros psi phi x E. rewrite (run_sum c phi (fun _ => rO) psi x), run_zero; [ring|]. intros y. rewrite E. ring. }
  induction l as [|a l IH]; intros chi x E.
  - rewrite (EX chi (fun _ => rO)) by exact E. apply run_zero.
  - rewrite (run_sum c (f a) (fun y => total l (fun a => f a y)) chi x) by exact E. rewrite (IH (fun y => total l (fun a => f a y)) x) by reflexivity. reflexivity.
Qed.

(** ** controlled circuits *)
Lemma run_control N q c : q < N -> acts_off N [q] c -> forall psi x, length x = N -> run (control_on q c) psi x = if getbit x q then run c psi x else psi x.
Proof.
  intros Hq [W OFF]. induction W as [|N o qs c Wo ND LQ BD W IH]; intros psi x L; [destruct (getbit x q); reflexivity|].
  specialize (IH Hq (fun o' qs' q' I => OFF o' qs' q' (or_intror I))).
  assert (NQ : ~ In q qs) by (intros I; apply (OFF o qs q (or_introl eq_refl) I); left; reflexivity).
  change (control_on q ((o, qs) :: c)) with ((if (is_alloc o || is_barrier o)%bool then (o, qs) else (controlled [true] o, q :: qs)) :: control_on q c).
  destruct (is_alloc o || is_barrier o)%bool eqn:A.
  - assert (E : effect o qs psi = psi) by (destruct o; cbn in A; try discriminate; reflexivity). rewrite !FourierProofs.run_cons, E. apply IH, L.
  - rewrite !FourierProofs.run_cons, IH by exact L.
    assert (C : forall y, effect (controlled [true] o) (q :: qs) psi y = if getbit y q then effect o qs psi y else psi y).
    { intros y. rewrite (controlled_effect rO rI radd rmul ropp expi chalf shalf im o [true]) by (cbn [length Nat.add]; rewrite LQ; reflexivity).
      cbn [InvSpec.effect length firstn skipn map bits_eqb]. destruct (getbit y q); reflexivity. }
    destruct (getbit x q) eqn:G; [|rewrite C, G; reflexivity].
    (* the state where the control is 1 *)
    pose proof (run_moved (fun p => p <> q) (fun y => if getbit y q then rI else rO) (fun y => y)) as M.
    assert (M' : forall phi, run c (fun y => rmul (if getbit y q then rI else rO) (phi y)) x = run c phi x).
    { intros phi. transitivity (rmul (if getbit x q then rI else rO) (run c phi x)); [|rewrite G; ring]. apply (M (fun _ _ _ => eq_refl) (fun _ _ _ _ => eq_refl)) with (N := N).
      - intros y p a Hp. rewrite getbit_set_other; [reflexivity|]. intros E. apply Hp. symmetry. exact E.
      - exact W.
      - intros o' qs' p I Ip E. subst p. exact (OFF o' qs' q (or_intror I) Ip (or_introl eq_refl)).
      - intros y _. reflexivity. }
    rewrite <- (M' (effect (controlled [true] o) (q :: qs) psi)), <- (M' (effect o qs psi)).
    apply (run_ext rO rI radd rmul ropp expi chalf shalf im N); [exact W| |exact L]. intros y _. rewrite C. destruct (getbit y q); ring.
Qed.
Lemma wf_control N q c : q < N -> acts_off N [q] c -> wf_circuit N (control_on q c).
Proof.
  intros Hq [W OFF]. induction W as [|N o qs c Wo ND LQ BD W IH]; [constructor|].
  specialize (IH Hq (fun o' qs' q' I => OFF o' qs' q' (or_intror I))).
  assert (NQ : ~ In q qs) by (intros I; apply (OFF o qs q (or_introl eq_refl) I); left; reflexivity).
  change (control_on q ((o, qs) :: c)) with ((if (is_alloc o || is_barrier o)%bool then (o, qs) else (controlled [true] o, q :: qs)) :: control_on q c).
  destruct (is_alloc o || is_barrier o)%bool; [constructor; assumption|]. constructor; [| | | |exact IH].
  - clear - Wo. revert Wo. generalize [true]. induction o using op_ind'; intros st Wo; cbn [controlled]; try (constructor; exact Wo). inversion Wo; subst. apply IHo. assumption.
  - constructor; assumption.
  - cbn [length]. rewrite LQ. clear. assert (G : forall st : list bool, arity (controlled st o) = length st + arity o).
    { induction o using op_ind'; intros st; cbn [controlled]; try reflexivity. rewrite IHo, app_length. cbn [arity]. lia. }
    rewrite G. reflexivity.
  - intros i [<-|I]; [exact Hq|apply BD, I].
Qed.
End ring.
