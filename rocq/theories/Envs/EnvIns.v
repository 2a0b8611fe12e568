(** Instructions of compiled environments: extensionality, linearity, locality, inverses. *)
From Coq Require Import List ZArith Bool Lia Arith QArith Qcanon Ring Ring_theory.
Import ListNotations.
From Verif.Inverse Require Import InvModel InvSpec InvProofs.
From Verif.CtrlOps Require Import CtrlModel CtrlSpec CtrlProofs.
From Verif.Fourier Require Import FourierModel RegProofs.
From Verif.Qpe Require Import QpeProofs.
From Verif.Envs Require Import EnvModel EnvSpec.
Local Open Scope nat_scope.

Lemma set_over x q b : length x <= q -> setbit x q b = x.
Proof. revert q. induction x as [|a x IH]; intros [|q] H; cbn in *; try reflexivity; [lia|]. rewrite IH by lia. reflexivity. Qed.
Lemma flip_length x q : length (flip_at x q) = length x. Proof. apply setbit_length. Qed.
Lemma flip_same x q : q < length x -> getbit (flip_at x q) q = negb (getbit x q). Proof. apply getbit_set_same. Qed.
Lemma flip_other x q p : p <> q -> getbit (flip_at x q) p = getbit x p. Proof. apply getbit_set_other. Qed.
Lemma flip_flip x q : flip_at (flip_at x q) q = x.
Proof.
  destruct (Nat.lt_ge_cases q (length x)) as [H|H].
  - unfold flip_at at 1. rewrite flip_same by exact H. unfold flip_at. rewrite setbit_twice, negb_involutive. apply setbit_get.
  - unfold flip_at. rewrite !(set_over x q) by exact H. reflexivity.
Qed.
Lemma map_get_other x y l : (forall q, In q l -> getbit x q = getbit y q) -> map (getbit x) l = map (getbit y) l.
Proof. intros H. apply map_ext_in. exact H. Qed.

Fixpoint written (i : ins) : list nat :=
  match i with Do _ qs => qs | Mcx _ _ _ t | Eval _ _ t => [t] | Ctl _ _ i | Cu _ i | Flanked _ i => written i end.
Fixpoint ins_ok (N : nat) (i : ins) : Prop :=
  match i with
  | Do o qs => well_formed o /\ NoDup qs /\ length qs = arity o /\ forall q, In q qs -> q < N
  | Mcx _ cs _ t => t < N /\ ~ In t cs
  | Eval cs _ t => t < N /\ ~ In t cs
  | Ctl q _ i => ~ In q (written i) /\ ins_ok N i
  | Cu _ i => ins_ok N i
  | Flanked q i => In q (qubits i) /\ ~ In q (written i) /\ ins_ok N i
  end.
Lemma written_qubits i : forall q, In q (written i) -> In q (qubits i).
Proof.
  induction i as [o qs|u cs st t|a f t|p b i IH|p i IH|p i IH]; intros q H; cbn [written qubits] in *; auto.
  - apply in_or_app; auto.
  - apply in_or_app; auto.
  - right; auto.
  - destruct p; [right|]; auto.
Qed.

Section ring.
Context {R : Type} (rO rI : R) (radd rmul rsub : R -> R -> R) (ropp : R -> R) (RT : ring_theory rO rI radd rmul rsub ropp eq).
Context (expi chalf shalf : Qc -> R) (im : R) (EU : euler rO rI radd rmul ropp expi chalf shalf im).
Add Ring rr11 : RT.
Context (ph : phases).
Notation amp := (list bool -> R).
Notation effect := (effect Qcplus rO rI radd rmul ropp expi chalf shalf im).
Notation run_ins := (run_ins rO rI radd rmul ropp expi chalf shalf im ph).
Notation run_list := (run_list rO rI radd rmul ropp expi chalf shalf im ph).
Notation moved := (moved rmul).

Lemma ins_ext N i : ins_ok N i -> forall psi phi x, (forall y, length y = length x -> psi y = phi y) -> run_ins i psi x = run_ins i phi x.
Proof.
  induction i as [o qs|u cs st t|a f t|q b i IH|q i IH|q i IH]; intros W psi phi x E; cbn [EnvSpec.run_ins].
  - destruct W as (Wo & _ & L & _). apply (effect_local Qcplus rO rI radd rmul ropp expi chalf shalf im o Wo); [exact L|]. intros y [Ly _]. apply E. congruence.
  - destruct u; rewrite E; try reflexivity; destruct (bits_eqb _ _); try reflexivity; apply flip_length.
  - destruct (f _); apply E; [apply flip_length|reflexivity].
  - destruct W as [_ W]. destruct (Bool.eqb _ _); [apply IH; auto|apply E; reflexivity].
  - apply IH; auto.
  - destruct W as (_ & _ & W). apply IH; [exact W|]. intros y Ly. apply E. rewrite flip_length in *. congruence.
Qed.
Lemma ins_sum i : forall psi phi chi x, (forall y, chi y = radd (psi y) (phi y)) -> run_ins i chi x = radd (run_ins i psi x) (run_ins i phi x).
Proof.
  induction i as [o qs|u cs st t|a f t|q b i IH|q i IH|q i IH]; intros psi phi chi x E; cbn [EnvSpec.run_ins].
  - apply (effect_sum rO rI radd rmul rsub ropp RT expi chalf shalf im). exact E.
  - destruct u; rewrite E; ring.
  - destruct (f _); apply E.
  - destruct (Bool.eqb _ _); [apply IH, E|apply E].
  - apply IH, E.
  - apply IH. intros y. apply E.
Qed.
Lemma ins_moved N i : ins_ok N i -> forall g h,
  (forall x q, In q (qubits i) -> getbit (h x) q = getbit x q) -> (forall x q a, In q (qubits i) -> h (setbit x q a) = setbit (h x) q a) ->
  (forall x q a, In q (written i) -> g (setbit x q a) = g x) -> forall psi x, run_ins i (moved g h psi) x = rmul (g x) (run_ins i psi (h x)).
Proof.
  induction i as [o qs|u cs st t|a f t|q b i IH|q i IH|q i IH]; intros W g h HG HS GS psi x; cbn [EnvSpec.run_ins qubits written] in *.
  - destruct W as (Wo & _ & L & _). apply (effect_moved rO rI radd rmul rsub ropp RT expi chalf shalf im (fun q => In q qs) g h); auto.
  - assert (C : map (getbit (h x)) cs = map (getbit x) cs) by (apply map_get_other; intros q I; apply HG, in_or_app; auto).
    assert (T : getbit (h x) t = getbit x t) by (apply HG, in_or_app; cbn; auto).
    assert (F : h (flip_at x t) = flip_at (h x) t) by (unfold flip_at; rewrite HS, T by (apply in_or_app; cbn; auto); reflexivity).
    rewrite C. unfold QpeProofs.moved. destruct (bits_eqb _ _).
    + assert (GF : g (flip_at x t) = g x) by (apply GS; cbn; auto).
      assert (TF : getbit (flip_at (h x) t) t = getbit (flip_at x t) t) by (rewrite <- F; apply HG, in_or_app; cbn; auto).
      rewrite F, GF, ?T, ?TF. destruct u; ring.
    + rewrite ?T. destruct u; ring.
  - assert (C : map (getbit (h x)) a = map (getbit x) a) by (apply map_get_other; intros q I; apply HG, in_or_app; auto).
    assert (T : getbit (h x) t = getbit x t) by (apply HG, in_or_app; cbn; auto).
    rewrite C. unfold QpeProofs.moved. destruct (f _); [|reflexivity].
    unfold flip_at. rewrite HS, GS, T by (try apply in_or_app; cbn; auto). reflexivity.
  - destruct W as [NW W]. rewrite HG by (left; reflexivity). destruct (Bool.eqb _ _); [|reflexivity].
    apply IH; auto; intros; try apply HG; try apply HS; try apply GS; try right; auto.
  - apply IH; auto; intros; try apply HG; try apply HS; try apply GS; destruct q; try right; auto.
  - destruct W as (I & NW & W).
    assert (F : forall y, h (flip_at y q) = flip_at (h y) q) by (intros y; unfold flip_at; rewrite HS, HG by exact I; reflexivity).
    transitivity (run_ins i (moved (fun y => g (flip_at y q)) h (fun y => psi (flip_at y q))) (flip_at x q)).
    { apply (ins_ext N); [exact W|]. intros y _. unfold QpeProofs.moved. rewrite F. reflexivity. }
    rewrite IH; auto.
    + rewrite flip_flip, F. reflexivity.
    + intros y p a Ip. assert (NE : p <> q) by (intros ->; apply NW, Ip). unfold flip_at. rewrite getbit_set_other by congruence.
      rewrite setbit_comm by exact NE. apply GS, Ip.
Qed.
(** the effect at x depends on states that agree with x on a qubit that is not written *)
Lemma ins_local N i q : ins_ok N i -> ~ In q (written i) -> forall psi phi x,
  (forall y, length y = length x -> getbit y q = getbit x q -> psi y = phi y) -> run_ins i psi x = run_ins i phi x.
Proof.
  intros W NW psi phi x E. set (g := fun y => if Bool.eqb (getbit y q) (getbit x q) then rI else rO).
  assert (GS : forall y p a, In p (written i) -> g (setbit y p a) = g y).
  { intros y p a I. unfold g. rewrite getbit_set_other; [reflexivity|]. intros <-. apply NW, I. }
  assert (Gx : g x = rI) by (unfold g; rewrite eqb_reflx; reflexivity).
  pose proof (ins_moved N i W g (fun y => y) (fun _ _ _ => eq_refl) (fun _ _ _ _ => eq_refl) GS psi x) as A.
  pose proof (ins_moved N i W g (fun y => y) (fun _ _ _ => eq_refl) (fun _ _ _ _ => eq_refl) GS phi x) as B.
  rewrite Gx in A, B. transitivity (rmul rI (run_ins i psi x)); [ring|]. rewrite <- A. transitivity (rmul rI (run_ins i phi x)); [|ring]. rewrite <- B.
  apply (ins_ext N); [exact W|]. intros y Ly. unfold QpeProofs.moved, g. destruct (Bool.eqb (getbit y q) (getbit x q)) eqn:Q; [|ring].
  rewrite E; [reflexivity|exact Ly|]. apply eqb_prop, Q.
Qed.
Lemma undo_ok N i : forall j, undo_ins i = Some j -> ins_ok N i -> ins_ok N j /\ written j = written i /\ qubits j = qubits i /\ is_cu j = is_cu i.
Proof.
  induction i as [o qs|u cs st t|a f t|q b i IH|q i IH|q i IH]; intros j H W; cbn [undo_ins] in H.
  - destruct (inverse Qcopp Qcplus o) as [o'|] eqn:I; [|discriminate]. injection H as <-. destruct W as (Wo & N1 & L & B).
    repeat split; auto; [apply (inverse_wf _ _ _ _ I Wo)|rewrite (inverse_arity _ _ _ _ I); exact L].
  - injection H as <-. repeat split; apply W.
  - injection H as <-. repeat split; apply W.
  - destruct (undo_ins i) as [i'|]; [|discriminate]. injection H as <-. destruct W as [N1 W]. destruct (IH i' eq_refl W) as (A & B & C & D).
    cbn [ins_ok written qubits]. rewrite B, C. repeat split; auto.
  - destruct (undo_ins i) as [i'|]; [|discriminate]. injection H as <-. destruct (IH i' eq_refl W) as (A & B & C & D).
    cbn [ins_ok written qubits]. rewrite B, C. repeat split; auto.
  - destruct (undo_ins i) as [i'|]; [|discriminate]. injection H as <-. destruct W as (I & N1 & W). destruct (IH i' eq_refl W) as (A & B & C & D).
    cbn [ins_ok written qubits]. rewrite B, C. repeat split; auto.
Qed.
Notation e_opp := (CtrlProofs.e_opp rO rI radd rmul ropp expi chalf shalf im EU).
Lemma undo_run N i : forall j, undo_ins i = Some j -> ins_ok N i -> forall psi x, length x = N -> run_ins j (run_ins i psi) x = psi x.
Proof.
  induction i as [o qs|u cs st t|a f t|q b i IH|q i IH|q i IH]; intros j H W psi x Lx; cbn [undo_ins] in H.
  - destruct (inverse Qcopp Qcplus o) as [o'|] eqn:I; [|discriminate]. injection H as <-. destruct W as (Wo & N1 & L & B). cbn [EnvSpec.run_ins].
    apply (proj1 (inverse_undoes Qcopp Qcplus rO rI radd rmul rsub ropp RT expi chalf shalf im (angle_ok rO rI radd rmul rsub ropp RT expi chalf shalf im EU) N o o' I Wo)); auto.
  - injection H as <-. destruct W as [Ht NI]. cbn [EnvSpec.run_ins].
    assert (C : forall y, map (getbit (flip_at y t)) cs = map (getbit y) cs) by (intros y; apply map_get_other; intros q I; apply flip_other; intros ->; auto).
    destruct (bits_eqb (map (getbit x) cs) st) eqn:B.
    + rewrite C, B, flip_flip. destruct u; cbn [negb]; [|transitivity (rmul (rmul (expi (ph st (map (getbit x) cs) (getbit (flip_at x t) t))) (expi (- ph st (map (getbit x) cs) (getbit (flip_at x t) t))%Qc)) (psi x)); [ring|rewrite e_opp; ring]].
      transitivity (rmul (rmul (expi (ph st (map (getbit x) cs) (getbit x t))) (expi (- ph st (map (getbit x) cs) (getbit x t))%Qc)) (psi x)); [ring|rewrite e_opp; ring].
    + rewrite B. destruct u; cbn [negb]; transitivity (rmul (rmul (expi (ph st (map (getbit x) cs) (getbit x t))) (expi (- ph st (map (getbit x) cs) (getbit x t))%Qc)) (psi x)); [ring|rewrite e_opp; ring|ring|rewrite e_opp; ring].
  - injection H as <-. destruct W as [Ht NI]. cbn [EnvSpec.run_ins].
    assert (C : forall y, map (getbit (flip_at y t)) a = map (getbit y) a) by (intros y; apply map_get_other; intros q I; apply flip_other; intros ->; auto).
    destruct (f (map (getbit x) a)) eqn:B; [rewrite C, B, flip_flip|]; reflexivity.
  - destruct (undo_ins i) as [i'|] eqn:U; [|discriminate]. injection H as <-. destruct W as [N1 W]. destruct (undo_ok N i i' U W) as (W' & E & _ & _).
    cbn [EnvSpec.run_ins]. destruct (Bool.eqb (getbit x q) b) eqn:Q; [|reflexivity]. rewrite <- (IH i' eq_refl W psi x Lx).
    apply (ins_local N i' q W'); [rewrite E; exact N1|]. intros y Ly Gy. rewrite Gy, Q. reflexivity.
  - destruct (undo_ins i) as [i'|] eqn:U; [|discriminate]. injection H as <-. cbn [EnvSpec.run_ins]. apply IH; auto.
  - destruct (undo_ins i) as [i'|] eqn:U; [|discriminate]. injection H as <-. destruct W as (I1 & N1 & W). destruct (undo_ok N i i' U W) as (W' & E & _ & _). cbn [EnvSpec.run_ins].
    transitivity (run_ins i' (run_ins i (fun y => psi (flip_at y q))) (flip_at x q)).
    + apply (ins_ext N); [exact W'|]. intros y _. rewrite flip_flip. reflexivity.
    + rewrite (IH i' eq_refl W) by (rewrite flip_length; exact Lx). rewrite flip_flip. reflexivity.
Qed.

(** ** lists *)
Definition all_ok (N : nat) (l : list ins) : Prop := forall i, In i l -> ins_ok N i.
Lemma run_app l m psi : run_list (l ++ m) psi = run_list m (run_list l psi). Proof. apply fold_left_app. Qed.
Lemma run_cons i l psi : run_list (i :: l) psi = run_list l (run_ins i psi). Proof. reflexivity. Qed.
Lemma list_ext N l : all_ok N l -> forall psi phi x, (forall y, length y = length x -> psi y = phi y) -> run_list l psi x = run_list l phi x.
Proof.
  induction l as [|i l IH]; intros W psi phi x E; [apply E; reflexivity|]. rewrite !run_cons. apply IH; [intros j I; apply W; right; exact I|].
  intros y Ly. apply (ins_ext N); [apply W; left; reflexivity|]. intros z Lz. apply E. congruence.
Qed.
Lemma list_sum l : forall psi phi chi x, (forall y, chi y = radd (psi y) (phi y)) -> run_list l chi x = radd (run_list l psi x) (run_list l phi x).
Proof. induction l as [|i l IH]; intros psi phi chi x E; [apply E|]. rewrite !run_cons. apply IH. intros y. apply ins_sum, E. Qed.
Lemma list_moved N l : all_ok N l -> forall g h,
  (forall x q i, In i l -> In q (qubits i) -> getbit (h x) q = getbit x q) -> (forall x q a i, In i l -> In q (qubits i) -> h (setbit x q a) = setbit (h x) q a) ->
  (forall x q a i, In i l -> In q (written i) -> g (setbit x q a) = g x) -> forall psi x, run_list l (moved g h psi) x = rmul (g x) (run_list l psi (h x)).
Proof.
  induction l as [|i l IH]; intros W g h HG HS GS psi x; [reflexivity|]. rewrite !run_cons.
  rewrite (list_ext N l) with (phi := moved g h (run_ins i psi)).
  - apply IH; [intros j I; apply W; right; exact I| | |]; intros; [eapply HG|eapply HS|eapply GS]; try (right; eassumption); eassumption.
  - intros j I. apply W; right; exact I.
  - intros y _. rewrite (ins_moved N i); [reflexivity|apply W; left; reflexivity| | |]; intros; [eapply HG|eapply HS|eapply GS]; try (left; reflexivity); eassumption.
Qed.
Lemma list_local N l q : all_ok N l -> (forall i, In i l -> ~ In q (written i)) -> forall psi phi x,
  (forall y, length y = length x -> getbit y q = getbit x q -> psi y = phi y) -> run_list l psi x = run_list l phi x.
Proof.
  induction l as [|i l IH]; intros W NW psi phi x E; [apply E; reflexivity|]. rewrite !run_cons.
  apply IH; [intros j I; apply W; right; exact I|intros j I; apply NW; right; exact I|].
  intros y Ly Gy. apply (ins_local N i q); [apply W; left; reflexivity|apply NW; left; reflexivity|]. intros z Lz Gz. apply E; congruence.
Qed.
Lemma list_zero l x : run_list l (fun _ => rO) x = rO.
Proof.
  pose proof (list_sum l (fun _ => rO) (fun _ => rO) (fun _ => rO) x (fun _ => eq_sym (Radd_0_l RT rO))) as H. set (a := run_list l (fun _ => rO) x) in *.
  transitivity (radd (radd a a) (ropp a)); [ring|]. rewrite <- H. ring.
Qed.
Lemma undo_all_ok N l : forall m, undo_all l = Some m -> all_ok N l -> all_ok N m /\ (forall j, In j m -> exists i, In i l /\ written j = written i /\ qubits j = qubits i /\ undo_ins i = Some j).
Proof.
  induction l as [|i l IH]; intros m H W; cbn in H.
  - injection H as <-. split; [intros j []|intros j []].
  - destruct (undo_ins i) as [i'|] eqn:U; [|discriminate]. destruct (undo_all l) as [l'|]; [|discriminate]. injection H as <-.
    destruct (IH l' eq_refl (fun j I => W j (or_intror I))) as [A B]. destruct (undo_ok N i i' U (W i (or_introl eq_refl))) as (C & D & E & _).
    split; intros j I; apply in_app_or in I as [I|[<-|[]]]; auto.
    + destruct (B j I) as (k & Ik & K). exists k. split; [right|]; auto.
    + exists i. split; [left|]; auto.
Qed.
Lemma undo_all_run N l : forall m, undo_all l = Some m -> all_ok N l -> forall psi x, length x = N -> run_list m (run_list l psi) x = psi x.
Proof.
  induction l as [|i l IH]; intros m H W psi x Lx; cbn in H.
  - injection H as <-. reflexivity.
  - destruct (undo_ins i) as [i'|] eqn:U; [|discriminate]. destruct (undo_all l) as [l'|] eqn:UL; [|discriminate]. injection H as <-.
    rewrite run_app, run_cons. cbn [EnvSpec.run_list fold_left]. pose proof (W i (or_introl eq_refl)) as Wi.
    rewrite <- (undo_run N i i' U Wi psi x Lx). apply (ins_ext N); [apply (undo_ok N i i' U Wi)|].
    intros y Ly. apply IH; auto; [intros j I; apply W; right; exact I|congruence].
Qed.
End ring.
