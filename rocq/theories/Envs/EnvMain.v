(** Compiled environments do what they mean: induction over programs. *)
From Coq Require Import List ZArith Bool Lia Arith QArith Qcanon Ring Ring_theory.
Import ListNotations.
From Verif.Inverse Require Import InvModel InvSpec InvProofs.
From Verif.CtrlOps Require Import CtrlModel CtrlSpec CtrlProofs.
From Verif.Fourier Require Import FourierModel RegProofs.
From Verif.Qpe Require Import QpeProofs.
From Verif.Envs Require Import EnvModel EnvSpec EnvIns EnvMeaning EnvProofs.
Local Open Scope nat_scope.

(** the next free qubit only grows *)
Lemma seq_mono {B} (f : nat -> B -> option result) l : (forall nx j L S nx', In j l -> f nx j = Some (L, S, nx') -> nx <= nx') -> forall nx L S nx', seq_all f nx l = Some (L, S, nx') -> nx <= nx'.
Proof.
  induction l as [|j l IH]; intros H nx L S nx' E; cbn in E; [injection E as <- <- <-; lia|].
  destruct (f nx j) as [[[a s] nx1]|] eqn:F; [|discriminate]. apply H in F; [|left; reflexivity].
  destruct (seq_all f nx1 l) as [[[b s'] nx2]|] eqn:G; [|discriminate]. injection E as <- <- <-.
  apply IH in G; [lia|]. intros; eapply H; [right|]; eassumption.
Qed.
Lemma content_next k own r j L S nx' : content k own r j = Some (L, S, nx') -> exists L', r = Some (L', S, nx').
Proof.
  destruct r as [[[l s] nx]|]; cbn [content]; [|discriminate]. destruct (is_cond j); [intros E; injection E as <- <- <-; eauto|].
  destruct (control_all k _ l); [|discriminate]. intros E; injection E as <- <- <-; eauto.
Qed.
Lemma enter_mono c rho nx cs st inv k pre post rho' nx' : enter_control c rho nx cs st inv = Some (k, pre, post, rho', nx') -> nx <= nx'.
Proof.
  unfold enter_control. destruct c as [p|], cs as [|a [|b cs]]; try discriminate; try (destruct (distinct _); [|discriminate]); intros E; injection E; intros; lia.
Qed.
Lemma compile_mono it : forall rho c nx L S nx', compile rho c nx it = Some (L, S, nx') -> nx <= nx'.
Proof.
  induction it as [o qs| |cs st inv body IH|args f body IH|body IH|body IH|u body IH] using item_ind'; intros rho c nx L S nx' E; cbn [compile] in E.
  - injection E as <- <- <-. lia.
  - destruct c; [|discriminate]. injection E as <- <- <-. lia.
  - destruct body as [|j0 body0]; [injection E as <- <- <-; lia|]. remember (j0 :: body0) as body.
    destruct (enter_control c rho nx cs st inv) as [[[[[k pre] post] rho'] nx1]|] eqn:EN; [|discriminate]. apply enter_mono in EN.
    destruct (seq_all _ nx1 body) as [[[l s] nx2]|] eqn:SE; [|discriminate]. injection E as <- <- <-.
    apply seq_mono in SE; [lia|]. intros m j l' s' m' I H. apply content_next in H as [l'' H]. rewrite Forall_forall in IH. eapply IH; eassumption.
  - destruct body as [|j0 body0]; [injection E as <- <- <-; lia|]. remember (j0 :: body0) as body.
    destruct (enter_cond c nx args f) as [[[k pre] post] nx1] eqn:EN. assert (nx <= nx1) by (unfold enter_cond in EN; destruct c; injection EN; intros; lia).
    destruct (seq_all _ nx1 body) as [[[l s] nx2]|] eqn:SE; [|discriminate]. injection E as <- <- <-.
    apply seq_mono in SE; [lia|]. intros m j l' s' m' I H'. apply content_next in H' as [l'' H']. rewrite Forall_forall in IH. eapply IH; eassumption.
  - destruct (seq_all _ nx body) as [[[l s] nx2]|] eqn:SE; [|discriminate]. destruct (undo_all l); [|discriminate]. injection E as <- <- <-.
    apply seq_mono in SE; [lia|]. intros m j l' s' m' I H. rewrite Forall_forall in IH. eapply IH; eassumption.
  - apply seq_mono in E; [lia|]. intros m j l' s' m' I H. rewrite Forall_forall in IH. eapply IH; eassumption.
  - destruct (undo_all _) as [su|]; [|discriminate]. destruct c as [k|].
    + destruct (seq_all _ nx body) as [[[l s] nx2]|] eqn:SE; [|discriminate]. injection E as <- <- <-.
      apply seq_mono in SE; [lia|]. intros m j l' s' m' I H. apply content_next in H as [l'' H]. rewrite Forall_forall in IH. eapply IH; eassumption.
    + destruct (seq_all _ nx body) as [[[l s] nx2]|] eqn:SE; [|discriminate]. injection E as <- <- <-.
      apply seq_mono in SE; [lia|]. intros m j l' s' m' I H. rewrite Forall_forall in IH. eapply IH; eassumption.
Qed.

Section ring.
Context {R : Type} (rO rI : R) (radd rmul rsub : R -> R -> R) (ropp : R -> R) (RT : ring_theory rO rI radd rmul rsub ropp eq).
Context (expi chalf shalf : Qc -> R) (im : R) (EU : euler rO rI radd rmul ropp expi chalf shalf im).
Add Ring rr14 : RT.
Context (ph : phases) (N n : nat) (NN : n <= N).
Notation amp := (list bool -> R).
Notation run_ins := (run_ins rO rI radd rmul ropp expi chalf shalf im ph).
Notation run_list := (run_list rO rI radd rmul ropp expi chalf shalf im ph).
Notation meaning := (meaning rO rI radd rmul ropp expi chalf shalf im).
Notation gate := (gate rO rI radd rmul ropp expi chalf shalf im).
Notation through := (through rO rI radd rmul ropp expi chalf shalf im).
Notation gates_f := (gates_f rO rI radd rmul ropp expi chalf shalf im).
Notation gates_b := (gates_b rO rI radd rmul ropp expi chalf shalf im).
Notation p_moved := (p_moved rmul n).
Notation moved := (moved rmul).
Notation blank := (blank rO N).
Notation ins_ext := (ins_ext rO rI radd rmul ropp expi chalf shalf im ph).
Notation ins_local := (ins_local rO rI radd rmul rsub ropp RT expi chalf shalf im ph).
Notation ins_sum := (ins_sum rO rI radd rmul rsub ropp RT expi chalf shalf im ph).
Notation list_ext := (list_ext rO rI radd rmul ropp expi chalf shalf im ph).
Notation list_sum := (list_sum rO rI radd rmul rsub ropp RT expi chalf shalf im ph).
Notation list_local := (list_local rO rI radd rmul rsub ropp RT expi chalf shalf im ph).
Notation list_zero := (list_zero rO rI radd rmul rsub ropp RT expi chalf shalf im ph).
Notation run_app := (run_app rO rI radd rmul ropp expi chalf shalf im ph).
Notation run_cons := (run_cons rO rI radd rmul ropp expi chalf shalf im ph).
Notation undo_all_run := (undo_all_run rO rI radd rmul rsub ropp RT expi chalf shalf im EU ph).
Notation mean_moved := (mean_moved rO rI radd rmul rsub ropp RT expi chalf shalf im n).
Notation through_moved := (through_moved rO rI radd rmul rsub ropp RT expi chalf shalf im n).
Notation mean_ext := (mean_ext rO rI radd rmul ropp expi chalf shalf im n).
Notation through_ext := (through_ext rO rI radd rmul ropp expi chalf shalf im n).
Notation through_undo := (through_undo rO rI radd rmul rsub ropp RT expi chalf shalf im EU N n NN).

Notation same := (same N).
Notation sup := (sup rO N).
Notation mean_sup := (mean_sup rO rI radd rmul rsub ropp RT N n NN).
Notation mean_blank := (mean_blank rO rI radd rmul rsub ropp RT N n NN).
Notation ins_sup := (ins_sup rO rI radd rmul rsub ropp RT expi chalf shalf im ph N).
Notation ctl_on := (ctl_on rO rI radd rmul rsub ropp RT expi chalf shalf im ph N).
Notation ctl_off := (ctl_off rO rI radd rmul rsub ropp RT expi chalf shalf im ph N).
Notation ins_same := (ins_same rO rI radd rmul ropp expi chalf shalf im ph N).
Notation run_same := (run_same rO rI radd rmul ropp expi chalf shalf im ph N).

Definition writes (forb : list nat) (nx nx' : nat) (i : ins) : Prop := forall q, In q (written i) -> (q < n /\ ~ In q forb) \/ nx <= q < nx'.
Definition safe (forb : list nat) (nx nx' : nat) (i : ins) : Prop := ins_ok N i /\ writes forb nx nx' i /\ qubits i <> [].
(** the truth value of an environment is not written by its content *)
Definition sane (k : env) (forb : list nat) (nx : nat) : Prop :=
  (In (ctv k) forb \/ n <= ctv k < nx) /\ (ctv0 k = ctv k \/ (In (ctv0 k) forb /\ act k = true /\ n <= ctv k)).
Definition inside (k : env) (ok : bool) (psi : amp) : Prop := sup (ctv k) (act k) psi /\ (ok = true -> ctv0 k <> ctv k -> sup (ctv0 k) true psi).
Definition On (k : env) (ok : bool) (nx : nat) (F G : amp -> amp) : Prop := forall psi, blank nx psi -> inside k ok psi -> same (F psi) (G psi).
Definition Off (k : env) (nx : nat) (F : amp -> amp) : Prop := forall psi, blank nx psi -> sup (ctv k) (negb (act k)) psi -> same (F psi) psi.
Definition tame (S : list nat) (L : list ins) : Prop := forall i, In i L -> meets (qubits i) S = true \/ is_eval i.
Definition kept (S : list nat) (L : list ins) : list ins := filter (fun i => meets (qubits i) S) L.
Definition good (it : item) : Prop := forall forb c ok rho nx L S nx',
  fine n forb (option_map (fun k => (act k, ok)) c) it -> (forall k, c = Some k -> sane k forb nx) -> (forall q, In q forb -> q < n) -> (forall q, q < n -> ~ In q forb -> rho q = q) -> n <= nx ->
  compile rho c nx it = Some (L, S, nx') -> nx' <= N ->
  (forall i, In i L -> safe forb nx nx' i) /\
  match c with
  | None => forall psi, blank nx psi -> same (run_list L psi) (meaning false it psi)
  | Some k => (forall q, In q S -> nx <= q < nx') /\
      (is_cond it = true -> tame S L /\ On k ok nx (run_list L) (meaning false it) /\ Off k nx (run_list L) /\ forall S', incl S S' -> Off k nx (run_list (kept S' L))) /\
      forall S' P, incl S S' -> (forall q, In q S' -> n <= q /\ q <> ctv k) -> control_all k S' L = Some P -> On k ok nx (run_list P) (meaning false it) /\ Off k nx (run_list P)
  end.

Lemma safe_ctv k forb nx nx' i : sane k forb nx -> (forall q, In q forb -> q < n) -> n <= nx -> safe forb nx nx' i -> ~ In (ctv k) (written i).
Proof. intros [A _] FB Hn (_ & W & _) I. apply W in I. destruct A as [A|A]; [specialize (FB _ A); destruct I as [[_ I]|I]; [contradiction|lia]|destruct I as [[I _]|I]; lia]. Qed.
Lemma safe_le forb nx nx' nx1 nx2 i : nx1 <= nx -> nx' <= nx2 -> safe forb nx nx' i -> safe forb nx1 nx2 i.
Proof. intros A B (C & D & E). repeat split; try assumption. intros q I. apply D in I. destruct I; [left; assumption|right; lia]. Qed.
Lemma safe_forb forb forb' nx nx' i : incl forb' forb -> safe forb nx nx' i -> safe forb' nx nx' i.
Proof. intros A (C & D & E). repeat split; try assumption. intros q I. apply D in I. destruct I as [[I J]|I]; [left; split; [assumption|]; intros K; apply J, A, K|right; lia]. Qed.
Lemma sane_le k forb nx nx' : nx <= nx' -> sane k forb nx -> sane k forb nx'.
Proof. intros L [A B]. split; [destruct A; [left; assumption|right; lia]|exact B]. Qed.
Lemma mean_inside k ok forb nx F psi : sane k forb nx -> p_moved forb F -> inside k ok psi -> inside k ok (F psi).
Proof.
  intros [A B] M [C D]. split.
  - apply (mean_sup forb F); auto. destruct A; [right; assumption|left; lia].
  - intros O NE. apply (mean_sup forb F); auto. destruct B as [B|[B _]]; [contradiction|right; exact B].
Qed.
(** controlled instructions *)
Lemma control_ins_safe k s forb nx nx' i j : sane k forb nx -> (forall q, In q forb -> q < n) -> n <= nx -> safe forb nx nx' i -> control_ins k s i = Some j ->
  safe forb nx nx' j /\ (meets (qubits j) s = true \/ In (ctv k) (qubits j)).
Proof.
  intros SK FB Hn SI C. pose proof (safe_ctv k forb nx nx' i SK FB Hn SI) as NW. destruct SI as (W & WR & NE). unfold control_ins in C.
  destruct (meets (qubits i) s) eqn:M; [injection C as <-; split; [repeat split; assumption|left; exact M]|].
  destruct (forallb (Nat.eqb (ctv k)) (qubits i) && negb (is_cu i)) eqn:F.
  - exfalso. apply andb_prop in F as [F _]. destruct i as [o qs| | | | |]; try discriminate. cbn [qubits] in *. destruct qs as [|q qs]; [congruence|].
    cbn in F. apply andb_prop in F as [F _]. apply Nat.eqb_eq in F. apply NW. left. congruence.
  - destruct (mem (ctv k) (qubits i)) eqn:MM.
    + apply mem_In in MM. destruct (is_cu i); [|discriminate]. injection C as <-. destruct (act k); [split; [repeat split; assumption|right; exact MM]|].
      split; [|right; exact MM]. split; [|split; [exact WR|exact NE]]. cbn [ins_ok]. auto.
    + injection C as <-. split; [|right; left; reflexivity]. split; [cbn [ins_ok]; auto|]. split; [exact WR|discriminate].
Qed.
Lemma control_all_safe k s forb nx nx' l : forall p, sane k forb nx -> (forall q, In q forb -> q < n) -> n <= nx -> (forall i, In i l -> safe forb nx nx' i) -> control_all k s l = Some p ->
  forall j, In j p -> safe forb nx nx' j /\ (meets (qubits j) s = true \/ In (ctv k) (qubits j)).
Proof.
  induction l as [|i l IH]; intros p SK FB Hn SL C j I; cbn in C; [injection C as <-; destruct I|].
  destruct (control_ins k s i) as [i'|] eqn:CI; [|discriminate]. destruct (control_all k s l) as [p'|]; [|discriminate]. injection C as <-. destruct I as [<-|I].
  - apply (control_ins_safe k s forb nx nx' i i'); auto. apply SL. left; reflexivity.
  - apply (IH p'); auto. intros x J. apply SL. right; exact J.
Qed.
Lemma safe_ok forb nx nx' l : (forall i, In i l -> safe forb nx nx' i) -> all_ok N l.
Proof. intros H i I. apply H, I. Qed.
(** environments with a truth value inside another environment *)
Lemma tame_control k S S' forb nx nx' L : forall P, sane k forb nx -> (forall q, In q forb -> q < n) -> n <= nx -> (forall i, In i L -> safe forb nx nx' i) -> tame S L -> incl S S' -> control_all k S' L = Some P ->
  (forall psi, sup (ctv k) (act k) psi -> same (run_list P psi) (run_list L psi)) /\ (forall psi, sup (ctv k) (negb (act k)) psi -> same (run_list P psi) (run_list (kept S' L) psi)).
Proof.
  induction L as [|i L IH]; intros P SK FB Hn SL T IN C; cbn in C; [injection C as <-; split; intros; apply same_refl|].
  destruct (control_ins k S' i) as [j|] eqn:CI; [|discriminate]. destruct (control_all k S' L) as [P'|] eqn:CL; [|discriminate]. injection C as <-.
  assert (Si : safe forb nx nx' i) by (apply SL; left; reflexivity). assert (SL' : forall x, In x L -> safe forb nx nx' x) by (intros x J; apply SL; right; exact J).
  destruct (IH P') as [A B]; auto; [intros x J; apply T; right; exact J|]. pose proof (safe_ctv k forb nx nx' i SK FB Hn Si) as NW.
  assert (OP : all_ok N P') by (intros x J; eapply (control_all_safe k S' forb nx nx' L P'); eauto).
  unfold kept. cbn [filter]. destruct (meets (qubits i) S') eqn:M.
  - unfold control_ins in CI. rewrite M in CI. injection CI as <-. split; intros psi H; rewrite !run_cons; [apply A|apply B]; apply ins_sup; auto; apply Si.
  - assert (CJ : j = Ctl (ctv k) (act k) i).
    { destruct (T i (or_introl eq_refl)) as [X|(a & f & t & ->)]; [apply (meets_incl _ S S' IN) in X; congruence|].
      unfold control_ins in CI. rewrite M in CI. destruct (forallb _ _ && _)%bool; [discriminate|]. destruct (mem _ _); [discriminate|]. injection CI as <-. reflexivity. }
    subst j. split; intros psi H; rewrite run_cons.
    + apply same_trans with (run_list P' (run_ins i psi)); [apply run_same; [exact OP|]; apply ctl_on; auto; apply Si|]. rewrite run_cons. apply A, ins_sup; auto; apply Si.
    + apply same_trans with (run_list P' psi); [apply run_same; [exact OP|]; apply ctl_off; auto; apply Si|]. apply B, H.
Qed.
Lemma id_map rho (qs : list nat) : (forall q, In q qs -> rho q = q) -> map rho qs = qs.
Proof. intros H. rewrite <- (map_id qs) at 2. apply map_ext_in, H. Qed.
Lemma gate_safe forb nx o qs : gate_fine n forb (o, qs) -> safe forb nx nx (Do o qs).
Proof.
  intros (Wo & _ & ND & LQ & NE & Q). split; [|split; [|exact NE]].
  - repeat split; auto. intros q I. specialize (Q q I). lia.
  - intros q I. left. apply Q, I.
Qed.
Lemma sane_not k forb nx q : sane k forb nx -> q < n -> ~ In q forb -> q <> ctv k /\ q <> ctv0 k.
Proof. intros [A B] L NI. assert (q <> ctv k) by (intros ->; destruct A as [A|A]; [contradiction|lia]). split; [assumption|]. intros E. destruct B as [B|[B _]]; [congruence|]. rewrite <- E in B. contradiction. Qed.
(** an operation that is nowhere near gets the control *)
Lemma control_gate k forb nx S' o qs : sane k forb nx -> gate_fine n forb (o, qs) -> (forall q, In q S' -> n <= q /\ q <> ctv k) -> control_ins k S' (Do o qs) = Some (Ctl (ctv k) (act k) (Do o qs)).
Proof.
  intros SK (_ & _ & _ & _ & NE & Q) HS. unfold control_ins. cbn [qubits].
  assert (NC : forall q, In q qs -> q <> ctv k) by (intros q I; destruct (Q q I); apply (sane_not k forb nx q); auto).
  rewrite not_meets by (intros q I J; specialize (HS q J); specialize (Q q I); lia).
  destruct qs as [|q qs]; [congruence|]. cbn [forallb]. replace (ctv k =? q) with false by (symmetry; apply Nat.eqb_neq; intros E; apply (NC q); [left; reflexivity|auto]). cbn [andb].
  rewrite not_mem; [reflexivity|]. intros I. apply (NC _ I). reflexivity.
Qed.
Lemma good_gate o qs : good (Gate o qs).
Proof.
  intros forb c ok rho nx L S nx' W SK FB RH Hn C HN. cbn [compile] in C. injection C as <- <- <-. cbn [fine] in W. pose proof W as (_ & _ & _ & _ & _ & Q).
  rewrite (id_map rho qs) by (intros q I; destruct (Q q I); apply RH; assumption).
  split; [intros i [<-|[]]; apply gate_safe, W|]. destruct c as [k|]; [|intros psi _; apply same_refl].
  split; [intros q []|]. split; [discriminate|]. intros S' P _ HS C. cbn [control_all] in C. specialize (SK k eq_refl). rewrite (control_gate k forb nx S' o qs SK W HS) in C. injection C as <-.
  pose proof (gate_safe forb nx o qs W) as G. pose proof (safe_ctv k forb nx nx _ SK FB Hn G) as NW. split.
  - intros psi B [I _]. change (run_list [Ctl (ctv k) (act k) (Do o qs)] psi) with (run_ins (Ctl (ctv k) (act k) (Do o qs)) psi). apply ctl_on; auto. apply G.
  - intros psi B I. change (run_list [Ctl (ctv k) (act k) (Do o qs)] psi) with (run_ins (Ctl (ctv k) (act k) (Do o qs)) psi). apply ctl_off; auto. apply G.
Qed.
(** one after the other *)
Lemma good_plain l : Forall good l -> good (Plain l).
Proof.
  intros F. induction F as [|j l Gj F IH]; intros forb c ok rho nx L S nx' W SK FB RH Hn C HN; cbn [compile seq_all] in C.
  - injection C as <- <- <-. split; [intros i []|]. destruct c as [k|]; [|intros psi _; apply same_refl]. split; [intros q []|]. split; [discriminate|].
    intros S' P _ _ C. injection C as <-. split; intros psi _ _; apply same_refl.
  - destruct (compile rho c nx j) as [[[a s] nx1]|] eqn:CJ; [|discriminate]. fold (@seq_all item) in C. destruct (seq_all (fun nx j => compile rho c nx j) nx1 l) as [[[b s'] nx2]|] eqn:CL; [|discriminate]. injection C as <- <- <-.
    pose proof (compile_mono _ _ _ _ _ _ _ CJ) as M1. pose proof (seq_mono _ l (fun m j L S m' _ H => compile_mono _ _ _ _ _ _ _ H) _ _ _ _ CL) as M2.
    assert (Wj : fine n forb (option_map (fun k => (act k, ok)) c) j) by (apply (proj1 (fine_all_in n forb _ (j :: l)) W); left; reflexivity).
    assert (Wl : fine_all n forb (option_map (fun k => (act k, ok)) c) l) by (apply fine_all_in; intros i I; apply (proj1 (fine_all_in n forb _ (j :: l)) W); right; exact I).
    destruct (Gj forb c ok rho nx a s nx1 Wj SK FB RH Hn CJ ltac:(lia)) as [S1 R1].
    destruct (IH forb c ok rho nx1 b s' nx2 Wl (fun k E => sane_le k forb nx nx1 M1 (SK k E)) FB RH ltac:(lia) CL ltac:(lia)) as [S2 R2].
    assert (S1' : forall i, In i a -> safe forb nx nx2 i) by (intros i I; apply (safe_le forb nx nx1); auto).
    assert (S2' : forall i, In i b -> safe forb nx nx2 i) by (intros i I; apply (safe_le forb nx1 nx2); auto).
    pose proof (mean_moved j forb _ false Wj) as MJ.
    split; [intros i I; apply in_app_or in I as [I|I]; auto|]. destruct c as [k|].
    + destruct R1 as (Q1 & _ & R1). destruct R2 as (Q2 & _ & R2). split; [intros q I; apply in_app_or in I as [I|I]; [specialize (Q1 q I)|specialize (Q2 q I)]; lia|]. split; [discriminate|].
      intros S' P IN HS C. rewrite control_all_app in C. destruct (control_all k S' a) as [pa|] eqn:CA; [|discriminate]. destruct (control_all k S' b) as [pb|] eqn:CB; [|discriminate]. injection C as <-.
      destruct (R1 S' pa) as [ON1 OFF1]; auto; [intros q I; apply IN, in_or_app; auto|]. destruct (R2 S' pb) as [ON2 OFF2]; auto; [intros q I; apply IN, in_or_app; auto|].
      assert (OP : all_ok N pb) by (intros x J; eapply (control_all_safe k S' forb nx nx2 b pb); eauto).
      split; intros psi B I; rewrite run_app.
      * apply same_trans with (run_list pb (meaning false j psi)); [apply run_same; [exact OP|auto]|]. apply ON2.
        -- apply (blank_le rO N n NN nx nx1); [exact M1|]. apply (mean_blank forb); auto.
        -- apply (mean_inside k ok forb nx); auto.
      * apply same_trans with (run_list pb psi); [apply run_same; [exact OP|auto]|]. apply OFF2; [|exact I]. apply (blank_le rO N n NN nx nx1); auto.
    + intros psi B. rewrite run_app. apply same_trans with (run_list b (meaning false j psi)); [apply run_same; [apply (safe_ok forb nx nx2), S2'|]; apply R1, B|]. apply R2.
      apply (blank_le rO N n NN nx nx1); [exact M1|]. apply (mean_blank forb); auto.
Qed.
Lemma good_invert l : Forall good l -> good (Invert l).
Proof.
  intros F forb c ok rho nx L S nx' W SK FB RH Hn C HN. cbn [compile] in C. destruct (seq_all _ nx l) as [[[b s] nx1]|] eqn:CL; [|discriminate].
  destruct (undo_all b) as [b'|] eqn:U; [|discriminate]. injection C as <- <- <-.
  destruct (good_plain l F forb c ok rho nx b s nx1 W SK FB RH Hn CL HN) as [SB RR]. pose proof (safe_ok _ _ _ _ SB) as OB.
  destruct (undo_all_ok N b b' U OB) as [OB' WB].
  assert (SB' : forall i, In i b' -> safe forb nx nx1 i).
  { intros i I. destruct (WB i I) as (j & J & E1 & E2 & _). destruct (SB j J) as (A & B & D). split; [apply OB', I|]. unfold writes. rewrite E1, E2. auto. }
  split; [exact SB'|]. pose proof (through_moved l forb _ true W) as MT. change (meaning false (Invert l)) with (through true l). destruct c as [k|].
  - destruct RR as (Q & _ & RR). split; [exact Q|]. split; [discriminate|]. intros S' P IN HS C. specialize (SK k eq_refl).
    destruct (undo_control_all N k S' b b' P OB) as (p & CP & UP); auto; [intros i I; apply (safe_ctv k forb nx nx1); auto|intros i I; apply SB, I|].
    destruct (RR S' p IN HS CP) as [ON OFF].
    assert (Op : all_ok N p) by (intros x J; eapply (control_all_safe k S' forb nx nx1 b p); eauto).
    assert (OP : all_ok N P) by (apply (undo_all_ok N p P UP Op)).
    split; intros psi B I.
    + set (phi := through true l psi). assert (E : same (run_list p phi) psi).
      { apply same_trans with (through false l phi); [apply ON; [apply (mean_blank forb); auto|apply (mean_inside k ok forb nx); auto]|]. intros x Lx. exact (through_undo l forb _ true W psi x Lx). }
      apply same_trans with (run_list P (run_list p phi)); [apply run_same; [exact OP|]; apply same_sym, E|]. intros x Lx. apply (undo_all_run N p P UP Op phi x Lx).
    + apply same_trans with (run_list P (run_list p psi)); [apply run_same; [exact OP|]; apply same_sym, OFF; auto|]. intros x Lx. apply (undo_all_run N p P UP Op psi x Lx).
  - intros psi B. set (phi := through true l psi). assert (E : same (run_list b phi) psi).
    { apply same_trans with (through false l phi); [apply RR, (mean_blank forb); auto|]. intros x Lx. exact (through_undo l forb _ true W psi x Lx). }
    apply same_trans with (run_list b' (run_list b phi)); [apply run_same; [exact OB'|]; apply same_sym, E|]. intros x Lx. apply (undo_all_run N b b' U OB phi x Lx).
Qed.

(** ** conjugation *)
Definition dos (u : list (qop * list nat)) : list ins := map (fun g => Do (fst g) (snd g)) u.
Definition plain_do (forb : list nat) (nx : nat) (j : ins) : Prop := exists o qs, j = Do o qs /\ safe forb nx nx j /\ forall q, In q qs -> q < n /\ ~ In q forb.
Lemma dos_id rho forb u : (forall q, q < n -> ~ In q forb -> rho q = q) -> (forall g, In g u -> gate_fine n forb g) -> map (fun '(o, qs) => Do o (map rho qs)) u = dos u.
Proof.
  intros RH HU. apply map_ext_in. intros [o qs] I. destruct (HU _ I) as (_ & _ & _ & _ & _ & Q). cbn. rewrite id_map; [reflexivity|]. intros q J. apply RH; apply Q, J.
Qed.
Lemma dos_plain forb nx u : (forall g, In g u -> gate_fine n forb g) -> forall j, In j (dos u) -> plain_do forb nx j.
Proof.
  intros HU j I. apply in_map_iff in I as ([o qs] & <- & I). exists o, qs. split; [reflexivity|]. split; [apply gate_safe, HU, I|]. apply (HU _ I).
Qed.
Lemma run_dos u : forall psi, run_list (dos u) psi = gates_f u psi.
Proof. induction u as [|[o qs] u IH]; intros psi; [reflexivity|]. cbn [dos map]. rewrite run_cons. cbn [fst snd]. apply IH. Qed.
Lemma undo_dos u : forall su, undo_all (dos u) = Some su -> forall psi, run_list su psi = gates_b u psi.
Proof.
  induction u as [|[o qs] u IH]; intros su H psi; cbn in H; [injection H as <-; reflexivity|].
  destruct (inverse Qcopp Qcplus o) as [o'|] eqn:E; [|discriminate]. fold (dos u) in H. destruct (undo_all (dos u)) as [su'|]; [|discriminate]. injection H as <-.
  rewrite run_app, run_cons, (IH su' eq_refl). cbn [EnvMeaning.gates_b fold_right]. unfold EnvSpec.gate at 1. rewrite E. reflexivity.
Qed.
Lemma undo_dos_plain forb nx u su : (forall g, In g u -> gate_fine n forb g) -> undo_all (dos u) = Some su -> forall j, In j su -> plain_do forb nx j.
Proof.
  intros HU H j I. assert (OK : all_ok N (dos u)) by (intros i J; destruct (dos_plain forb nx u HU i J) as (o & qs & -> & S & _); apply S).
  destruct (undo_all_ok N _ _ H OK) as [A B]. destruct (B j I) as (i & J & E1 & E2 & U). destruct (dos_plain forb nx u HU i J) as (o & qs & -> & S & Q).
  cbn in U. destruct (inverse Qcopp Qcplus o) as [o'|]; [|discriminate]. injection U as <-. exists o', qs. split; [reflexivity|]. split; [|exact Q]. split; [apply A, I|exact (proj2 S)].
Qed.
Section conj.
Context (k : env) (forb : list nat) (nx : nat) (SK : sane k forb nx) (FB : forall q, In q forb -> q < n) (Hn : n <= nx) (HN : nx <= N).
Context (S' : list nat) (HS : forall q, In q S' -> n <= q /\ q <> ctv k).
Lemma ctv_lt : ctv k < N. Proof. destruct SK as [[A|A] _]; [specialize (FB _ A)|]; lia. Qed.
Lemma ctv0_not : ~ In (ctv0 k) S'. Proof. intros I. destruct (HS _ I) as [A B]. destruct SK as [_ [E|(E & _)]]; [congruence|]. specialize (FB _ E). lia. Qed.
Lemma plain_not j : plain_do forb nx j -> ~ In (ctv k) (qubits j) /\ ~ In (ctv0 k) (qubits j) /\ meets (qubits j) S' = false /\ written j = qubits j /\ ins_ok N j.
Proof.
  intros (o & qs & -> & S & Q). cbn [qubits written]. repeat split.
  - intros I. destruct (Q _ I) as [A B]. apply (proj1 (sane_not k forb nx _ SK A B)). reflexivity.
  - intros I. destruct (Q _ I) as [A B]. apply (proj2 (sane_not k forb nx _ SK A B)). reflexivity.
  - apply not_meets. intros q I J. destruct (HS _ J), (Q _ I). lia.
  - apply S. - apply S. - apply S. - apply S.
Qed.
Definition zed (i : ins) : ins := if ctv0 k =? ctv k then (if act k then i else Flanked (ctv k) i) else Ctl (ctv k) (act k) i.
Lemma control_do j : plain_do forb nx j -> control_ins k S' (cu_wrap (ctv0 k) j) = Some (zed (Cu (Some (ctv0 k)) j)).
Proof.
  intros PJ. destruct (plain_not j PJ) as (A & B & M & _). unfold cu_wrap. rewrite not_mem by exact B. unfold control_ins. cbn [qubits is_cu].
  rewrite not_meets by (intros q [<-|I] J; [apply ctv0_not, J|]; assert (meets (qubits j) S' = true) by (apply meets_In; eauto); congruence). rewrite andb_false_r.
  unfold zed. destruct (ctv0 k =? ctv k) eqn:E.
  - apply Nat.eqb_eq in E. rewrite E. replace (mem (ctv k) (ctv k :: qubits j)) with true by (symmetry; apply mem_In; left; reflexivity). reflexivity.
  - apply Nat.eqb_neq in E. rewrite not_mem; [reflexivity|]. intros [I|I]; [congruence|contradiction].
Qed.
Lemma control_ctl j : plain_do forb nx j -> control_ins k S' (cu_wrap (ctv0 k) (Ctl (ctv0 k) true j)) = Some (zed (Cu None (Ctl (ctv0 k) true j))).
Proof.
  intros PJ. destruct (plain_not j PJ) as (A & B & M & _). unfold cu_wrap. cbn [qubits]. replace (mem (ctv0 k) (ctv0 k :: qubits j)) with true by (symmetry; apply mem_In; left; reflexivity). unfold control_ins. cbn [qubits is_cu].
  rewrite not_meets by (intros q [<-|I] J; [apply ctv0_not, J|]; assert (meets (qubits j) S' = true) by (apply meets_In; eauto); congruence). rewrite andb_false_r.
  unfold zed. destruct (ctv0 k =? ctv k) eqn:E.
  - apply Nat.eqb_eq in E. rewrite E. replace (mem (ctv k) (ctv k :: qubits j)) with true by (symmetry; apply mem_In; left; reflexivity). reflexivity.
  - apply Nat.eqb_neq in E. rewrite not_mem; [reflexivity|]. intros [I|I]; [congruence|contradiction].
Qed.
(** flanked by x, an instruction that is not on the qubit is itself *)
Lemma flanked_off i q psi : ins_ok N i -> ~ In q (qubits i) -> same (run_ins (Flanked q i) psi) (run_ins i psi).
Proof.
  intros W NQ x Lx. cbn [EnvSpec.run_ins]. set (h := fun y => flip_at y q).
  rewrite (ins_ext N i W _ (moved (fun _ => rI) h psi)) by (intros y _; unfold QpeProofs.moved, h; ring).
  rewrite (ins_moved rO rI radd rmul rsub ropp RT expi chalf shalf im ph N i W (fun _ => rI) h).
  - unfold h. rewrite flip_flip. ring.
  - intros y p I. apply flip_other. intros ->. contradiction.
  - intros y p a I. unfold h, flip_at. rewrite getbit_set_other by (intros ->; contradiction). apply setbit_comm. intros ->; contradiction.
  - reflexivity.
Qed.
Lemma zed_do j psi : plain_do forb nx j ->
  (sup (ctv k) (act k) psi -> same (run_ins (zed (Cu (Some (ctv0 k)) j)) psi) (run_ins j psi)) /\
  (sup (ctv k) (negb (act k)) psi -> same (run_ins (zed (Cu (Some (ctv0 k)) j)) psi) (if ctv0 k =? ctv k then run_ins j psi else psi)).
Proof.
  intros PJ. destruct (plain_not j PJ) as (A & B & M & WR & OK). unfold zed. destruct (ctv0 k =? ctv k).
  - assert (E : same (run_ins (if act k then Cu (Some (ctv0 k)) j else Flanked (ctv k) (Cu (Some (ctv0 k)) j)) psi) (run_ins j psi)).
    { destruct (act k); [apply same_refl|]. exact (flanked_off j (ctv k) psi OK A). }
    split; intros _; exact E.
  - split; intros H.
    + apply (ctl_on (Cu (Some (ctv0 k)) j)); auto. cbn [written]. rewrite WR. exact A.
    + apply (ctl_off (Cu (Some (ctv0 k)) j)); auto. cbn [written]. rewrite WR. exact A.
Qed.
Lemma zed_ctl j psi : plain_do forb nx j ->
  (inside k true psi -> same (run_ins (zed (Cu None (Ctl (ctv0 k) true j))) psi) (run_ins j psi)) /\
  (sup (ctv k) (negb (act k)) psi -> same (run_ins (zed (Cu None (Ctl (ctv0 k) true j))) psi) psi).
Proof.
  intros PJ. destruct (plain_not j PJ) as (A & B & M & WR & OK). assert (A' : ~ In (ctv k) (written j)) by (rewrite WR; exact A). assert (B' : ~ In (ctv0 k) (written j)) by (rewrite WR; exact B).
  unfold zed. destruct (ctv0 k =? ctv k) eqn:E.
  - apply Nat.eqb_eq in E. rewrite E.
    assert (EQ : same (run_ins (if act k then Cu None (Ctl (ctv k) true j) else Flanked (ctv k) (Cu None (Ctl (ctv k) true j))) psi) (run_ins (Ctl (ctv k) (act k) j) psi)).
    { destruct (act k); [apply same_refl|]. intros x Lx. cbn [EnvSpec.run_ins]. pose proof ctv_lt as CL. rewrite flip_same by lia. rewrite flip_flip.
      pose proof (flanked_off j (ctv k) psi OK A x Lx) as FO. cbn [EnvSpec.run_ins] in FO. rewrite FO. destruct (getbit x (ctv k)); reflexivity. }
    split; intros H; (eapply same_trans; [exact EQ|]); [apply ctl_on; auto; apply H|apply ctl_off; auto].
  - apply Nat.eqb_neq in E. split; intros H.
    + destruct H as [H1 H2]. eapply same_trans; [apply (ctl_on (Cu None (Ctl (ctv0 k) true j))); [cbn [ins_ok]; auto|exact A'|exact H1]|]. apply ctl_on; auto.
    + apply (ctl_off (Cu None (Ctl (ctv0 k) true j))); [cbn [ins_ok]; auto|exact A'|exact H].
Qed.
Lemma zed_ok_do j : plain_do forb nx j -> ins_ok N (zed (Cu (Some (ctv0 k)) j)).
Proof.
  intros PJ. destruct (plain_not j PJ) as (A & B & M & WR & OK). unfold zed. destruct (ctv0 k =? ctv k) eqn:E; [destruct (act k)|]; cbn [ins_ok qubits written]; rewrite ?WR; auto.
  apply Nat.eqb_eq in E. repeat split; auto. left. exact E.
Qed.
Lemma zed_ok_ctl j : plain_do forb nx j -> ins_ok N (zed (Cu None (Ctl (ctv0 k) true j))).
Proof.
  intros PJ. destruct (plain_not j PJ) as (A & B & M & WR & OK). unfold zed. destruct (ctv0 k =? ctv k) eqn:E; [destruct (act k)|]; cbn [ins_ok qubits written]; rewrite ?WR; auto.
  apply Nat.eqb_eq in E. repeat split; auto. left. exact E.
Qed.
Lemma control_dos l : forall p, (forall j, In j l -> plain_do forb nx j) -> control_all k S' (map (cu_wrap (ctv0 k)) l) = Some p ->
  all_ok N p /\ (forall psi, sup (ctv k) (act k) psi -> same (run_list p psi) (run_list l psi)) /\ (forall psi, sup (ctv k) (negb (act k)) psi -> same (run_list p psi) (if ctv0 k =? ctv k then run_list l psi else psi)).
Proof.
  induction l as [|j l IH]; intros p PL C; cbn [map control_all] in C.
  - injection C as <-. split; [intros i []|]. split; intros psi _; [apply same_refl|destruct (ctv0 k =? ctv k); apply same_refl].
  - assert (PJ : plain_do forb nx j) by (apply PL; left; reflexivity). rewrite (control_do j PJ) in C. destruct (control_all k S' _) as [p'|]; [|discriminate]. injection C as <-.
    destruct (IH p' (fun i I => PL i (or_intror I)) eq_refl) as (OK & ON & OFF). destruct (plain_not j PJ) as (A & B & M & WR & OJ).
    split; [intros i [<-|I]; [apply zed_ok_do, PJ|apply OK, I]|]. split; intros psi H; rewrite !run_cons; destruct (zed_do j psi PJ) as [Z1 Z2].
    + eapply same_trans; [apply run_same; [exact OK|apply Z1, H]|]. apply ON. apply ins_sup; auto. rewrite WR. exact A.
    + eapply same_trans; [apply run_same; [exact OK|apply Z2, H]|]. destruct (ctv0 k =? ctv k); apply OFF; [|exact H]. apply ins_sup; auto. rewrite WR. exact A.
Qed.
Lemma control_ctls l : forall p, (forall j, In j l -> plain_do forb nx j) -> control_all k S' (map (cu_wrap (ctv0 k)) (map (Ctl (ctv0 k) true) l)) = Some p ->
  all_ok N p /\ (forall psi, inside k true psi -> same (run_list p psi) (run_list l psi)) /\ (forall psi, sup (ctv k) (negb (act k)) psi -> same (run_list p psi) psi).
Proof.
  induction l as [|j l IH]; intros p PL C; cbn [map control_all] in C.
  - injection C as <-. split; [intros i []|]. split; intros psi _; apply same_refl.
  - assert (PJ : plain_do forb nx j) by (apply PL; left; reflexivity). rewrite (control_ctl j PJ) in C. destruct (control_all k S' _) as [p'|]; [|discriminate]. injection C as <-.
    destruct (IH p' (fun i I => PL i (or_intror I)) eq_refl) as (OK & ON & OFF). destruct (plain_not j PJ) as (A & B & M & WR & OJ).
    split; [intros i [<-|I]; [apply zed_ok_ctl, PJ|apply OK, I]|]. split; intros psi H; rewrite !run_cons; destruct (zed_ctl j psi PJ) as [Z1 Z2].
    + eapply same_trans; [apply run_same; [exact OK|apply Z1, H]|]. apply ON. destruct H as [H1 H2]. split; [|intros O NE; specialize (H2 O NE)]; apply ins_sup; auto; rewrite WR; assumption.
    + eapply same_trans; [apply run_same; [exact OK|apply Z2, H]|]. apply OFF, H.
Qed.
End conj.
(** conjugation operations as items *)
Definition items (u : list (qop * list nat)) : list item := map (fun g => Gate (fst g) (snd g)) u.
Lemma items_fine forb u : (forall g, In g u -> gate_fine n forb g) -> fine_all n forb None (items u).
Proof. intros H. apply fine_all_in. intros j I. apply in_map_iff in I as ([o qs] & <- & I). exact (H _ I). Qed.
Lemma items_f u : forall psi, through false (items u) psi = gates_f u psi.
Proof. induction u as [|[o qs] u IH]; intros psi; [reflexivity|]. cbn [items map]. rewrite through_f. apply IH. Qed.
Lemma items_b u psi : through true (items u) psi = gates_b u psi.
Proof. induction u as [|[o qs] u IH]; [reflexivity|]. cbn [items map]. rewrite through_b. fold (items u). rewrite IH. reflexivity. Qed.
Lemma seq_gates c (k' : env) forb nx rho body : sane k' forb nx -> (forall q, q < n -> ~ In q forb -> rho q = q) -> act k' = true ->
  (forall j, In j body -> exists o qs, j = Gate o qs /\ gate_fine n forb (o, qs)) -> forall l s nx', seq_all (fun nx j => content k' false (compile rho c nx j) j) nx body = Some (l, s, nx') ->
  s = [] /\ nx' = nx /\ exists gs, (forall g, In g gs -> gate_fine n forb g) /\ l = map (Ctl (ctv k') true) (dos gs) /\ forall psi, through false body psi = gates_f gs psi.
Proof.
  intros SK RH AK. induction body as [|j body IH]; intros HB l s nx' C; cbn [seq_all] in C.
  - injection C as <- <- <-. repeat split. exists []. split; [intros g []|]. split; reflexivity.
  - destruct (HB j (or_introl eq_refl)) as (o & qs & -> & W). cbn [compile content is_cond] in C.
    rewrite id_map in C by (intros q I; destruct W as (_ & _ & _ & _ & _ & Q); apply RH; apply Q, I). cbn [control_all] in C.
    rewrite (control_gate k' forb nx [] o qs SK W) in C by (intros q []). fold (@seq_all item) in C.
    destruct (seq_all _ nx body) as [[[b s'] nx2]|] eqn:CL; [|discriminate]. injection C as <- <- <-.
    destruct (IH (fun i I => HB i (or_intror I)) _ _ _ eq_refl) as (-> & -> & gs & HG & -> & TH). repeat split. exists ((o, qs) :: gs).
    split; [intros g [<-|I]; [exact W|apply HG, I]|]. split; [cbn [dos map fst snd app]; rewrite AK; reflexivity|].
    intros psi. rewrite through_f, TH. reflexivity.
Qed.
Lemma good_conj u body : Forall good body -> good (Conj u body).
Proof.
  intros F forb c ok rho nx L S nx' W SK FB RH Hn C HN. cbn [compile] in C. cbn [fine] in W. destruct W as [HU W].
  rewrite (dos_id rho forb u RH HU) in C. destruct (undo_all (dos u)) as [su|] eqn:U; [|discriminate].
  pose proof (run_dos u) as RU. pose proof (undo_dos u su U) as RS. 
  destruct c as [k|].
  - cbn [option_map] in W. destruct W as [OK HB]. specialize (SK k eq_refl). set (k' := {| ctv := ctv0 k; ctv0 := ctv0 k; act := true |}) in *.
    destruct (seq_all _ nx body) as [[[l s] nx1]|] eqn:CL; [|discriminate]. injection C as <- <- <-.
    assert (SK' : sane k' forb nx) by (destruct SK as [A B]; split; [destruct B as [B|[B _]]; cbn; [rewrite B; exact A|left; exact B]|left; reflexivity]).
    destruct (seq_gates (Some k) k' forb nx rho body SK' RH eq_refl HB _ _ _ CL) as (-> & -> & gs & HG & -> & TH). cbn [ctv k'] in *.
    assert (RF : reflip k' (map (Ctl (ctv0 k) true) (dos gs)) = []) by (unfold reflip; replace (filter (is_flip k') (map (Ctl (ctv0 k) true) (dos gs))) with (@nil ins); [reflexivity|]; clear; induction gs as [|g gs IH]; [reflexivity|exact IH]).
    rewrite RF. cbn [app]. pose proof (fun nx => dos_plain forb nx u HU) as PU. pose proof (fun nx => dos_plain forb nx gs HG) as PG. pose proof (fun nx => undo_dos_plain forb nx u su HU U) as PS.
    split.
    + intros i I. apply in_map_iff in I as (j & <- & I).
      assert (G : (plain_do forb nx j -> safe forb nx nx (cu_wrap (ctv0 k) j)) /\ forall j', j = Ctl (ctv0 k) true j' -> plain_do forb nx j' -> safe forb nx nx (cu_wrap (ctv0 k) j)).
      { split.
        - intros (o & qs & -> & (A & B & D) & Q). unfold cu_wrap. destruct (mem _ _); (split; [exact A|split; [exact B|]]); [exact D|discriminate].
        - intros j' -> PJ. pose proof PJ as (o & qs & -> & (A & B & D) & Q). unfold cu_wrap. cbn [qubits]. replace (mem (ctv0 k) (ctv0 k :: qs)) with true by (symmetry; apply mem_In; left; reflexivity).
          split; [|split; [exact B|discriminate]]. cbn [ins_ok]. split; [|exact A]. cbn [written]. intros J. destruct (Q _ J) as [Q1 Q2]. apply (proj2 (sane_not k forb nx _ SK Q1 Q2)). reflexivity. }
      apply in_app_or in I as [I|I]; [apply G, PU, I|]. apply in_app_or in I as [I|I]; [|apply G, (PS nx), I]. apply in_map_iff in I as (j' & <- & I). eapply G; [reflexivity|]. apply PG, I.
    + split; [intros q []|]. split; [discriminate|]. intros S' P IN HS C. rewrite !map_app, !control_all_app in C.
      destruct (control_all k S' (map (cu_wrap (ctv0 k)) (dos u))) as [p1|] eqn:C1; [|discriminate].
      destruct (control_all k S' (map (cu_wrap (ctv0 k)) (map _ (dos gs)))) as [p2|] eqn:C2; [|discriminate].
      destruct (control_all k S' (map (cu_wrap (ctv0 k)) su)) as [p3|] eqn:C3; [|discriminate]. injection C as <-.
      destruct (control_dos k forb nx SK FB Hn HN S' HS (dos u) p1 (PU nx) C1) as (O1 & ON1 & OFF1).
      destruct (control_ctls k forb nx SK FB Hn HN S' HS (dos gs) p2 (PG nx) C2) as (O2 & ON2 & OFF2).
      destruct (control_dos k forb nx SK FB Hn HN S' HS su p3 (PS nx) C3) as (O3 & ON3 & OFF3).
      pose proof (items_fine forb u HU) as FU. pose proof (items_fine forb gs HG) as FG.
      assert (OO : all_ok N (p1 ++ p2 ++ p3)) by (intros i I; apply in_app_or in I as [I|I]; [apply O1, I|]; apply in_app_or in I as [I|I]; [apply O2, I|apply O3, I]).
      split; intros psi B I; rewrite !run_app.
      * assert (I1 : inside k ok (gates_f u psi)) by (rewrite <- items_f; apply (mean_inside k ok forb nx); auto; apply (through_moved _ forb None), FU).
        assert (I2 : inside k ok (gates_f gs (gates_f u psi))) by (rewrite <- (items_f gs); apply (mean_inside k ok forb nx); auto; apply (through_moved _ forb None), FG).
        apply same_trans with (run_list p3 (run_list p2 (gates_f u psi))); [apply run_same; [exact O3|]; apply run_same; [exact O2|]; rewrite <- RU; apply ON1, I|].
        apply same_trans with (run_list p3 (gates_f gs (gates_f u psi))); [apply run_same; [exact O3|]; rewrite <- (run_dos gs); apply ON2; rewrite OK in I1; exact I1|].
        eapply same_trans; [apply ON3, I2|]. rewrite RS, <- TH. apply same_refl.
      * assert (I1 : sup (ctv k) (negb (act k)) (gates_f u psi)) by (rewrite <- items_f; apply (mean_sup forb); auto; [apply (through_moved _ forb None), FU|destruct SK as [[A|A] _]; [right; exact A|left; lia]]).
        destruct (ctv0 k =? ctv k) eqn:E.
        -- apply same_trans with (run_list p3 (run_list p2 (gates_f u psi))); [apply run_same; [exact O3|]; apply run_same; [exact O2|]; rewrite <- RU; apply OFF1, I|].
           apply same_trans with (run_list p3 (gates_f u psi)); [apply run_same; [exact O3|]; apply OFF2, I1|].
           eapply same_trans; [apply OFF3, I1|]. rewrite RS. intros x Lx. apply (gates_undo rO rI radd rmul rsub ropp RT expi chalf shalf im EU N n NN forb u HU psi x Lx).
        -- apply same_trans with (run_list p3 (run_list p2 psi)); [apply run_same; [exact O3|]; apply run_same; [exact O2|]; apply OFF1, I|].
           apply same_trans with (run_list p3 psi); [apply run_same; [exact O3|]; apply OFF2, I|]. apply OFF3, I.
  - destruct (seq_all _ nx body) as [[[l s] nx1]|] eqn:CL; [|discriminate]. injection C as <- <- <-.
    assert (Hb : nx1 <= N) by exact HN. destruct (good_plain body F forb None ok rho nx l s nx1 W SK FB RH Hn CL HN) as [SB RR]. pose proof (fun nx => dos_plain forb nx u HU) as PU. pose proof (fun nx => undo_dos_plain forb nx u su HU U) as PS.
    assert (M1 : nx <= nx1) by (apply (seq_mono _ body (fun m j L S m' _ H => compile_mono _ _ _ _ _ _ _ H) _ _ _ _ CL)).
    assert (PP : forall j, plain_do forb nx j -> safe forb nx nx1 j) by (intros j (o & qs & _ & S & _); apply (safe_le forb nx nx); auto).
    assert (SS : forall i, In i (dos u ++ l ++ su) -> safe forb nx nx1 i) by (intros i I; apply in_app_or in I as [I|I]; [apply PP, PU, I|]; apply in_app_or in I as [I|I]; [apply SB, I|apply PP, (PS nx), I]).
    split; [exact SS|]. intros psi B. rewrite !run_app, RU. pose proof (items_fine forb u HU) as FU.
    change (meaning false (Conj u body) psi) with (gates_b u (through false body (gates_f u psi))). rewrite <- RS.
    apply run_same; [intros i I; apply SS, in_or_app; right; apply in_or_app; right; exact I|]. apply RR. rewrite <- items_f. apply (mean_blank forb); auto. apply (through_moved _ forb None), FU.
Qed.

(** ** the content of an environment with a truth value *)
Lemma kept_app S' a b : kept S' (a ++ b) = kept S' a ++ kept S' b. Proof. apply filter_app. Qed.
Lemma kept_ok S' a : all_ok N a -> all_ok N (kept S' a). Proof. intros H i I. apply filter_In in I. apply H, I. Qed.
Definition contained (k : env) (ok : bool) (forb : list nat) (nx : nat) (l : list ins) (s : list nat) (nx' : nat) (F : amp -> amp) : Prop :=
  (forall i, In i l -> safe forb nx nx' i) /\ (forall q, In q s -> nx <= q < nx') /\ (forall i, In i l -> meets (qubits i) s = true \/ In (ctv k) (qubits i) \/ is_eval i) /\
  On k ok nx (run_list l) F /\ Off k nx (run_list l) /\ forall S', incl s S' -> In (ctv k) S' -> Off k nx (run_list (kept S' l)).
Lemma content_one j k ok forb rho nx l s nx' : good j -> fine n forb (Some (act k, ok)) j -> sane k forb nx -> (forall q, In q forb -> q < n) -> (forall q, q < n -> ~ In q forb -> rho q = q) -> n <= nx ->
  content k true (compile rho (Some k) nx j) j = Some (l, s, nx') -> nx' <= N -> contained k ok forb nx l s nx' (meaning false j).
Proof.
  intros G W SK FB RH Hn C HN. destruct (compile rho (Some k) nx j) as [[[L S] m]|] eqn:CJ; [|discriminate]. cbn [content] in C.
  assert (SK' : forall k0, Some k = Some k0 -> sane k0 forb nx) by (intros k0 E; injection E as <-; exact SK).
  destruct (is_cond j) eqn:IC.
  - injection C as <- <- <-. destruct (G forb (Some k) ok rho nx L S m W SK' FB RH Hn CJ HN) as [S1 (Q & CO & _)]. destruct (CO IC) as (T & ON & OFF & KE).
    split; [exact S1|]. split; [exact Q|]. split; [intros i I; destruct (T i I); auto|]. split; [exact ON|]. split; [exact OFF|]. intros S' IN _. apply KE, IN.
  - destruct (control_all k S L) as [P|] eqn:CA; [|discriminate]. injection C as <- <- <-. destruct (G forb (Some k) ok rho nx L S m W SK' FB RH Hn CJ HN) as [S1 (Q & _ & CO)].
    destruct (CO S P (incl_refl S)) as [ON OFF]; [|exact CA|].
    + intros q I. specialize (Q q I). split; [lia|]. destruct SK as [[A|A] _]; [specialize (FB _ A)|]; lia.
    + pose proof (control_all_safe k S forb nx m L P SK FB Hn S1 CA) as CS.
      split; [intros i I; apply CS, I|]. split; [exact Q|]. split; [intros i I; destruct (CS i I) as [_ [X|X]]; auto|]. split; [exact ON|]. split; [exact OFF|].
      intros S' IN IK. unfold kept. rewrite filter_all; [exact OFF|]. intros i I. destruct (CS i I) as [_ [X|X]]; [apply (meets_incl _ S S' IN), X|apply meets_In; eauto].
Qed.
Lemma content_good body : Forall good body -> forall k ok forb rho nx l s nx', fine_all n forb (Some (act k, ok)) body -> sane k forb nx -> (forall q, In q forb -> q < n) -> (forall q, q < n -> ~ In q forb -> rho q = q) -> n <= nx ->
  seq_all (fun nx j => content k true (compile rho (Some k) nx j) j) nx body = Some (l, s, nx') -> nx' <= N -> nx <= nx' /\ contained k ok forb nx l s nx' (through false body).
Proof.
  intros F. induction F as [|j body Gj F IH]; intros k ok forb rho nx l s nx' W SK FB RH Hn C HN; cbn [seq_all] in C.
  - injection C as <- <- <-. split; [lia|]. split; [intros i []|]. split; [intros q []|]. split; [intros i []|]. split; [|split]; intros; intros psi _ _; apply same_refl.
  - destruct (content k true (compile rho (Some k) nx j) j) as [[[a s1] nx1]|] eqn:CJ; [|discriminate]. fold (@seq_all item) in C.
    destruct (seq_all _ nx1 body) as [[[b s2] nx2]|] eqn:CL; [|discriminate]. injection C as <- <- <-.
    assert (M1 : nx <= nx1) by (apply content_next in CJ as [L' CJ]; apply (compile_mono _ _ _ _ _ _ _ CJ)).
    assert (Wj : fine n forb (Some (act k, ok)) j) by (apply (proj1 (fine_all_in n forb _ (j :: body)) W); left; reflexivity).
    assert (Wl : fine_all n forb (Some (act k, ok)) body) by (apply fine_all_in; intros i I; apply (proj1 (fine_all_in n forb _ (j :: body)) W); right; exact I).
    destruct (IH k ok forb rho nx1 b s2 nx2 Wl (sane_le k forb nx nx1 M1 SK) FB RH ltac:(lia) CL HN) as (M2 & S2 & Q2 & T2 & ON2 & OFF2 & KE2).
    destruct (content_one j k ok forb rho nx a s1 nx1 Gj Wj SK FB RH Hn CJ ltac:(lia)) as (S1 & Q1 & T1 & ON1 & OFF1 & KE1).
    pose proof (mean_moved j forb _ false Wj) as MJ. pose proof (safe_ok _ _ _ _ S2) as O2.
    split; [lia|]. split; [intros i I; apply in_app_or in I as [I|I]; [apply (safe_le forb nx nx1)|apply (safe_le forb nx1 nx2)]; auto|].
    split; [intros q I; apply in_app_or in I as [I|I]; [specialize (Q1 q I)|specialize (Q2 q I)]; lia|].
    split; [intros i I; apply in_app_or in I as [I|I]; [destruct (T1 i I) as [X|X]; auto; left; apply (meets_incl _ s1); auto; apply incl_appl, incl_refl|destruct (T2 i I) as [X|X]; auto; left; apply (meets_incl _ s2); auto; apply incl_appr, incl_refl]|].
    split; [|split].
    + intros psi B I. rewrite run_app. apply same_trans with (run_list b (meaning false j psi)); [apply run_same; [exact O2|auto]|]. rewrite through_f. apply ON2.
      * apply (blank_le rO N n NN nx nx1); [exact M1|]. apply (mean_blank forb); auto.
      * apply (mean_inside k ok forb nx); auto.
    + intros psi B I. rewrite run_app. apply same_trans with (run_list b psi); [apply run_same; [exact O2|auto]|]. apply OFF2; [|exact I]. apply (blank_le rO N n NN nx nx1); auto.
    + intros S' IN IK psi B I. rewrite kept_app, run_app. apply same_trans with (run_list (kept S' b) psi).
      * apply run_same; [apply kept_ok, O2|]. apply (KE1 S'); auto. intros q J. apply IN, in_or_app; auto.
      * apply (KE2 S'); auto; [intros q J; apply IN, in_or_app; auto|]. apply (blank_le rO N n NN nx nx1); auto.
Qed.
Lemma reflip_nil k l : (forall i, In i l -> ~ In (ctv k) (written i)) -> reflip k l = [].
Proof.
  intros H. unfold reflip. replace (filter (is_flip k) l) with (@nil ins); [reflexivity|]. induction l as [|i l IH]; [reflexivity|]. cbn [filter].
  replace (is_flip k i) with false; [apply IH; intros j I; apply H; right; exact I|]. specialize (H i (or_introl eq_refl)). destruct i as [o [|q [|r qs]]| | | | |]; try reflexivity.
  cbn in *. destruct (is_x o); [|reflexivity]. cbn. symmetry. apply Nat.eqb_neq. intros E. apply H. left. exact E.
Qed.

(** ** computing a truth value, the content, uncomputing it *)
Lemma id_moved forb : p_moved forb (fun psi => psi). Proof. split; [intros psi phi x H; apply H; reflexivity|]. intros g h _ _ _ psi x. reflexivity. Qed.
Lemma run_sum l phi chi : same (run_list l (fun x => radd (phi x) (chi x))) (fun x => radd (run_list l phi x) (run_list l chi x)).
Proof. intros x _. apply (list_sum l phi chi). reflexivity. Qed.
Section brk.
Context (t m0 : nat) (Ht : n <= t < m0) (Hm : m0 <= N) (m : list bool -> bool) (s : list bool -> bool -> Qc) (forb : list nat).
Context (mt : forall x a, m (setbit x t a) = m x) (st : forall x a, s (setbit x t a) = s x).
Context (mq : forall x q a, q < n -> ~ In q forb -> m (setbit x q a) = m x) (sq : forall x q a, q < n -> ~ In q forb -> s (setbit x q a) = s x).
Context (i1 i2 : ins) (OK2 : ins_ok N i2).
Context (PRE : forall psi, same (run_ins i1 psi) (fun x => rmul (expi (s x (getbit x t))) (psi (to t m x)))) (POST : forall psi, same (run_ins i2 psi) (fun x => rmul (expi (- s x (getbit (to t m x) t))%Qc) (psi (to t m x)))).
Context (k : env) (KT : ctv k = t) (ok : bool) (l : list ins) (sb : list nat) (nx' : nat) (F : amp -> amp) (CON : contained k ok forb m0 l sb nx' F) (MF : p_moved forb F).
Context (H0 : ok = true -> ctv0 k <> t -> forall x, m x = act k -> getbit x (ctv0 k) = true).
Let HtN : n <= t < N. Proof. lia. Qed.
Notation part := (part rO rmul expi t m s).
Lemma part_blank c psi : sup t false psi -> blank m0 psi -> blank m0 (part c psi).
Proof. intros _ B. apply (blank_sup rO N). intros q Q. apply (part_other rO rI radd rmul rsub ropp RT); [lia|]. apply (proj1 (blank_sup rO N m0 psi) B q Q). Qed.
Lemma run_flank l' psi : run_list (i1 :: l' ++ [i2]) psi = run_ins i2 (run_list l' (run_ins i1 psi)).
Proof. rewrite run_cons, run_app. reflexivity. Qed.
Lemma brk_on psi : sup t false psi -> blank m0 psi -> same (run_list (i1 :: l ++ [i2]) psi) (fun x => if Bool.eqb (m x) (act k) then F psi x else psi x).
Proof.
  intros SU B. rewrite run_flank. destruct CON as (SA & _ & _ & ON & OFF & _). pose proof (safe_ok _ _ _ _ SA) as OL.
  apply (bracket rO rI radd rmul rsub ropp RT expi chalf shalf im EU N n NN t HtN m s forb mt st mq sq (run_ins i1) (run_ins i2) (run_list l) F (act k) PRE POST MF); auto.
  - intros phi chi E. apply run_same; auto. - apply run_sum. - intros phi chi E. apply ins_same; auto.
  - apply ON; [apply part_blank; auto|]. split; [rewrite KT; apply (part_sup rO rI radd rmul rsub ropp RT)|]. intros O NE. rewrite KT in NE. intros x Lx G.
    apply (part_zero rO rI radd rmul rsub ropp RT). intros E. apply G, H0; auto.
  - apply OFF; [apply part_blank; auto|]. rewrite KT. apply (part_sup rO rI radd rmul rsub ropp RT).
Qed.
Lemma brk_off l' psi : l' = l \/ (exists S', incl sb S' /\ In t S' /\ l' = kept S' l) -> sup t false psi -> blank m0 psi -> (forall x, length x = N -> m x = act k -> psi x = rO) -> same (run_list (i1 :: l' ++ [i2]) psi) psi.
Proof.
  intros HL SU B HZ. rewrite run_flank. destruct CON as (SA & _ & _ & _ & OFF & KE). pose proof (safe_ok _ _ _ _ SA) as OL.
  assert (OL' : all_ok N l') by (destruct HL as [->|(S' & _ & _ & ->)]; [exact OL|apply kept_ok, OL]).
  assert (OFF' : Off k m0 (run_list l')) by (destruct HL as [->|(S' & A1 & A2 & ->)]; [exact OFF|apply KE; [exact A1|rewrite KT; exact A2]]).
  apply (bracket_off rO rI radd rmul rsub ropp RT expi chalf shalf im EU N n NN t HtN m s forb mt st mq sq (run_ins i1) (run_ins i2) (run_list l') F (act k) PRE POST MF); auto.
  - intros phi chi E. apply run_same; auto. - apply run_sum. - intros phi chi E. apply ins_same; auto.
  - intros c. destruct (Bool.eqb c (act k)) eqn:E.
    + apply eqb_prop in E. subst c.
      assert (Z : same (part (act k) psi) (fun _ => rO)).
      { intros x Lx. unfold EnvProofs.part, QpeProofs.moved. destruct (Bool.eqb (m x) (act k)) eqn:E; [|rewrite andb_false_r; ring]. apply eqb_prop in E.
        rewrite (HZ (setbit x t false)); [ring|rewrite setbit_length; exact Lx|rewrite mt; exact E]. }
      eapply same_trans; [apply run_same; [exact OL'|exact Z]|]. eapply same_trans; [|apply same_sym, Z]. intros x _. apply list_zero.
    + replace c with (negb (act k)) by (destruct c, (act k); cbn in *; congruence). apply OFF'; [apply part_blank; auto|]. rewrite KT. apply (part_sup rO rI radd rmul rsub ropp RT).
Qed.
End brk.
Lemma eqb_flag (a b : bool) : Bool.eqb a (negb b) = xorb b a. Proof. destruct a, b; reflexivity. Qed.
Lemma bits_eqb_snoc a b c d : length a = length b -> bits_eqb (a ++ [c]) (b ++ [d]) = bits_eqb a b && Bool.eqb c d.
Proof. revert b. induction a as [|x a IH]; intros [|y b] E; try discriminate; cbn [app bits_eqb]; [apply andb_comm|]. cbn [length] in E. rewrite IH by congruence. apply andb_assoc. Qed.
(** the two phase-tolerant mcx *)
Lemma mcx_pre cs st t psi : same (run_ins (Mcx false cs st t) psi) (fun x => rmul (expi (ph st (map (getbit x) cs) (getbit x t))) (psi (to t (fun x => bits_eqb (map (getbit x) cs) st) x))).
Proof. intros x _. reflexivity. Qed.
Lemma mcx_post cs st t psi : same (run_ins (Mcx true cs st t) psi) (fun x => rmul (expi (- ph st (map (getbit x) cs) (getbit (to t (fun x => bits_eqb (map (getbit x) cs) st) x) t))%Qc) (psi (to t (fun x => bits_eqb (map (getbit x) cs) st) x))).
Proof. intros x _. reflexivity. Qed.
Lemma eval_to args f t psi : forall x, run_ins (Eval args f t) psi x = psi (to t (fun x => f (map (getbit x) args)) x).
Proof. intros x. cbn. unfold to. destruct (f _); reflexivity. Qed.
Lemma eval_pre args f t psi : same (run_ins (Eval args f t) psi) (fun x => rmul (expi 0%Qc) (psi (to t (fun x => f (map (getbit x) args)) x))).
Proof. intros x _. rewrite eval_to, (CtrlProofs.e_0 rO rI radd rmul ropp expi chalf shalf im EU). ring. Qed.
Lemma eval_post args f t psi : same (run_ins (Eval args f t) psi) (fun x => rmul (expi (- 0)%Qc) (psi (to t (fun x => f (map (getbit x) args)) x))).
Proof. intros x _. rewrite eval_to. replace (- 0)%Qc with 0%Qc by ring. rewrite (CtrlProofs.e_0 rO rI radd rmul ropp expi chalf shalf im EU). ring. Qed.
Lemma map_set_other cs x q a : ~ In q cs -> map (getbit (setbit x q a)) cs = map (getbit x) cs.
Proof. intros H. apply map_get_other. intros p I. apply getbit_set_other. intros ->. contradiction. Qed.
(** an environment with a truth value, in an environment with a truth value *)
Lemma nested_finish it k ok forb nx nx' L S : is_cond it = true -> sane k forb nx -> (forall q, In q forb -> q < n) -> n <= nx -> (forall i, In i L -> safe forb nx nx' i) -> (forall q, In q S -> nx <= q < nx') ->
  tame S L -> On k ok nx (run_list L) (meaning false it) -> Off k nx (run_list L) -> (forall S', incl S S' -> Off k nx (run_list (kept S' L))) ->
  (forall q, In q S -> nx <= q < nx') /\
      (is_cond it = true -> tame S L /\ On k ok nx (run_list L) (meaning false it) /\ Off k nx (run_list L) /\ forall S', incl S S' -> Off k nx (run_list (kept S' L))) /\
      forall S' P, incl S S' -> (forall q, In q S' -> n <= q /\ q <> ctv k) -> control_all k S' L = Some P -> On k ok nx (run_list P) (meaning false it) /\ Off k nx (run_list P).
Proof.
  intros IC SK FB Hn SA Q T ON OFF KE. split; [exact Q|]. split; [auto|]. intros S' P IN HS C. destruct (tame_control k S S' forb nx nx' L P SK FB Hn SA T IN C) as [A B].
  split; intros psi HB HI; [apply same_trans with (run_list L psi); [apply A, HI|apply ON; auto]|apply same_trans with (run_list (kept S' L) psi); [apply B, HI|apply KE; auto]].
Qed.
Lemma good_empty it : (forall psi, same (meaning false it psi) psi) -> (forall rho c nx, compile rho c nx it = Some ([], [], nx)) -> good it.
Proof.
  intros M E forb c ok rho nx L S nx' W SK FB RH Hn C HN. rewrite E in C. injection C as <- <- <-. split; [intros i []|]. destruct c as [k|]; [|intros psi _; apply same_sym, M].
  split; [intros q []|]. split; [intros _; split; [intros i []|split; [|split]]|intros S' P _ _ C; injection C as <-; split]; intros; intros psi _ _; try apply same_refl; apply same_sym, M.
Qed.
Lemma mcx_safe undo cs st t forb nx nx' : t < N -> ~ In t cs -> nx <= t < nx' -> safe forb nx nx' (Mcx undo cs st t).
Proof. intros A B C. split; [split; assumption|]. split; [intros q [<-|[]]; right; exact C|]. cbn. destruct cs; discriminate. Qed.
Lemma eval_safe args f t forb nx nx' : t < N -> ~ In t args -> nx <= t < nx' -> safe forb nx nx' (Eval args f t).
Proof. intros A B C. split; [split; assumption|]. split; [intros q [<-|[]]; right; exact C|]. cbn. destruct args; discriminate. Qed.

(** ** control *)
Lemma good_control cs st inv body : Forall good body -> good (Control cs st inv body).
Proof.
  intros F. destruct body as [|j0 body0]; [apply good_empty; [intros psi x _; cbn; destruct (xorb _ _); reflexivity|reflexivity]|]. remember (j0 :: body0) as body eqn:EB.
  intros forb c ok rho nx L S nx' W SK FB RH Hn C HN. assert (C' := C). cbn [compile] in C. destruct body as [|j1 body1]; [discriminate|]. rewrite EB in C. rewrite <- EB in C. clear EB C'. set (body := j1 :: body1) in *.
  destruct (enter_control c rho nx cs st inv) as [[[[[k pre] post] rho'] nx1]|] eqn:EN; [|discriminate].
  destruct (seq_all _ nx1 body) as [[[l s] nx2]|] eqn:CL; [|discriminate]. injection C as <- <- <-.
  cbn [fine] in W. destruct W as (LS & QC & W). 
  assert (FB' : forall q, In q (cs ++ forb) -> q < n) by (intros q I; apply in_app_or in I as [I|I]; auto).
  destruct c as [p|].
  - (* in another environment *)
    cbn [option_map] in W. destruct W as [-> W]. change (fine_all n (cs ++ forb) (Some (true, match cs with [_] => hd true st | _ => true end)) body) in W.
    set (ok' := match cs with [_] => hd true st | _ => true end) in *. specialize (SK p eq_refl).
    assert (NE : cs <> []) by (intros ->; discriminate).
    assert (EN' : distinct (cs ++ [ctv p]) = true /\ k = {| ctv := nx; ctv0 := match cs with [a] => a | _ => nx end; act := true |} /\
       pre = [Mcx false (cs ++ [ctv p]) (st ++ [act p]) nx] /\ post = [Mcx true (cs ++ [ctv p]) (st ++ [act p]) nx] /\ rho' = match cs with [a] => fun q => if rho q =? a then nx else rho q | _ => rho end /\ nx1 = Datatypes.S nx).
    { unfold enter_control in EN. destruct cs as [|a cs]; [congruence|]. destruct (distinct ((a :: cs) ++ [ctv p])); [|discriminate]. injection EN as <- <- <- <- <-. repeat split. }
    destruct EN' as (DI & EK & -> & -> & ER & ->). clear EN.
    assert (SKk : sane k (cs ++ forb) (Datatypes.S nx)).
    { rewrite EK. split; cbn; [right; lia|]. destruct cs as [|a [|b cs]]; auto. right. split; [left; reflexivity|]. split; [reflexivity|exact Hn]. }
    assert (RH' : forall q, q < n -> ~ In q (cs ++ forb) -> rho' q = q).
    { intros q L NI. assert (RQ : rho q = q) by (apply RH; auto; intros I; apply NI, in_or_app; auto). rewrite ER. destruct cs as [|a [|b cs]]; auto. rewrite RQ.
      replace (q =? a) with false; [reflexivity|]. symmetry. apply Nat.eqb_neq. intros ->. apply NI. left; reflexivity. }
    assert (AK : act k = true) by (rewrite EK; reflexivity). assert (KT : ctv k = nx) by (rewrite EK; reflexivity).
    destruct (content_good body F k ok' (cs ++ forb) rho' (Datatypes.S nx) l s nx2 ltac:(rewrite AK; exact W) SKk FB' RH' ltac:(lia) CL HN) as (M2 & CON).
    pose proof CON as (SA & SQ & TA & _). rewrite reflip_nil by (intros i I; apply (safe_ctv k (cs ++ forb) (Datatypes.S nx) nx2); auto; lia). cbn [app].
    set (cs' := cs ++ [ctv p]) in *. set (st' := st ++ [act p]) in *.
    assert (NT : ~ In nx cs') by (intros I; apply in_app_or in I as [I|[I|[]]]; [specialize (QC _ I); lia|]; destruct SK as [[A|A] _]; [specialize (FB _ A)|]; lia).
    assert (CQ : forall q, q < n -> ~ In q (cs ++ forb) -> ~ In q cs') by (intros q A B I; apply in_app_or in I as [I|[I|[]]]; [apply B, in_or_app; auto|]; destruct SK as [[D|D] _]; [apply B, in_or_app; right; congruence|lia]).
    set (m := fun x => bits_eqb (map (getbit x) cs') st'). set (sp := fun x => ph st' (map (getbit x) cs')).
    assert (MX : forall x, m x = bits_eqb (map (getbit x) cs) st && Bool.eqb (getbit x (ctv p)) (act p)) by (intros x; unfold m, cs', st'; rewrite map_app; apply bits_eqb_snoc; rewrite map_length; auto).
    pose proof (through_moved body (cs ++ forb) _ false W) as MF.
    assert (mt : forall x a, m (setbit x nx a) = m x) by (intros x a; unfold m; rewrite map_set_other by exact NT; reflexivity).
    assert (sst : forall x a, sp (setbit x nx a) = sp x) by (intros x a; unfold sp; rewrite map_set_other by exact NT; reflexivity).
    assert (mq : forall x q a, q < n -> ~ In q (cs ++ forb) -> m (setbit x q a) = m x) by (intros x q a A B; unfold m; rewrite map_set_other by (apply CQ; auto); reflexivity).
    assert (sq : forall x q a, q < n -> ~ In q (cs ++ forb) -> sp (setbit x q a) = sp x) by (intros x q a A B; unfold sp; rewrite map_set_other by (apply CQ; auto); reflexivity).
    assert (H0 : ok' = true -> ctv0 k <> nx -> forall x, m x = act k -> getbit x (ctv0 k) = true).
    { intros O NE0 x E. rewrite AK, MX in E. apply andb_prop in E as [E _]. revert O NE0 E. rewrite EK. unfold ok'. cbn [ctv0]. clear -LS. destruct cs as [|a [|b cs]]; try congruence. destruct st as [|b0 [|]]; try discriminate LS. cbn. intros -> _ E. apply andb_prop in E as [E _]. apply eqb_prop in E. exact E. }
    assert (OK2 : ins_ok N (Mcx true cs' st' nx)) by (split; [lia|exact NT]).
    pose proof (brk_on nx (Datatypes.S nx) ltac:(lia) ltac:(lia) m sp (cs ++ forb) mt sst mq sq (Mcx false cs' st' nx) (Mcx true cs' st' nx) OK2 (mcx_pre cs' st' nx) (mcx_post cs' st' nx) k KT ok' l s nx2 (through false body) CON MF H0) as BON.
    pose proof (brk_off nx (Datatypes.S nx) ltac:(lia) ltac:(lia) m sp (cs ++ forb) mt sst mq sq (Mcx false cs' st' nx) (Mcx true cs' st' nx) OK2 (mcx_pre cs' st' nx) (mcx_post cs' st' nx) k KT ok' l s nx2 (through false body) CON MF) as BOFF.
    assert (SL : forall i, In i (Mcx false cs' st' nx :: l ++ [Mcx true cs' st' nx]) -> safe forb nx nx2 i).
    { intros i [<-|I]; [apply mcx_safe; auto; lia|]. apply in_app_or in I as [I|[<-|[]]]; [|apply mcx_safe; auto; lia]. apply (safe_le forb (Datatypes.S nx) nx2); auto. apply (safe_forb (cs ++ forb)); auto. apply incl_appr, incl_refl. }
    split; [exact SL|].
    assert (SUP : forall psi, blank nx psi -> sup nx false psi /\ blank (Datatypes.S nx) psi).
    { intros psi B. split; [apply (proj1 (blank_sup rO N nx psi) B); lia|]. apply (blank_le rO N n NN nx); auto. }
    rewrite KT. apply (nested_finish (Control cs st false body) p ok forb nx nx2); auto.
    + intros q I. apply in_app_or in I as [I|[<-|[]]]; [specialize (SQ q I)|]; lia.
    + intros i [<-|I]; [left; apply meets_In; exists nx; split; apply in_or_app; right; left; reflexivity|]. apply in_app_or in I as [I|[<-|[]]]; [|left; apply meets_In; exists nx; split; apply in_or_app; right; left; reflexivity].
      destruct (TA i I) as [X|[X|X]]; auto; left; [apply (meets_incl _ s); auto; apply incl_appl, incl_refl|]. apply meets_In. exists nx. rewrite KT in X. split; [exact X|]. apply in_or_app. right. left. reflexivity.
    + intros psi B [I _]. destruct (SUP psi B) as [SU B']. eapply same_trans; [apply BON; auto|]. intros x Lx. change (meaning false (Control cs st false body) psi x) with (if xorb false (bits_eqb (map (getbit x) cs) st) then through false body psi x else psi x).
      rewrite AK, MX. destruct (Bool.eqb (getbit x (ctv p)) (act p)) eqn:E; [rewrite andb_true_r; destruct (bits_eqb _ _); reflexivity|]. rewrite andb_false_r. cbn [Bool.eqb xorb].
      assert (NP : getbit x (ctv p) <> act p) by (intros X; rewrite X, eqb_reflx in E; discriminate). rewrite (I x Lx NP).
      assert (Z : through false body psi x = rO) by (apply (mean_sup (cs ++ forb) (through false body) (ctv p) (act p) psi MF); auto; destruct SK as [[A|A] _]; [right; apply in_or_app; auto|left; lia]).
      rewrite Z. destruct (bits_eqb _ _); reflexivity.
    + intros psi B I. destruct (SUP psi B) as [SU B']. apply BOFF; auto. intros x Lx E. apply I; auto. rewrite AK, MX in E. apply andb_prop in E as [_ E]. apply eqb_prop in E. rewrite E. destruct (act p); discriminate.
    + intros S' IN psi B I. destruct (SUP psi B) as [SU B']. assert (IX : In nx S') by (apply IN, in_or_app; right; left; reflexivity).
      assert (MI : forall u, meets (qubits (Mcx u cs' st' nx)) S' = true) by (intros u; apply meets_In; exists nx; split; [apply in_or_app; right; left; reflexivity|exact IX]).
      assert (KE : kept S' (Mcx false cs' st' nx :: l ++ [Mcx true cs' st' nx]) = Mcx false cs' st' nx :: kept S' l ++ [Mcx true cs' st' nx]).
      { unfold kept. cbn [filter]. rewrite (MI false). rewrite filter_app. cbn [filter]. rewrite (MI true). reflexivity. }
      rewrite KE. apply BOFF; auto; [right; exists S'; repeat split; auto; intros q J; apply IN, in_or_app; auto|]. intros x Lx E. apply I; auto. rewrite AK, MX in E. apply andb_prop in E as [_ E]. apply eqb_prop in E. rewrite E. destruct (act p); discriminate.
  - cbn [option_map] in W. change (fine_all n (cs ++ forb) (Some (match cs with [_] => xorb inv (hd true st) | _ => negb inv end, true)) body) in W.
    destruct cs as [|a [|b cs0]]; [discriminate| |].
    + (* one control qubit *)
      injection EN as <- <- <- <- <-. set (k := {| ctv := a; ctv0 := a; act := xorb inv (hd true st) |}) in *.
      assert (SKk : sane k ([a] ++ forb) nx) by (split; [left; left; reflexivity|left; reflexivity]).
      assert (RH' : forall q, q < n -> ~ In q ([a] ++ forb) -> rho q = q) by (intros q A B; apply RH; auto; intros I; apply B; right; exact I).
      destruct (content_good body F k true ([a] ++ forb) rho nx l s nx2 W SKk FB' RH' Hn CL HN) as (M2 & CON). destruct CON as (SA & SQ & TA & ON & OFF & _).
      assert (NW : forall i, In i l -> ~ In a (written i)) by (intros i I; apply (safe_ctv k ([a] ++ forb) nx nx2); auto).
      rewrite reflip_nil by exact NW. cbn [app]. rewrite app_nil_r.
      split; [intros i I; apply (safe_forb ([a] ++ forb)); [apply incl_appr, incl_refl|auto]|]. intros psi B x Lx.
      change (meaning false (Control [a] st inv body) psi x) with (if xorb inv (bits_eqb [getbit x a] st) then through false body psi x else psi x).
      destruct st as [|b0 [|]]; try discriminate LS. cbn [bits_eqb]. rewrite andb_true_r. cbn [hd] in k.
      assert (BX : xorb inv (Bool.eqb (getbit x a) b0) = Bool.eqb (getbit x a) (act k)) by (cbn; destruct (getbit x a), inv, b0; reflexivity). rewrite BX.
      set (cut := fun (c : bool) y => if Bool.eqb (getbit y a) c then psi y else rO).
      assert (LO : run_list l psi x = run_list l (cut (getbit x a)) x).
      { apply (list_local N l a); [apply (safe_ok _ _ _ _ SA)|exact NW|]. intros y Ly Gy. unfold cut. rewrite Gy, eqb_reflx. reflexivity. }
      assert (CS : forall c, sup a c (cut c)) by (intros c y Ly G; unfold cut; destruct (Bool.eqb (getbit y a) c) eqn:E; [apply eqb_prop in E; contradiction|reflexivity]).
      assert (CB : forall c, blank nx (cut c)) by (intros c y Ly G; unfold cut; rewrite (B y Ly G); destruct (Bool.eqb _ c); reflexivity).
      rewrite LO. destruct (Bool.eqb (getbit x a) (act k)) eqn:E.
      * apply eqb_prop in E. rewrite E. rewrite (ON (cut (act k)) (CB _)); [|split; [apply CS|intros _ X; elim X; reflexivity]|exact Lx].
        apply (moved_local rO rI radd rmul rsub ropp RT n ([a] ++ forb) (through false body) (fun y => getbit y a)); [apply (through_moved body _ _ false W)| |].
        -- intros y q c A D. apply getbit_set_other. intros ->. apply D. left; reflexivity.
        -- intros y Ly Gy. unfold cut. rewrite Gy, E, eqb_reflx. reflexivity.
      * assert (NA : getbit x a = negb (act k)) by (destruct (getbit x a), (act k); cbn in *; congruence).
        rewrite (OFF (cut (getbit x a)) (CB _)); [unfold cut; rewrite eqb_reflx; reflexivity|rewrite NA; apply CS|exact Lx].
    + (* several *)
      remember (a :: b :: cs0) as cs eqn:EC.
      assert (EN' : k = {| ctv := nx; ctv0 := nx; act := negb inv |} /\ pre = [Mcx false cs st nx] /\ post = [Mcx true cs st nx] /\ rho' = rho /\ nx1 = Datatypes.S nx).
      { unfold enter_control in EN. rewrite EC in EN. rewrite <- EC in EN. destruct (distinct cs); [|discriminate]. injection EN as <- <- <- <- <-. repeat split. }
      destruct EN' as (EK & -> & -> & -> & ->). clear EN.
      assert (W' : fine_all n (cs ++ forb) (Some (negb inv, true)) body) by (rewrite EC in W |- *; exact W). clear W. rename W' into W.
      assert (AK : act k = negb inv) by (rewrite EK; reflexivity). assert (KT : ctv k = nx) by (rewrite EK; reflexivity).
      assert (SKk : sane k (cs ++ forb) (Datatypes.S nx)) by (rewrite EK; split; cbn; [right; lia|left; reflexivity]).
      assert (RH' : forall q, q < n -> ~ In q (cs ++ forb) -> rho q = q) by (intros q A B; apply RH; auto; intros I; apply B, in_or_app; auto).
      destruct (content_good body F k true (cs ++ forb) rho (Datatypes.S nx) l s nx2 ltac:(rewrite AK; exact W) SKk FB' RH' ltac:(lia) CL HN) as (M2 & CON).
      pose proof CON as (SA & SQ & TA & _). rewrite reflip_nil by (intros i I; apply (safe_ctv k (cs ++ forb) (Datatypes.S nx) nx2); auto; lia). cbn [app].
      assert (NT : ~ In nx cs) by (intros I; specialize (QC _ I); lia).
      assert (CQ : forall q, q < n -> ~ In q (cs ++ forb) -> ~ In q cs) by (intros q A B I; apply B, in_or_app; auto).
      set (m := fun x => bits_eqb (map (getbit x) cs) st). set (sp := fun x => ph st (map (getbit x) cs)).
      assert (mt : forall x a, m (setbit x nx a) = m x) by (intros x c; unfold m; rewrite map_set_other by exact NT; reflexivity).
      assert (sst : forall x a, sp (setbit x nx a) = sp x) by (intros x c; unfold sp; rewrite map_set_other by exact NT; reflexivity).
      assert (mq : forall x q a, q < n -> ~ In q (cs ++ forb) -> m (setbit x q a) = m x) by (intros x q c A B; unfold m; rewrite map_set_other by (apply CQ; auto); reflexivity).
      assert (sq : forall x q a, q < n -> ~ In q (cs ++ forb) -> sp (setbit x q a) = sp x) by (intros x q c A B; unfold sp; rewrite map_set_other by (apply CQ; auto); reflexivity).
      assert (H0 : true = true -> ctv0 k <> nx -> forall x, m x = act k -> getbit x (ctv0 k) = true) by (intros _ X; elim X; rewrite EK; reflexivity).
      assert (OK2 : ins_ok N (Mcx true cs st nx)) by (split; [lia|exact NT]).
      split; [intros i [<-|I]; [apply mcx_safe; auto; lia|]; apply in_app_or in I as [I|[<-|[]]]; [|apply mcx_safe; auto; lia]; apply (safe_le forb (Datatypes.S nx) nx2); auto; apply (safe_forb (cs ++ forb)); auto; apply incl_appr, incl_refl|].
      intros psi B. eapply same_trans; [apply (brk_on nx (Datatypes.S nx) ltac:(lia) ltac:(lia) m sp (cs ++ forb) mt sst mq sq (Mcx false cs st nx) (Mcx true cs st nx) OK2 (mcx_pre cs st nx) (mcx_post cs st nx) k KT true l s nx2 (through false body) CON (through_moved body (cs ++ forb) _ false W) H0)|].
      * apply (proj1 (blank_sup rO N nx psi) B); lia.
      * apply (blank_le rO N n NN nx); auto.
      * intros x Lx. rewrite AK, eqb_flag. reflexivity.
Qed.

(** ** conditions *)
Lemma good_cond args f body : Forall good body -> good (Cond args f body).
Proof.
  intros F. destruct body as [|j0 body0]; [apply good_empty; [intros psi x _; cbn; destruct (f _); reflexivity|reflexivity]|]. remember (j0 :: body0) as body eqn:EB.
  intros forb c ok rho nx L S nx' W SK FB RH Hn C HN. cbn [compile] in C. destruct body as [|j1 body1]; [discriminate|]. rewrite EB in C. rewrite <- EB in C. clear EB. set (body := j1 :: body1) in *.
  destruct (enter_cond c nx args f) as [[[k pre] post] nx1] eqn:EN.
  destruct (seq_all _ nx1 body) as [[[l s] nx2]|] eqn:CL; [|discriminate]. injection C as <- <- <-.
  cbn [fine] in W. destruct W as (QC & WA & W). change (fine_all n (args ++ forb) (Some (true, true)) body) in W.
  assert (FB' : forall q, In q (args ++ forb) -> q < n) by (intros q I; apply in_app_or in I as [I|I]; auto).
  assert (RH' : forall q, q < n -> ~ In q (args ++ forb) -> rho q = q) by (intros q A B; apply RH; auto; intros I; apply B, in_or_app; auto).
  pose proof (through_moved body (args ++ forb) _ false W) as MF.
  set (fm := fun x => f (map (getbit x) args)). set (zero := fun (_ : list bool) (_ : bool) => 0%Qc).
  assert (fq : forall x q a, q < n -> ~ In q (args ++ forb) -> fm (setbit x q a) = fm x) by (intros x q a A B; unfold fm; rewrite map_set_other by (intros I; apply B, in_or_app; auto); reflexivity).
  assert (ft : forall t x a, n <= t -> fm (setbit x t a) = fm x) by (intros t x a A; unfold fm; rewrite map_set_other by (intros I; specialize (QC _ I); lia); reflexivity).
  assert (EK : k = {| ctv := nx; ctv0 := nx; act := true |}) by (unfold enter_cond in EN; destruct c; injection EN as <- _ _ _; reflexivity).
  assert (AK : act k = true) by (rewrite EK; reflexivity). assert (KT : ctv k = nx) by (rewrite EK; reflexivity).
  assert (NX1 : nx < nx1) by (unfold enter_cond in EN; destruct c; injection EN; intros; lia).
  assert (SKk : sane k (args ++ forb) nx1) by (rewrite EK; split; cbn; [right; lia|left; reflexivity]).
  destruct (content_good body F k true (args ++ forb) rho nx1 l s nx2 ltac:(rewrite AK; exact W) SKk FB' RH' ltac:(lia) CL HN) as (M2 & CON).
  pose proof CON as (SA & SQ & TA & _). rewrite reflip_nil by (intros i I; apply (safe_ctv k (args ++ forb) nx1 nx2); auto; lia). cbn [app].
  assert (H0 : true = true -> ctv0 k <> nx -> forall (x : list bool) (b : bool), b = act k -> getbit x (ctv0 k) = true) by (intros _ X; elim X; rewrite EK; reflexivity).
  assert (SB : forall i, In i l -> safe forb nx nx2 i) by (intros i I; apply (safe_le forb nx1 nx2); auto; [lia|]; apply (safe_forb (args ++ forb)); auto; apply incl_appr, incl_refl).
  destruct c as [p|].
  - cbn [option_map] in WA. specialize (SK p eq_refl). cbn [enter_cond] in EN. injection EN as _ <- <- <-. cbn [app]. set (e := Datatypes.S nx) in *.
    set (cs' := [ctv p; e]) in *. set (m := fun x => bits_eqb (map (getbit x) cs') [true; true]). set (sp := fun x => ph [true; true] (map (getbit x) cs')).
    assert (PC : In (ctv p) forb \/ n <= ctv p < nx) by apply SK.
    assert (PN : ctv p <> nx /\ ctv p <> e) by (unfold e; destruct PC as [A|A]; [specialize (FB _ A)|]; lia).
    assert (MX : forall x, m x = getbit x (ctv p) && getbit x e) by (intros x; unfold m, cs'; cbn; destruct (getbit x (ctv p)), (getbit x e); reflexivity).
    assert (NT : ~ In nx cs') by (intros [I|[I|[]]]; unfold e in *; lia).
    assert (CQ : forall q, q < n -> ~ In q (args ++ forb) -> ~ In q cs') by (intros q A B [I|[I|[]]]; unfold e in *; [|lia]; destruct PC as [D|D]; [apply B, in_or_app; right; congruence|lia]).
    assert (mt : forall x a, m (setbit x nx a) = m x) by (intros x a; unfold m; rewrite map_set_other by exact NT; reflexivity).
    assert (sst : forall x a, sp (setbit x nx a) = sp x) by (intros x a; unfold sp; rewrite map_set_other by exact NT; reflexivity).
    assert (mq : forall x q a, q < n -> ~ In q (args ++ forb) -> m (setbit x q a) = m x) by (intros x q a A B; unfold m; rewrite map_set_other by (apply CQ; auto); reflexivity).
    assert (sq : forall x q a, q < n -> ~ In q (args ++ forb) -> sp (setbit x q a) = sp x) by (intros x q a A B; unfold sp; rewrite map_set_other by (apply CQ; auto); reflexivity).
    set (i1 := Mcx false cs' [true; true] nx). set (i2 := Mcx true cs' [true; true] nx). set (ev := Eval args f e).
    assert (LE : e < N) by (unfold e; lia). assert (NE : ~ In e args) by (intros I; specialize (QC _ I); unfold e in *; lia).
    assert (OK1 : ins_ok N i1) by (split; [lia|exact NT]). assert (OK2 : ins_ok N i2) by (split; [lia|exact NT]). assert (OKE : ins_ok N ev) by (split; assumption).
    pose proof (brk_on nx (Datatypes.S e) ltac:(unfold e; lia) ltac:(lia) m sp (args ++ forb) mt sst mq sq i1 i2 OK2 (mcx_pre cs' [true; true] nx) (mcx_post cs' [true; true] nx) k KT true l s nx2 (through false body) CON MF (fun a b x => H0 a b x (m x))) as BON.
    pose proof (brk_off nx (Datatypes.S e) ltac:(unfold e; lia) ltac:(lia) m sp (args ++ forb) mt sst mq sq i1 i2 OK2 (mcx_pre cs' [true; true] nx) (mcx_post cs' [true; true] nx) k KT true l s nx2 (through false body) CON MF (fun a b x => H0 a b x (m x))) as BOFF.
    assert (EQ : forall l', ev :: i1 :: l' ++ [i2; ev] = ev :: (i1 :: l' ++ [i2]) ++ [ev]) by (intros l'; cbn [app]; rewrite <- app_assoc; reflexivity). rewrite (EQ l).
    assert (SL : forall i, In i (ev :: (i1 :: l ++ [i2]) ++ [ev]) -> safe forb nx nx2 i).
    { intros i [<-|I]; [apply eval_safe; auto; unfold e; lia|]. apply in_app_or in I as [[<-|I]|[<-|[]]]; [apply mcx_safe; auto; lia| |apply eval_safe; auto; unfold e; lia].
      apply in_app_or in I as [I|[<-|[]]]; [apply SB, I|apply mcx_safe; auto; lia]. }
    split; [exact SL|].
    assert (SUP : forall psi, blank nx psi -> sup nx false psi /\ sup e false psi /\ blank (Datatypes.S e) psi).
    { intros psi B. split; [apply (proj1 (blank_sup rO N nx psi) B); lia|]. split; [apply (proj1 (blank_sup rO N nx psi) B); unfold e; lia|]. apply (blank_le rO N n NN nx); auto. unfold e; lia. }
    assert (PART : forall c psi, blank nx psi -> sup nx false (part rO rmul expi e fm zero c psi) /\ blank (Datatypes.S e) (part rO rmul expi e fm zero c psi)).
    { intros c psi B. destruct (SUP psi B) as (A & _ & D). split; [apply (part_other rO rI radd rmul rsub ropp RT); auto; unfold e; lia|]. apply (blank_sup rO N). intros q Q. apply (part_other rO rI radd rmul rsub ropp RT); [lia|]. apply (proj1 (blank_sup rO N _ psi) D q Q). }
    assert (Kl : forall l', all_ok N l' -> all_ok N (i1 :: l' ++ [i2])) by (intros l' O i [<-|I]; [exact OK1|]; apply in_app_or in I as [I|[<-|[]]]; auto).
    assert (OL : all_ok N l) by apply (safe_ok _ _ _ _ SA).
    assert (HOFF : forall psi, blank nx psi -> same (run_list (i1 :: l ++ [i2]) (part rO rmul expi e fm zero false psi)) (part rO rmul expi e fm zero false psi)).
    { intros psi B. destruct (PART false psi B) as [A D]. apply BOFF; auto. assert (X : sup e false (part rO rmul expi e fm zero false psi)) by apply (part_sup rO rI radd rmul rsub ropp RT). intros x Lx E. refine (X x Lx _). rewrite AK, MX in E. apply andb_prop in E as [_ ->]. discriminate. }
    assert (OUT : forall l' G psi, all_ok N l' -> p_moved (args ++ forb) G -> blank nx psi ->
       same (run_list (i1 :: l' ++ [i2]) (part rO rmul expi e fm zero true psi)) (G (part rO rmul expi e fm zero true psi)) ->
       same (run_list (i1 :: l' ++ [i2]) (part rO rmul expi e fm zero false psi)) (part rO rmul expi e fm zero false psi) ->
       same (run_list (ev :: (i1 :: l' ++ [i2]) ++ [ev]) psi) (fun x => if fm x then G psi x else psi x)).
    { intros l' G psi O MG B A1 A2. destruct (SUP psi B) as (_ & SE & _). rewrite run_cons, run_app. change (run_list [ev] ?p) with (run_ins ev p).
      eapply same_trans; [apply (bracket rO rI radd rmul rsub ropp RT expi chalf shalf im EU N n NN e ltac:(unfold e; lia) fm zero (args ++ forb) (fun x a => ft e x a ltac:(unfold e; lia)) (fun x a => eq_refl) fq (fun x q a _ _ => eq_refl)
         (run_ins ev) (run_ins ev) (run_list (i1 :: l' ++ [i2])) G true (eval_pre args f e) (eval_post args f e) MG); auto|].
      - intros phi chi E. apply run_same; auto. - apply run_sum. - intros phi chi E. apply ins_same; auto.
      - intros x _. destruct (fm x); reflexivity. }
    assert (OFF : forall l' psi, l' = l \/ (exists S', incl s S' /\ In nx S' /\ l' = kept S' l) -> blank nx psi -> sup (ctv p) (negb (act p)) psi -> same (run_list (ev :: (i1 :: l' ++ [i2]) ++ [ev]) psi) psi).
    { intros l' psi HL B I. rewrite WA in I. assert (O' : all_ok N l') by (destruct HL as [->|(S' & _ & _ & ->)]; [exact OL|apply kept_ok, OL]).
      assert (A : forall c, same (run_list (i1 :: l' ++ [i2]) (part rO rmul expi e fm zero c psi)) (part rO rmul expi e fm zero c psi)).
      { intros c. destruct (PART c psi B) as [A D]. apply BOFF; auto. assert (X : sup (ctv p) false (part rO rmul expi e fm zero c psi)) by (apply (part_other rO rI radd rmul rsub ropp RT); [apply PN|exact I]). intros x Lx E. rewrite AK, MX in E. apply andb_prop in E as [E _].
        refine (X x Lx _). congruence. }
      eapply same_trans; [apply (OUT l' (fun p => p)); auto; apply id_moved|]. intros x _. destruct (fm x); reflexivity. }
    rewrite KT. apply (nested_finish (Cond args f body) p ok forb nx nx2); auto.
    + intros q I. apply in_app_or in I as [I|[<-|[]]]; [specialize (SQ q I); unfold e in *|]; lia.
    + assert (IV : forall u, meets (qubits (Mcx u cs' [true; true] nx)) (s ++ [nx]) = true) by (intros u; apply meets_In; exists nx; split; apply in_or_app; right; left; reflexivity).
      intros i [<-|I]; [right; unfold is_eval, ev; eauto|]. apply in_app_or in I as [[<-|I]|[<-|[]]]; [left; apply IV| |right; unfold is_eval, ev; eauto]. apply in_app_or in I as [I|[<-|[]]]; [|left; apply IV].
      destruct (TA i I) as [X|[X|X]]; auto; left; [apply (meets_incl _ s); auto; apply incl_appl, incl_refl|]. apply meets_In. exists nx. rewrite KT in X. split; [exact X|]. apply in_or_app. right. left. reflexivity.
    + intros psi B [I _]. rewrite WA in I. change (meaning false (Cond args f body) psi) with (fun x => if fm x then through false body psi x else psi x).
      apply OUT; auto. destruct (PART true psi B) as [A D]. eapply same_trans; [apply BON; auto|]. intros x Lx. rewrite AK, MX.
      set (pt := part rO rmul expi e fm zero true psi) in *.
      assert (SP : sup (ctv p) true pt) by (apply (part_other rO rI radd rmul rsub ropp RT); [apply PN|exact I]). assert (SE : sup e true pt) by apply (part_sup rO rI radd rmul rsub ropp RT).
      assert (FP : sup (ctv p) true (through false body pt)) by (apply (mean_sup (args ++ forb)); auto; destruct PC as [X|X]; [right; apply in_or_app; auto|left; lia]).
      assert (FE : sup e true (through false body pt)) by (apply (mean_sup (args ++ forb)); auto; left; unfold e; lia).
      destruct (getbit x (ctv p)) eqn:G1; [|cbn [andb Bool.eqb]; rewrite (SP x Lx), (FP x Lx) by congruence; reflexivity].
      destruct (getbit x e) eqn:G2; [reflexivity|]. cbn [andb Bool.eqb]. rewrite (SE x Lx), (FE x Lx) by congruence. reflexivity.
    + intros psi B I. apply OFF; auto.
    + intros S' IN psi B I. assert (IX : In nx S') by (apply IN, in_or_app; right; left; reflexivity). assert (IS : incl s S') by (intros q J; apply IN, in_or_app; auto).
      assert (MI : forall u, meets (qubits (Mcx u cs' [true; true] nx)) S' = true) by (intros u; apply meets_In; exists nx; split; [apply in_or_app; right; left; reflexivity|exact IX]).
      assert (KM : kept S' (i1 :: l ++ [i2]) = i1 :: kept S' l ++ [i2]).
      { unfold kept. cbn [filter]. unfold i1, i2. rewrite (MI false), filter_app. cbn [filter]. rewrite (MI true). reflexivity. }
      destruct (meets (qubits ev) S') eqn:ME.
      * assert (KE : kept S' (ev :: (i1 :: l ++ [i2]) ++ [ev]) = ev :: (i1 :: kept S' l ++ [i2]) ++ [ev]).
        { change (ev :: (i1 :: l ++ [i2]) ++ [ev]) with ([ev] ++ (i1 :: l ++ [i2]) ++ [ev]). rewrite !kept_app, KM. replace (kept S' [ev]) with [ev] by (unfold kept; cbn [filter]; rewrite ME; reflexivity). reflexivity. }
        rewrite KE. apply OFF; auto. right. eauto.
      * assert (KE : kept S' (ev :: (i1 :: l ++ [i2]) ++ [ev]) = i1 :: kept S' l ++ [i2]).
        { change (ev :: (i1 :: l ++ [i2]) ++ [ev]) with ([ev] ++ (i1 :: l ++ [i2]) ++ [ev]). rewrite !kept_app, KM. replace (kept S' [ev]) with (@nil ins) by (unfold kept; cbn [filter]; rewrite ME; reflexivity). rewrite app_nil_r. reflexivity. }
        rewrite KE. destruct (SUP psi B) as (A & _ & D). apply BOFF; auto; [right; eauto|]. intros x Lx E. rewrite AK, MX in E. apply andb_prop in E as [E _]. apply I; [exact Lx|]. rewrite WA, E. discriminate.
  - cbn [enter_cond] in EN. injection EN as _ <- <- <-. cbn [app].
    assert (NT : ~ In nx args) by (intros I; specialize (QC _ I); lia). assert (OKE : ins_ok N (Eval args f nx)) by (split; [lia|exact NT]).
    split; [intros i [<-|I]; [apply eval_safe; auto; lia|]; apply in_app_or in I as [I|[<-|[]]]; [apply SB, I|apply eval_safe; auto; lia]|].
    intros psi B. eapply same_trans; [apply (brk_on nx (Datatypes.S nx) ltac:(lia) ltac:(lia) fm zero (args ++ forb) (fun x a => ft nx x a Hn) (fun x a => eq_refl) fq (fun x q a _ _ => eq_refl) (Eval args f nx) (Eval args f nx) OKE (eval_pre args f nx) (eval_post args f nx)
      k KT true l s nx2 (through false body) CON MF (fun a b x => H0 a b x (fm x)))|].
    + apply (proj1 (blank_sup rO N nx psi) B); lia.
    + apply (blank_le rO N n NN nx); auto.
    + intros x Lx. rewrite AK. change (meaning false (Cond args f body) psi x) with (if fm x then through false body psi x else psi x). destruct (fm x); reflexivity.
Qed.
Lemma all_good it : good it.
Proof.
  induction it as [o qs| |cs st inv body IH|args f body IH|body IH|body IH|u body IH] using item_ind';
    [apply good_gate|intros forb c ok rho nx L S nx' []|apply good_control, IH|apply good_cond, IH|apply good_invert, IH|apply good_plain, IH|apply good_conj, IH].
Qed.
Lemma program_right p L S nx' : (forall j, In j p -> fine n [] None j) -> compile_program n p = Some (L, S, nx') -> nx' <= N -> forall psi, blank n psi ->
  same (run_list L psi) (program_meaning rO rI radd rmul ropp expi chalf shalf im p psi) /\ blank n (run_list L psi).
Proof.
  intros W C HN psi B. assert (W' : fine_all n [] None p) by (apply fine_all_in, W).
  destruct (all_good (Plain p) [] None true (fun q => q) n L S nx') as [_ RR]; auto; [discriminate|intros q []|].
  assert (E : same (run_list L psi) (program_meaning rO rI radd rmul ropp expi chalf shalf im p psi)) by (apply RR, B). split; [exact E|].
  apply (same_blank rO N n _ _ (same_sym N _ _ E)). apply (mean_blank [] (through false p)); auto. apply (through_moved p [] _ false W').
Qed.
End ring.
