(** Compiled environments do what they mean. *)
From Coq Require Import List ZArith Bool Lia Arith QArith Qcanon Ring Ring_theory.
Import ListNotations.
From Verif.Inverse Require Import InvModel InvSpec InvProofs.
From Verif.CtrlOps Require Import CtrlModel CtrlSpec CtrlProofs.
From Verif.Fourier Require Import FourierModel RegProofs.
From Verif.Qpe Require Import QpeProofs.
From Verif.Envs Require Import EnvModel EnvSpec EnvIns EnvMeaning.
Local Open Scope nat_scope.

Lemma mem_In q l : mem q l = true <-> In q l.
Proof. unfold mem. rewrite existsb_exists. split; [intros (x & I & E); apply Nat.eqb_eq in E as ->; exact I|intros I; exists q; split; [exact I|apply Nat.eqb_refl]]. Qed.
Lemma meets_In l m : meets l m = true <-> exists q, In q l /\ In q m.
Proof. unfold meets. rewrite existsb_exists. split; intros (q & I & E); exists q; (split; [exact I|]); apply mem_In, E. Qed.
Lemma meets_incl l m m' : incl m m' -> meets l m = true -> meets l m' = true.
Proof. rewrite !meets_In. intros H (q & A & B). exists q. auto. Qed.
Lemma not_mem q l : ~ In q l -> mem q l = false.
Proof. intros H. destruct (mem q l) eqn:E; [|reflexivity]. apply mem_In in E. contradiction. Qed.
Lemma not_meets l m : (forall q, In q l -> ~ In q m) -> meets l m = false.
Proof. intros H. destruct (meets l m) eqn:E; [|reflexivity]. apply meets_In in E as (q & A & B). exfalso. eapply H; eassumption. Qed.
Lemma distinct_NoDup l : distinct l = true -> NoDup l.
Proof.
  induction l as [|q l IH]; [constructor|]. cbn. intros H. apply andb_prop in H as [A B]. constructor; [|auto]. intros I. apply mem_In in I. rewrite I in A. discriminate.
Qed.
Definition is_eval (i : ins) : Prop := exists a f t, i = Eval a f t.
Lemma control_all_app k s l m : control_all k s (l ++ m) = match control_all k s l, control_all k s m with Some a, Some b => Some (a ++ b) | _, _ => None end.
Proof.
  induction l as [|i l IH]; cbn [control_all app]; [destruct (control_all k s m); reflexivity|]. rewrite IH.
  destruct (control_ins k s i); [|reflexivity]. destruct (control_all k s l); [|reflexivity]. destruct (control_all k s m); reflexivity.
Qed.
Lemma filter_all {B} (f : B -> bool) l : (forall a, In a l -> f a = true) -> filter f l = l.
Proof. induction l as [|a l IH]; intros H; [reflexivity|]. cbn. rewrite H by (left; reflexivity). f_equal. apply IH. intros b I. apply H. right; exact I. Qed.
(** controlling and inverting commute *)
Lemma undo_control N k s i i' j' : ins_ok N i -> ~ In (ctv k) (written i) -> qubits i <> [] -> undo_ins i = Some i' -> control_ins k s i' = Some j' -> exists j, control_ins k s i = Some j /\ undo_ins j = Some j'.
Proof.
  intros W NW NE U C. destruct (undo_ok N i i' U W) as (_ & WR & Q & CU). unfold control_ins in *. rewrite Q, CU in C.
  destruct (meets (qubits i) s); [injection C as <-; eauto|].
  destruct (forallb (Nat.eqb (ctv k)) (qubits i) && negb (is_cu i)) eqn:F.
  - exfalso. apply andb_prop in F as [F _]. destruct i' as [o qs| | | | |]; try discriminate. cbn [written] in WR. cbn [qubits] in Q. rewrite <- Q in F, NE. destruct qs as [|q qs]; [congruence|].
    cbn in F. apply andb_prop in F as [F _]. apply Nat.eqb_eq in F. apply NW. rewrite <- WR. left. congruence.
  - destruct (mem (ctv k) (qubits i)).
    + destruct (is_cu i); [|discriminate]. injection C as <-. destruct (act k); [eauto|]. eexists. split; [reflexivity|]. cbn [undo_ins]. rewrite U. reflexivity.
    + injection C as <-. eexists. split; [reflexivity|]. cbn [undo_ins]. rewrite U. reflexivity.
Qed.
Lemma undo_control_all N k s l : forall m r, all_ok N l -> (forall i, In i l -> ~ In (ctv k) (written i)) -> (forall i, In i l -> qubits i <> []) -> undo_all l = Some m -> control_all k s m = Some r -> exists p, control_all k s l = Some p /\ undo_all p = Some r.
Proof.
  induction l as [|i l IH]; intros m r W NW NE U C; cbn in U.
  - injection U as <-. injection C as <-. exists []. auto.
  - destruct (undo_ins i) as [i'|] eqn:UI; [|discriminate]. destruct (undo_all l) as [m'|] eqn:UL; [|discriminate]. injection U as <-.
    rewrite control_all_app in C. destruct (control_all k s m') as [r'|] eqn:CL; [|discriminate]. cbn [control_all] in C.
    destruct (control_ins k s i') as [j'|] eqn:CI; [|discriminate]. injection C as <-.
    destruct (undo_control N k s i i' j') as (j & A & B); auto; [apply W; left; reflexivity|apply NW; left; reflexivity|apply NE; left; reflexivity|].
    destruct (IH m' r') as (p & D & E); auto; [intros x I; apply W; right; exact I|intros x I; apply NW; right; exact I|intros x I; apply NE; right; exact I|].
    exists (j :: p). cbn [control_all]. rewrite A, D. split; [reflexivity|]. cbn [undo_all]. rewrite B, E. reflexivity.
Qed.

Section ring.
Context {R : Type} (rO rI : R) (radd rmul rsub : R -> R -> R) (ropp : R -> R) (RT : ring_theory rO rI radd rmul rsub ropp eq).
Context (expi chalf shalf : Qc -> R) (im : R) (EU : euler rO rI radd rmul ropp expi chalf shalf im).
Add Ring rr13 : RT.
Context (ph : phases) (N n : nat) (NN : n <= N).
Notation amp := (list bool -> R).
Notation run_ins := (run_ins rO rI radd rmul ropp expi chalf shalf im ph).
Notation run_list := (run_list rO rI radd rmul ropp expi chalf shalf im ph).
Notation meaning := (meaning rO rI radd rmul ropp expi chalf shalf im).
Notation gate := (gate rO rI radd rmul ropp expi chalf shalf im).
Notation through := (through rO rI radd rmul ropp expi chalf shalf im).
Notation gates_f := (gates_f rO rI radd rmul ropp expi chalf shalf im).
Notation gates_b := (gates_b rO rI radd rmul ropp expi chalf shalf im).
Notation p_moved := (p_moved rmul n).
Notation moved := (moved rmul).
Notation blank := (blank rO N).
Notation ins_ext := (ins_ext rO rI radd rmul ropp expi chalf shalf im ph).
Notation ins_local := (ins_local rO rI radd rmul rsub ropp RT expi chalf shalf im ph).
Notation ins_sum := (ins_sum rO rI radd rmul rsub ropp RT expi chalf shalf im ph).
Notation list_ext := (list_ext rO rI radd rmul ropp expi chalf shalf im ph).
Notation list_sum := (list_sum rO rI radd rmul rsub ropp RT expi chalf shalf im ph).
Notation list_local := (list_local rO rI radd rmul rsub ropp RT expi chalf shalf im ph).
Notation list_zero := (list_zero rO rI radd rmul rsub ropp RT expi chalf shalf im ph).
Notation run_app := (run_app rO rI radd rmul ropp expi chalf shalf im ph).
Notation run_cons := (run_cons rO rI radd rmul ropp expi chalf shalf im ph).
Notation undo_all_run := (undo_all_run rO rI radd rmul rsub ropp RT expi chalf shalf im EU ph).
Notation mean_moved := (mean_moved rO rI radd rmul rsub ropp RT expi chalf shalf im n).
Notation through_moved := (through_moved rO rI radd rmul rsub ropp RT expi chalf shalf im n).
Notation mean_ext := (mean_ext rO rI radd rmul ropp expi chalf shalf im n).
Notation through_ext := (through_ext rO rI radd rmul ropp expi chalf shalf im n).
Notation through_undo := (through_undo rO rI radd rmul rsub ropp RT expi chalf shalf im EU N n NN).

Definition same (psi phi : amp) : Prop := forall x, length x = N -> psi x = phi x.
(** only basis states with value b on qubit q *)
Definition sup (q : nat) (b : bool) (psi : amp) : Prop := forall x, length x = N -> getbit x q <> b -> psi x = rO.
Lemma blank_sup m psi : blank m psi <-> forall q, m <= q < N -> sup q false psi.
Proof.
  split.
  - intros H q B x Lx G. apply H; [exact Lx|]. exists q. split; [exact B|]. destruct (getbit x q); congruence.
  - intros H x Lx (q & B & G). apply (H q B x Lx). congruence.
Qed.
Lemma blank_le m m' psi : m <= m' -> blank m psi -> blank m' psi.
Proof. intros L H x Lx (q & B & G). apply H; [exact Lx|]. exists q. split; [lia|exact G]. Qed.
Lemma same_refl psi : same psi psi. Proof. intros x _. reflexivity. Qed.
Lemma same_trans a b c : same a b -> same b c -> same a c. Proof. intros H K x Lx. rewrite H by exact Lx. apply K, Lx. Qed.
Lemma same_sym a b : same a b -> same b a. Proof. intros H x Lx. symmetry. apply H, Lx. Qed.
Lemma same_sup q b psi phi : same psi phi -> sup q b psi -> sup q b phi. Proof. intros E H x Lx G. rewrite <- (E x Lx). apply H; assumption. Qed.
Lemma same_blank m psi phi : same psi phi -> blank m psi -> blank m phi. Proof. intros E H x Lx G. rewrite <- (E x Lx). apply H; assumption. Qed.
Lemma run_same l psi phi : all_ok N l -> same psi phi -> same (run_list l psi) (run_list l phi).
Proof. intros W E x Lx. apply (list_ext N l W). intros y Ly. apply E. congruence. Qed.
Lemma ins_same i psi phi : ins_ok N i -> same psi phi -> same (run_ins i psi) (run_ins i phi).
Proof. intros W E x Lx. apply (ins_ext N i W). intros y Ly. apply E. congruence. Qed.
Lemma ins_zero i x : run_ins i (fun _ => rO) x = rO.
Proof. exact (list_zero [i] x). Qed.
Lemma ins_sup i q b psi : ins_ok N i -> ~ In q (written i) -> sup q b psi -> sup q b (run_ins i psi).
Proof.
  intros W NW H x Lx G. rewrite (ins_local N i q W NW psi (fun _ => rO) x); [apply ins_zero|]. intros y Ly Gy. apply H; congruence.
Qed.
Lemma ctl_on i q b psi : ins_ok N i -> ~ In q (written i) -> sup q b psi -> same (run_ins (Ctl q b i) psi) (run_ins i psi).
Proof.
  intros W NW H x Lx. cbn [EnvSpec.run_ins]. destruct (Bool.eqb (getbit x q) b) eqn:E; [reflexivity|].
  assert (G : getbit x q <> b) by (intros G; rewrite G, eqb_reflx in E; discriminate). rewrite (H x Lx G). symmetry. apply (ins_sup i q b psi W NW H x Lx G).
Qed.
Lemma ctl_off i q b psi : ins_ok N i -> ~ In q (written i) -> sup q (negb b) psi -> same (run_ins (Ctl q b i) psi) psi.
Proof.
  intros W NW H x Lx. cbn [EnvSpec.run_ins]. destruct (Bool.eqb (getbit x q) b) eqn:E; [|reflexivity]. apply eqb_prop in E.
  assert (G : getbit x q <> negb b) by (rewrite E; destruct b; discriminate). rewrite (H x Lx G). apply (ins_sup i q (negb b) psi W NW H x Lx G).
Qed.
Lemma mean_zero forb F x : p_moved forb F -> F (fun _ => rO) x = rO.
Proof.
  intros [EX M]. rewrite (EX (fun _ => rO) (moved (fun _ => rO) (fun y => y) (fun _ => rO))) by (intros y _; unfold QpeProofs.moved; ring).
  rewrite M; [ring|reflexivity|reflexivity|reflexivity].
Qed.
Lemma mean_sup forb F q b psi : p_moved forb F -> (n <= q \/ In q forb) -> sup q b psi -> sup q b (F psi).
Proof.
  intros M Q H x Lx G. rewrite (moved_local rO rI radd rmul rsub ropp RT n forb F (fun y => getbit y q) M) with (phi := fun _ => rO).
  - apply (mean_zero forb F x M).
  - intros y p a Hp NI. apply getbit_set_other. intros ->. destruct Q; [lia|contradiction].
  - intros y Ly Gy. apply H; congruence.
Qed.
Lemma mean_blank forb F m psi : p_moved forb F -> n <= m -> blank m psi -> blank m (F psi).
Proof. intros M L. rewrite !blank_sup. intros H q B. apply (mean_sup forb F q false psi M); [left; lia|]. apply H, B. Qed.

(** ** computing a truth value, the content, uncomputing *)
Section bracket.
Context (t : nat) (Ht : n <= t < N) (m : list bool -> bool) (s : list bool -> bool -> Qc) (forb : list nat).
Context (mt : forall x a, m (setbit x t a) = m x) (st : forall x a, s (setbit x t a) = s x).
Context (mq : forall x q a, q < n -> ~ In q forb -> m (setbit x q a) = m x) (sq : forall x q a, q < n -> ~ In q forb -> s (setbit x q a) = s x).
Definition to (x : list bool) : list bool := if m x then flip_at x t else x.
Context (pre post P F : amp -> amp) (b : bool).
Context (PRE : forall psi, same (pre psi) (fun x => rmul (expi (s x (getbit x t))) (psi (to x)))) (POST : forall psi, same (post psi) (fun x => rmul (expi (- s x (getbit (to x) t))%Qc) (psi (to x)))).
Definition part (c : bool) (psi : amp) : amp := moved (fun y => if Bool.eqb (getbit y t) c && Bool.eqb (m y) c then expi (s y c) else rO) (fun y => setbit y t false) psi.
Lemma part_sup c psi : sup t c (part c psi).
Proof. intros x Lx G. unfold part, QpeProofs.moved. destruct (Bool.eqb (getbit x t) c) eqn:E; [apply eqb_prop in E; contradiction|]. cbn [andb]. ring. Qed.
Lemma part_other c q a psi : q <> t -> sup q a psi -> sup q a (part c psi).
Proof. intros Q H x Lx G. unfold part, QpeProofs.moved. rewrite (H (setbit x t false)); [ring|rewrite setbit_length; exact Lx|rewrite getbit_set_other by exact Q; exact G]. Qed.
Lemma part_zero c psi x : m x <> c -> part c psi x = rO.
Proof. intros G. unfold part, QpeProofs.moved. destruct (Bool.eqb (m x) c) eqn:E; [apply eqb_prop in E; contradiction|]. rewrite andb_false_r. ring. Qed.
Lemma pre_parts psi : sup t false psi -> same (pre psi) (fun x => radd (part b psi x) (part (negb b) psi x)).
Proof.
  intros H x Lx. rewrite (PRE psi x Lx). unfold part, QpeProofs.moved, to.
  assert (HT : t < length x) by lia.
  assert (Z : getbit x t <> m x -> psi (if m x then flip_at x t else x) = rO).
  { intros G. apply H; [destruct (m x); [rewrite flip_length|]; exact Lx|]. revert G. destruct (m x); [rewrite flip_same by exact HT|]; destruct (getbit x t); cbn [negb]; congruence. }
  assert (Y : getbit x t = m x -> (if m x then flip_at x t else x) = setbit x t false).
  { intros G. rewrite <- G. unfold flip_at. destruct (getbit x t) eqn:E; cbn [negb]; [reflexivity|]. rewrite <- E. symmetry. apply setbit_get. }
  destruct (Bool.eqb (getbit x t) (m x)) eqn:E.
  - apply eqb_prop in E. rewrite (Y E). rewrite <- E. destruct (getbit x t), b; cbn [Bool.eqb negb andb]; ring.
  - assert (E' : getbit x t <> m x) by (intros G; rewrite G, eqb_reflx in E; discriminate). rewrite (Z E').
    destruct (getbit x t), (m x), b; cbn [Bool.eqb negb andb]; try ring; congruence.
Qed.
Context (MF : p_moved forb F) (PX : forall phi chi, same phi chi -> same (P phi) (P chi)) (PS : forall phi chi, same (P (fun x => radd (phi x) (chi x))) (fun x => radd (P phi x) (P chi x))) (POSTX : forall phi chi, same phi chi -> same (post phi) (post chi)).
Lemma F_part c psi x : F (part c psi) x = rmul (if Bool.eqb (getbit x t) c && Bool.eqb (m x) c then expi (s x c) else rO) (F psi (setbit x t false)).
Proof.
  destruct MF as [EX M]. unfold part. rewrite M; [reflexivity| | |].
  - intros y q Q. apply getbit_set_other. lia.
  - intros y q a Q. apply setbit_comm. lia.
  - intros y q a Q NI. rewrite mq, sq, getbit_set_other by (auto; lia). reflexivity.
Qed.
Lemma bracket psi : sup t false psi -> same (P (part b psi)) (F (part b psi)) -> same (P (part (negb b) psi)) (part (negb b) psi) ->
  same (post (P (pre psi))) (fun x => if Bool.eqb (m x) b then F psi x else psi x).
Proof.
  intros H HON HOFF.
  assert (A : same (P (pre psi)) (fun x => radd (F (part b psi) x) (part (negb b) psi x))).
  { intros x Lx. rewrite (PX _ _ (pre_parts psi H) x Lx), (PS _ _ x Lx), (HON x Lx), (HOFF x Lx). reflexivity. }
  intros x Lx. rewrite (POSTX _ _ A x Lx), (POST _ x Lx). rewrite F_part. unfold part, QpeProofs.moved.
  assert (HT : t < length x) by lia.
  assert (TM : m (to x) = m x) by (unfold to; destruct (m x) eqn:E; [unfold flip_at; rewrite mt|]; exact E).
  assert (TS : s (to x) = s x) by (unfold to; destruct (m x); [unfold flip_at; rewrite st|]; reflexivity).
  assert (TB : getbit (to x) t = xorb (m x) (getbit x t)) by (unfold to; destruct (m x); [rewrite flip_same by exact HT|]; destruct (getbit x t); reflexivity).
  assert (TC : setbit (to x) t false = setbit x t false) by (unfold to; destruct (m x); [unfold flip_at; apply setbit_twice|reflexivity]).
  rewrite TM, TS, TB, TC.
  assert (EO : forall c, rmul (expi (- s x c)%Qc) (expi (s x c)) = rI) by (intros c; transitivity (rmul (expi (s x c)) (expi (- s x c)%Qc)); [ring|]; apply (CtrlProofs.e_opp rO rI radd rmul ropp expi chalf shalf im EU)).
  destruct (getbit x t) eqn:G.
  - assert (HF : F psi x = rO) by (apply (mean_sup forb F t false psi MF); [left; lia|exact H|exact Lx|congruence]).
    assert (HP : psi x = rO) by (apply H; [exact Lx|congruence]). rewrite HF, HP.
    destruct (m x), b; cbn [xorb Bool.eqb negb andb]; ring.
  - replace (setbit x t false) with x by (rewrite <- G; symmetry; apply setbit_get).
    destruct (m x) eqn:M, b; cbn [xorb Bool.eqb negb andb];
      [transitivity (rmul (rmul (expi (- s x true)%Qc) (expi (s x true))) (F psi x))|transitivity (rmul (rmul (expi (- s x true)%Qc) (expi (s x true))) (psi x))
      |transitivity (rmul (rmul (expi (- s x false)%Qc) (expi (s x false))) (psi x))|transitivity (rmul (rmul (expi (- s x false)%Qc) (expi (s x false))) (F psi x))]; try ring; rewrite EO; ring.
Qed.
(** if the condition is never met nothing happens *)
Lemma bracket_off psi : sup t false psi -> (forall x, length x = N -> m x = b -> psi x = rO) -> (forall c, same (P (part c psi)) (part c psi)) -> same (post (P (pre psi))) psi.
Proof.
  intros H HM HOFF.
  assert (Z : same (part b psi) (fun _ => rO)).
  { intros x Lx. unfold part, QpeProofs.moved. destruct (Bool.eqb (m x) b) eqn:E; [|rewrite andb_false_r; ring]. apply eqb_prop in E.
    rewrite (HM (setbit x t false)); [ring|rewrite setbit_length; exact Lx|rewrite mt; exact E]. }
  assert (PB : same (P (part b psi)) (F (part b psi))).
  { intros x Lx. rewrite (HOFF b x Lx), (Z x Lx). symmetry. destruct MF as [EX M]. rewrite F_part.
    destruct (Bool.eqb (getbit x t) b && Bool.eqb (m x) b) eqn:E; [|ring]. apply andb_prop in E as [_ E]. apply eqb_prop in E.
    assert (FZ : F psi (setbit x t false) = rO).
    { rewrite (moved_local rO rI radd rmul rsub ropp RT n forb F m MF mq psi (fun _ => rO)); [apply (mean_zero forb F _ MF)|].
      intros y Ly Gy. apply HM; [rewrite setbit_length in Ly; congruence|]. rewrite Gy, mt. exact E. }
    rewrite FZ. ring. }
  intros x Lx. rewrite (bracket psi H PB (HOFF (negb b)) x Lx). destruct (Bool.eqb (m x) b) eqn:E; [|reflexivity]. apply eqb_prop in E.
  rewrite (HM x Lx E). rewrite (moved_local rO rI radd rmul rsub ropp RT n forb F m MF mq psi (fun _ => rO)); [apply (mean_zero forb F _ MF)|].
  intros y Ly Gy. apply HM; congruence.
Qed.
End bracket.
End ring.
