(** Proofs about the quantum switch: the tree. *)
From Coq Require Import List ZArith Bool Lia Arith QArith Qcanon Ring Ring_theory.
Import ListNotations.
From Verif.Inverse Require Import InvModel InvSpec InvProofs.
From Verif.CtrlOps Require Import CtrlModel CtrlSpec CtrlProofs.
From Verif.Fourier Require Import FourierModel FourierSpec RegProofs FourierProofs FourierFinal AdderProofs.
From Verif.Qpe Require Import QpeModel QpeSpec QpeProofs.
From Verif.Amplify Require Import AmpSpec RefProofs.
From Verif.Switch Require Import SwitchModel SwitchSpec BitProofs.
Local Open Scope nat_scope.

Lemma bits_eqb_true : forall a b, bits_eqb a b = true <-> a = b.
Proof.
  induction a as [|x a IH]; intros [|y b]; cbn [bits_eqb]; split; intros H; try discriminate; try reflexivity.
  - apply andb_true_iff in H as [H1 H2]. apply eqb_prop in H1. apply IH in H2. congruence.
  - injection H as -> ->. rewrite eqb_reflx. apply IH. reflexivity.
Qed.
Lemma nodup_l : forall l m : list nat, NoDup (l ++ m) -> NoDup l.
Proof. induction l as [|a l IH]; intros m H; [constructor|]. inversion H; subst. constructor; [intros I; apply H2, in_or_app; auto|eauto]. Qed.
Lemma nodup_r : forall l m : list nat, NoDup (l ++ m) -> NoDup m.
Proof. induction l as [|a l IH]; intros m H; [exact H|]. inversion H; subst. auto. Qed.
Lemma enabled_ext c x y : (forall q, In q (controls c) -> getbit x q = getbit y q) -> enabled c x = enabled c y.
Proof. destruct c as [c|]; cbn [enabled controls]; intros H; [apply H; left|]; reflexivity. Qed.
Lemma skipn_nth (l : list nat) k : k < length l -> skipn k l = nth k l 0 :: skipn (S k) l.
Proof. revert k. induction l as [|a l IH]; intros k H; [cbn in H; lia|]. destruct k; [reflexivity|]. cbn [skipn nth]. apply IH. cbn in H. lia. Qed.

Section ring.
Context {R : Type} (rO rI : R) (radd rmul rsub : R -> R -> R) (ropp : R -> R) (RT : ring_theory rO rI radd rmul rsub ropp eq).
Context (expi chalf shalf : Qc -> R) (im : R) (EU : euler rO rI radd rmul ropp expi chalf shalf im).
Add Ring rr_switch : RT.
Notation amp := (list bool -> R).
Notation effect := (effect Qcplus rO rI radd rmul ropp expi chalf shalf im).
Notation run := (run_circuit Qcplus rO rI radd rmul ropp expi chalf shalf im).
Notation run_app := (FourierProofs.run_app rO rI radd rmul ropp expi chalf shalf im).
Notation run_cons := (FourierProofs.run_cons rO rI radd rmul ropp expi chalf shalf im).
Notation run_x := (RefProofs.run_x rO rI radd rmul rsub ropp RT expi chalf shalf im).
Notation run_x' := (RefProofs.run_x' rO rI radd rmul rsub ropp RT expi chalf shalf im).
Notation run_cx := (FourierProofs.run_cx rO rI radd rmul rsub ropp RT expi chalf shalf im).
Notation selected := (selected rO rI radd rmul ropp expi chalf shalf im).
Lemma run_qx q psi x : run [qX q] psi x = psi (setbit x q (negb (getbit x q))).
Proof. unfold run_circuit, qX. cbn [fold_left]. apply run_x. Qed.
Lemma run_qcx c t psi x : run [qCX c t] psi x = psi (setbit x t (xorb (getbit x t) (getbit x c))).
Proof. unfold run_circuit, qCX. cbn [fold_left]. apply run_cx. Qed.
Lemma run_qccx a b t psi x : run [qCCX a b t] psi x = psi (setbit x t (xorb (getbit x t) (getbit x a && getbit x b))).
Proof.
  unfold run_circuit, qCCX. cbn [fold_left InvSpec.effect length firstn skipn map bits_eqb]. fold (effect (Pauli PX)). 
  destruct (getbit x a), (getbit x b); cbn [Bool.eqb andb]; rewrite ?xorb_false_r, ?setbit_get; try reflexivity.
  rewrite xorb_true_r. apply run_x'.
Qed.

Context (N : nat) (index anc : list nat) (ctrl : option nat).
Notation n := (length index).
Context (LA : length anc = n) (ND : NoDup (index ++ anc ++ controls ctrl)) (BD : forall q, In q (index ++ anc ++ controls ctrl) -> q < N).
Notation a_ := (a_ anc).
Notation ca_ := (ca_ index).
Lemma ND_index : NoDup index. Proof. apply nodup_l in ND. exact ND. Qed.
Lemma ND_anc : NoDup anc. Proof. apply nodup_r, nodup_l in ND. exact ND. Qed.
Lemma in_anc d : d < n -> In (a_ d) anc. Proof. intros H. apply nth_In. rewrite LA. exact H. Qed.
Lemma in_index d : d < n -> In (ca_ d) index. Proof. intros H. apply nth_In. lia. Qed.
Lemma apart : forall l m : list nat, NoDup (l ++ m) -> forall q, In q l -> ~ In q m.
Proof. induction l as [|a l IH]; intros m H q I; [destruct I|]. inversion H; subst. destruct I as [->|I]; [intros J; apply H2, in_or_app; auto|]. apply IH; assumption. Qed.
Lemma anc_index q : In q anc -> ~ In q index.
Proof. intros I J. apply (apart _ _ ND q J). apply in_or_app; auto. Qed.
Lemma anc_ctrl q : In q anc -> ~ In q (controls ctrl).
Proof. apply apart. apply nodup_r in ND. exact ND. Qed.
Lemma index_ctrl q : In q index -> ~ In q (controls ctrl).
Proof. intros I J. apply (apart _ _ ND q I). apply in_or_app; auto. Qed.
Lemma anc_bound d : d < n -> a_ d < N. Proof. intros H. apply BD. apply in_or_app; right; apply in_or_app; left. apply in_anc, H. Qed.
Lemma index_bound d : d < n -> ca_ d < N. Proof. intros H. apply BD. apply in_or_app; left. apply in_index, H. Qed.
Lemma a_inj d e : d < n -> e < n -> a_ d = a_ e -> d = e.
Proof. intros Hd He E. apply (proj1 (NoDup_nth anc 0) ND_anc); [rewrite LA; exact Hd|rewrite LA; exact He|exact E]. Qed.
Lemma enabled_set x q v : ~ In q (controls ctrl) -> enabled ctrl (setbit x q v) = enabled ctrl x.
Proof. clear LA ND BD. intros H. apply enabled_ext. intros p I. apply getbit_set_other. intros ->. contradiction. Qed.

(** ** states in which the ancillas are functions of the other qubits *)
Definition wipe (x : list bool) : list bool := write x anc (repeat false (length anc)).
Definition good (G : list bool -> nat -> bool) (x : list bool) : bool := forallb (fun d => eqb (getbit x (a_ d)) (G x d)) (seq 0 n).
Definition at_ (G : list bool -> nat -> bool) (phi psi : amp) : Prop := forall x, length x = N -> psi x = if good G x then phi (wipe x) else rO.
Definition off (G : list bool -> nat -> bool) : Prop := forall x d e v, e < n -> G (setbit x (a_ e) v) d = G x d.
Lemma good_iff G x : good G x = true <-> forall d, d < n -> getbit x (a_ d) = G x d.
Proof.
  unfold good. rewrite forallb_forall. split; intros H d Hd.
  - apply eqb_prop, H, in_seq. lia.
  - apply in_seq in Hd. rewrite H by lia. apply eqb_reflx.
Qed.
Lemma wipe_length x : length (wipe x) = length x. Proof. apply write_length. Qed.
Lemma at_ext G G' phi phi' psi : (forall x d, length x = N -> d < n -> G x d = G' x d) -> (forall x, length x = N -> phi x = phi' x) -> at_ G phi psi -> at_ G' phi' psi.
Proof.
  intros E1 E2 H x L. rewrite (H x L). rewrite E2 by (rewrite wipe_length; exact L). replace (good G' x) with (good G x); [reflexivity|].
  apply eq_true_iff_eq. rewrite !good_iff. split; intros K d Hd; rewrite K by exact Hd; [|symmetry]; apply E1; assumption.
Qed.
Lemma flip d cond G G' phi psi psi' : d < n -> off G -> (forall x e, length x = N -> e < n -> e <> d -> G x e = G' x e) ->
  (forall x, length x = N -> psi' x = psi (setbit x (a_ d) (xorb (getbit x (a_ d)) (cond x)))) ->
  (forall x, length x = N -> (forall e, e < n -> e <> d -> getbit x (a_ e) = G x e) -> cond x = xorb (G x d) (G' x d)) ->
  at_ G phi psi -> at_ G' phi psi'.
Proof.
  intros Hd O E S C H x L. rewrite S by exact L. rewrite H by (rewrite setbit_length; exact L). unfold wipe at 1. rewrite write_absorb by (apply in_anc, Hd). fold (wipe x).
  match goal with |- (if ?a then _ else _) = (if ?b then _ else _) => replace a with b; [reflexivity|] end.
  apply eq_true_iff_eq. rewrite !good_iff.
  assert (B : a_ d < length x) by (rewrite L; apply anc_bound, Hd).
  assert (NE : forall e, e < n -> e <> d -> a_ e <> a_ d) by (intros e He Hne Q; apply Hne, a_inj; auto).
  split.
  - intros K e He. rewrite O by exact Hd. assert (K' : forall f, f < n -> f <> d -> getbit x (a_ f) = G x f) by (intros f Hf Hn; rewrite K by exact Hf; symmetry; apply E; assumption).
    destruct (Nat.eq_dec e d) as [->|Hn]; [|rewrite getbit_set_other by (apply NE; assumption); apply K'; assumption].
    rewrite getbit_set_same by exact B. rewrite (C x L K'), (K d Hd). destruct (G x d), (G' x d); reflexivity.
  - intros K. assert (K' : forall f, f < n -> f <> d -> getbit x (a_ f) = G x f).
    { intros f Hf Hn. specialize (K f Hf). rewrite O, getbit_set_other in K by (try exact Hd; apply NE; assumption). exact K. }
    intros e He. destruct (Nat.eq_dec e d) as [->|Hn]; [|rewrite K' by assumption; apply E; assumption].
    specialize (K d Hd). rewrite O, getbit_set_same, (C x L K') in K by assumption. destruct (getbit x (a_ d)), (G x d), (G' x d); cbn in *; congruence.
Qed.

(** ** the position in the tree: the ancilla d says whether the d + 1 highest bits of the index are those of the path *)
Definition live (l x : list bool) : bool := enabled ctrl x && bits_eqb (read x (skipn (n - length l) index)) l.
Definition F (l x : list bool) (d : nat) : bool := if d <? length l then live (skipn (length l - 1 - d) l) x else false.
Lemma live_set l x q v : ~ In q index -> ~ In q (controls ctrl) -> live l (setbit x q v) = live l x.
Proof.
  clear LA ND BD. intros H1 H2. unfold live. rewrite enabled_set by exact H2. f_equal. f_equal. unfold read. apply map_ext_in. intros p I. apply getbit_set_other.
  intros ->. apply H1. rewrite <- (firstn_skipn (n - length l) index). apply in_or_app; auto.
Qed.
Lemma F_off l : off (F l).
Proof. intros x d e v He. unfold F. destruct (d <? length l); [|reflexivity]. apply live_set; [apply anc_index|apply anc_ctrl]; apply in_anc, He. Qed.
Lemma live_nil x : live [] x = enabled ctrl x.
Proof. unfold live. cbn [length]. rewrite Nat.sub_0_r, skipn_all. cbn. apply andb_true_r. Qed.
Lemma live_cons b l x : length l < n -> live (b :: l) x = live l x && eqb (getbit x (ca_ (length l))) b.
Proof.
  intros H. unfold live. cbn [length]. rewrite (skipn_nth index (n - S (length l))) by lia. replace (S (n - S (length l))) with (n - length l) by lia.
  cbn [read map bits_eqb]. unfold SwitchModel.ca_. replace (n - 1 - length l) with (n - S (length l)) by lia. fold (read x (skipn (n - length l) index)).
  destruct (enabled ctrl x), (eqb _ b), (bits_eqb _ l); reflexivity.
Qed.
Lemma F_top b l x : F (b :: l) x (length l) = live (b :: l) x.
Proof. unfold F. cbn [length]. rewrite (proj2 (Nat.ltb_lt _ _)) by lia. replace (S (length l) - 1 - length l) with 0 by lia. reflexivity. Qed.
Lemma F_over l x d : length l <= d -> F l x d = false.
Proof. intros H. unfold F. rewrite (proj2 (Nat.ltb_ge _ _)) by lia. reflexivity. Qed.
Lemma F_cons b l x d : d <> length l -> F (b :: l) x d = F l x d.
Proof.
  intros H. destruct (Nat.lt_ge_cases d (length l)).
  - unfold F. cbn [length]. rewrite !(proj2 (Nat.ltb_lt _ _)) by lia. replace (S (length l) - 1 - d) with (S (length l - 1 - d)) by lia. reflexivity.
  - rewrite !F_over by (cbn [length]; lia). reflexivity.
Qed.
Definition par (d : nat) (x : list bool) : bool := match d with O => enabled ctrl x | S e => getbit x (a_ e) end.
Lemma par_live l x : length l < n -> (forall e, e < n -> e <> length l -> getbit x (a_ e) = F l x e) -> par (length l) x = live l x.
Proof.
  intros H K. destruct l as [|b l]; [symmetry; apply live_nil|]. cbn [length par] in *. rewrite K by lia. apply F_top.
Qed.
Lemma run_right d psi x : run (step_right anc ctrl d) psi x = psi (setbit x (a_ d) (xorb (getbit x (a_ d)) (par d x))).
Proof.
  destruct d as [|e]; cbn [step_right par]; [|apply run_qcx]. destruct ctrl as [c|]; cbn [enabled]; [apply run_qcx|]. rewrite run_qx, xorb_true_r. reflexivity.
Qed.
Lemma run_up d psi x : run (up index anc ctrl d) psi x = psi (setbit x (a_ d) (xorb (getbit x (a_ d)) (getbit x (ca_ d) && par d x))).
Proof.
  destruct d as [|e]; cbn [up par]; [|apply run_qccx]. destruct ctrl as [c|]; cbn [enabled]; [apply run_qccx|]. rewrite run_qcx, andb_true_r. reflexivity.
Qed.
Lemma par_set d x q v : d < n -> ~ In q anc -> ~ In q (controls ctrl) -> par d (setbit x q v) = par d x.
Proof.
  intros Hd H1 H2. destruct d as [|e]; cbn [par]; [apply enabled_set, H2|]. apply getbit_set_other. intros <-. apply H1, in_anc. lia.
Qed.
Lemma run_down d psi x : d < n -> length x = N -> run (down index anc ctrl d) psi x = psi (setbit x (a_ d) (xorb (getbit x (a_ d)) (negb (getbit x (ca_ d)) && par d x))).
Proof.
  intros Hd L. unfold down. rewrite !run_app, run_qx, run_up, run_qx.
  assert (NE : a_ d <> ca_ d) by (intros E; apply (anc_index (a_ d)); [apply in_anc, Hd|rewrite E; apply in_index, Hd]).
  assert (B : ca_ d < length x) by (rewrite L; apply index_bound, Hd).
  rewrite par_set; [|exact Hd|intros I; apply (anc_index _ I), in_index, Hd|apply index_ctrl, in_index, Hd].
  rewrite (getbit_set_other _ (ca_ d) (a_ d)) by exact NE. rewrite getbit_set_same by exact B. rewrite (getbit_set_other _ (a_ d) (ca_ d)) by congruence. rewrite getbit_set_same by exact B.
  rewrite (setbit_comm _ (ca_ d) (a_ d)) by congruence. rewrite setbit_twice, negb_involutive.
  rewrite (setbit_comm x (a_ d) (ca_ d)) by congruence. rewrite setbit_get. reflexivity.
Qed.
Lemma L_up l phi psi : length l < n -> at_ (F (true :: l)) phi psi -> at_ (F l) phi (run (up index anc ctrl (length l)) psi).
Proof.
  intros H A. apply (flip (length l) (fun x => getbit x (ca_ (length l)) && par (length l) x) (F (true :: l)) (F l) phi psi); [exact H|apply F_off| | | |exact A].
  - intros x e L He Hn. apply F_cons, Hn.
  - intros x L. apply run_up.
  - intros x L K. rewrite F_top, F_over, live_cons by lia. rewrite (par_live l x); [|exact H|intros e He Hn; rewrite K by assumption; apply F_cons, Hn].
    destruct (getbit x _), (live l x); reflexivity.
Qed.
Lemma L_down l phi psi : length l < n -> at_ (F l) phi psi -> at_ (F (false :: l)) phi (run (down index anc ctrl (length l)) psi).
Proof.
  intros H A. apply (flip (length l) (fun x => negb (getbit x (ca_ (length l))) && par (length l) x) (F l) (F (false :: l)) phi psi); [exact H|apply F_off| | | |exact A].
  - intros x e L He Hn. symmetry. apply F_cons, Hn.
  - intros x L. apply run_down; assumption.
  - intros x L K. rewrite F_top, F_over, live_cons by lia. rewrite (par_live l x); [|exact H|intros e He Hn; apply K; assumption].
    destruct (getbit x _), (live l x); reflexivity.
Qed.
Lemma L_right b l phi psi : length l < n -> at_ (F (b :: l)) phi psi -> at_ (F (negb b :: l)) phi (run (step_right anc ctrl (length l)) psi).
Proof.
  intros H A. apply (flip (length l) (par (length l)) (F (b :: l)) (F (negb b :: l)) phi psi); [exact H|apply F_off| | | |exact A].
  - intros x e L He Hn. rewrite !F_cons by exact Hn. reflexivity.
  - intros x L. apply run_right.
  - intros x L K. rewrite !F_top, !live_cons by lia. rewrite (par_live l x); [|exact H|intros e He Hn; rewrite K by assumption; apply F_cons, Hn].
    destruct (getbit x _), (live l x), b; reflexivity.
Qed.
Definition put (G : list bool -> nat -> bool) (d : nat) (v : list bool -> bool) : list bool -> nat -> bool := fun x e => if e =? d then v x else G x e.
Lemma put_same G d v x : put G d v x d = v x. Proof. unfold put. rewrite Nat.eqb_refl. reflexivity. Qed.
Lemma put_other G d v x e : e <> d -> put G d v x e = G x e. Proof. intros H. unfold put. rewrite (proj2 (Nat.eqb_neq _ _)) by exact H. reflexivity. Qed.
Lemma put_off G d v : off G -> (forall x e w, e < n -> v (setbit x (a_ e) w) = v x) -> off (put G d v).
Proof. intros O V x e f w Hf. unfold put. destruct (e =? d); [apply V, Hf|apply O, Hf]. Qed.
Lemma live_off l x e w : e < n -> live l (setbit x (a_ e) w) = live l x.
Proof. intros He. apply live_set; [apply anc_index|apply anc_ctrl]; apply in_anc, He. Qed.
(** clearing a level whose bit of the path is false *)
Lemma L_back l phi psi : length l < n -> at_ (F (false :: l)) phi psi -> at_ (F l) phi (run (up index anc ctrl (length l) ++ step_right anc ctrl (length l)) psi).
Proof.
  intros H A. rewrite run_app. set (d := length l) in *.
  assert (A1 : at_ (put (F l) d (live l)) phi (run (up index anc ctrl d) psi)).
  { apply (flip d (fun x => getbit x (ca_ d) && par d x) (F (false :: l)) _ phi psi); [exact H|apply F_off| | | |exact A].
    - intros x e L He Hn. rewrite put_other by exact Hn. apply F_cons, Hn.
    - intros x L. apply run_up.
    - intros x L K. subst d. rewrite put_same, F_top, live_cons by lia. rewrite (par_live l x); [|exact H|intros e He Hn; rewrite K by assumption; apply F_cons, Hn].
      destruct (getbit x _), (live l x); reflexivity. }
  apply (flip d (par d) (put (F l) d (live l)) (F l) phi (run (up index anc ctrl d) psi)); [exact H|apply put_off; [apply F_off|intros; apply live_off; assumption]| | | |exact A1].
  - intros x e L He Hn. apply put_other, Hn.
  - intros x L. apply run_right.
  - intros x L K. rewrite put_same. subst d. rewrite F_over by lia. rewrite (par_live l x); [destruct (live l x); reflexivity|exact H|]. intros e He Hn. rewrite K by assumption. apply put_other, Hn.
Qed.
Lemma L_bounce l phi psi c : S (length l) < n -> bounce index anc ctrl (S (length l)) = Some c -> at_ (F (true :: false :: l)) phi psi -> at_ (F (false :: true :: l)) phi (run c psi).
Proof.
  intros H E A. cbn [bounce] in E.
  remember (match length l with O => match ctrl with Some c => [qCCX (ca_ (S (length l))) c (a_ (S (length l)))] | None => [qCX (ca_ (S (length l))) (a_ (S (length l)))] end | S f => [qCCX (ca_ (S (length l))) (a_ f) (a_ (S (length l)))] end) as g eqn:Eg.
  assert (Ec : c = step_right anc ctrl (length l) ++ [qCX (a_ (length l)) (a_ (S (length l)))] ++ g) by congruence. clear E. subst c. rewrite !run_app.
  assert (RG : forall chi x, run g chi x = chi (setbit x (a_ (S (length l))) (xorb (getbit x (a_ (S (length l)))) (getbit x (ca_ (S (length l))) && par (length l) x)))).
  { intros chi x. subst g. destruct (length l) as [|f]; cbn [par]; [|apply run_qccx]. destruct ctrl as [c|]; cbn [enabled]; [apply run_qccx|]. rewrite run_qcx, andb_true_r. reflexivity. }
  set (e := length l) in *. set (d := S e) in *.
  set (G0 := F (true :: false :: l)). set (G1 := put G0 e (live (true :: l))). set (G2 := put G1 d (fun x => xorb (live (true :: false :: l) x) (live (true :: l) x))).
  assert (P : forall x f, f <> d -> f <> e -> G0 x f = F l x f) by (intros x f N1 N2; unfold G0; rewrite !F_cons by (cbn [length]; fold e; fold d; assumption); reflexivity).
  assert (P0 : forall x, G0 x e = live (false :: l) x) by (intros x; unfold G0; rewrite F_cons by (cbn [length]; fold e; lia); apply F_top).
  assert (P1 : forall x, G0 x d = live (true :: false :: l) x) by (intros x; unfold G0; change d with (length (false :: l)); apply F_top).
  assert (O1 : off G1) by (apply put_off; [apply F_off|intros; apply live_off; assumption]).
  assert (O2 : off G2) by (apply put_off; [exact O1|intros; rewrite !live_off by assumption; reflexivity]).
  assert (PL : forall G x, (forall f, f <> d -> f <> e -> G x f = F l x f) -> (forall f, f < n -> f <> d -> f <> e -> getbit x (a_ f) = G x f) -> par e x = live l x).
  { intros G x Q K. unfold e. destruct l as [|b l']; [symmetry; apply live_nil|]. cbn [length par]. subst e d. cbn [length] in *. rewrite K, Q by lia. apply F_top. }
  assert (A1 : at_ G1 phi (run (step_right anc ctrl e) psi)).
  { apply (flip e (par e) G0 G1 phi psi); [lia|apply F_off| | | |exact A].
    - intros x f L Hf Hn. symmetry. apply put_other, Hn.
    - intros x L. apply run_right.
    - intros x L K. unfold G1. rewrite put_same, P0. rewrite (PL G0 x); [|intros f N1 N2; apply P; assumption|intros f Hf N1 N2; apply K; assumption].
      unfold e. rewrite !live_cons by (fold e; lia). destruct (getbit x _), (live l x); reflexivity. }
  assert (A2 : at_ G2 phi (run [qCX (a_ e) (a_ d)] (run (step_right anc ctrl e) psi))).
  { apply (flip d (fun x => getbit x (a_ e)) G1 G2 phi (run (step_right anc ctrl e) psi)); [exact H|exact O1| | | |exact A1].
    - intros x f L Hf Hn. symmetry. apply put_other, Hn.
    - intros x L. apply run_qcx.
    - intros x L K. rewrite K by lia. unfold G2. rewrite put_same. unfold G1. rewrite put_same, put_other, P1 by lia. destruct (live (true :: l) x), (live (true :: false :: l) x); reflexivity. }
  apply (flip d (fun x => getbit x (ca_ d) && par e x) G2 _ phi (run [qCX (a_ e) (a_ d)] (run (step_right anc ctrl e) psi))); [exact H|exact O2| | | |exact A2].
  - intros x f L Hf Hn. unfold G2. rewrite put_other by exact Hn. rewrite F_cons by (cbn [length]; fold e; exact Hn). unfold G1. destruct (Nat.eq_dec f e) as [->|N2].
    + rewrite put_same. symmetry. apply F_top.
    + rewrite put_other, P by assumption. symmetry. apply F_cons. exact N2.
  - intros x L. apply RG.
  - intros x L K. rewrite (PL G2 x).
    2: { intros f N1 N2. unfold G2, G1. rewrite !put_other by assumption. apply P; assumption. }
    2: { intros f Hf N1 N2. apply K; assumption. }
    unfold G2. rewrite put_same. change d with (length (true :: l)) at 2. rewrite F_top. rewrite !live_cons by (cbn [length]; fold e; lia). cbn [length]. fold e. fold d.
    destruct (getbit x (ca_ d)), (getbit x (ca_ e)), (live l x); reflexivity.
Qed.
(** ** a controlled branch *)
Notation acts_free := (acts_off N (index ++ anc ++ controls ctrl)).
Lemma free_index c o qs q : acts_free c -> In (o, qs) c -> In q qs -> ~ In q index /\ ~ In q anc /\ ~ In q (controls ctrl).
Proof. intros [_ A] I J. specialize (A o qs q I J). repeat split; intros K; apply A; rewrite !in_app_iff; auto. Qed.
Lemma L_leaf l c phi psi : length l = n -> 0 < n -> acts_free c -> at_ (F l) phi psi ->
  at_ (F l) (fun y => if live l y then run c phi y else phi y) (run (control_on (a_ (n - 1)) c) psi).
Proof.
  intros Ll Hn AF A x L. assert (AC : acts_off N [a_ (n - 1)] c).
  { split; [apply AF|]. intros o qs q I J [<-|[]]. destruct (free_index c o qs (a_ (n - 1)) AF I J) as (_ & K & _). apply K, in_anc. lia. }
  rewrite (QpeProofs.run_control rO rI radd rmul rsub ropp RT expi chalf shalf im N (a_ (n - 1)) c); [|apply anc_bound; lia|exact AC|exact L].
  set (g := fun y => if good (F l) y then rI else rO).
  assert (RM : run c psi x = rmul (g x) (run c phi (wipe x))).
  { apply (QpeProofs.run_moved rO rI radd rmul rsub ropp RT expi chalf shalf im (fun q => ~ In q index /\ ~ In q anc /\ ~ In q (controls ctrl)) g wipe) with (N := N).
    - intros y q (H1 & H2 & H3). apply write_other, H2.
    - intros y q v (H1 & H2 & H3). apply write_set, H2.
    - intros y q v (H1 & H2 & H3). unfold g. replace (good (F l) (setbit y q v)) with (good (F l) y); [reflexivity|].
      apply eq_true_iff_eq. rewrite !good_iff. assert (E : forall d, d < n -> getbit (setbit y q v) (a_ d) = getbit y (a_ d)) by (intros d Hd; apply getbit_set_other; intros E; apply H2; rewrite <- E; apply in_anc, Hd).
      assert (E' : forall d, F l (setbit y q v) d = F l y d) by (intros d; unfold F; destruct (d <? length l); [apply live_set; assumption|reflexivity]).
      split; intros K d Hd; specialize (K d Hd); rewrite ?E, ?E' in * by exact Hd; exact K.
    - apply AF.
    - intros o qs q I J. apply (free_index c o qs q AF I J).
    - intros y Ly. unfold moved, g. rewrite (A y) by congruence. destruct (good (F l) y); ring. }
  rewrite RM. unfold g. rewrite (A x L). destruct (good (F l) x) eqn:G; [|destruct (getbit x _); ring].
  assert (LW : live l (wipe x) = live l x).
  { unfold live. f_equal.
    - apply enabled_ext. intros q I. apply write_other. intros J. apply (anc_ctrl _ J I).
    - f_equal. apply read_write_off. intros p I J. apply (anc_index p J). rewrite <- (firstn_skipn (n - length l) index). apply in_or_app; auto. }
  rewrite LW. assert (GA := proj1 (good_iff _ _) G (n - 1) ltac:(lia)). destruct l as [|b l]; [cbn in Ll; lia|]. replace (n - 1) with (length l) in GA |- * by (cbn in Ll; lia). rewrite GA, F_top.
  destruct (live (b :: l) x); ring.
Qed.

(** ** the walk through the leaves *)
Context (branch : nat -> option body) (U : nat -> body) (amount : nat) (psi0 : amp).
Context (HN : 0 < n) (AM : amount <= 2 ^ n) (BR : forall i, i < amount -> branch i = Some (U i) /\ acts_free (U i)).
Notation sel k := (selected index ctrl k U psi0).
Lemma live_value i y : i < 2 ^ n -> length y = N -> live (bits n i) y = enabled ctrl y && (Z.to_nat (value y index) =? i).
Proof.
  clear LA ND BD. intros Hi L. unfold live. rewrite bits_length, Nat.sub_diag. cbn [skipn]. f_equal. apply eq_true_iff_eq. rewrite bits_eqb_true, Nat.eqb_eq. apply bits_number_nat, Hi.
Qed.
Lemma sel_step i y : i < amount -> length y = N -> sel (S i) y = if live (bits n i) y then run (U i) (sel i) y else sel i y.
Proof.
  clear LA ND BD HN. intros Hi L. rewrite live_value by (try lia; exact L). unfold SwitchSpec.selected at 1 3. cbv zeta. destruct (Nat.eqb_spec (Z.to_nat (value y index)) i) as [E|E].
  - rewrite E. rewrite (proj2 (Nat.ltb_lt _ _)) by lia. rewrite (proj2 (Nat.ltb_ge i i)) by lia. rewrite !andb_true_r, !andb_false_r. destruct (enabled ctrl y) eqn:En; [|reflexivity].
    destruct (BR i Hi) as [_ AF]. set (g := fun z => if live (bits n i) z then rI else rO).
    assert (M : forall phi, run (U i) (fun z => rmul (g z) (phi z)) y = rmul (g y) (run (U i) phi y)).
    { intros phi. apply (QpeProofs.run_moved rO rI radd rmul rsub ropp RT expi chalf shalf im (fun q => ~ In q index /\ ~ In q anc /\ ~ In q (controls ctrl)) g (fun z => z)) with (N := N); try reflexivity.
      - intros z q v (H1 & H2 & H3). unfold g. rewrite live_set by assumption. reflexivity.
      - apply AF.
      - intros o qs q I J. apply (free_index (U i) o qs q AF I J). }
    assert (GY : g y = rI) by (unfold g; rewrite live_value, En, E, Nat.eqb_refl by (try lia; exact L); reflexivity).
    transitivity (run (U i) (fun z => rmul (g z) (psi0 z)) y); [rewrite M, GY; ring|]. transitivity (run (U i) (fun z => rmul (g z) (sel i z)) y); [|rewrite M, GY; ring].
    apply (AdderProofs.run_ext rO rI radd rmul ropp expi chalf shalf im N (U i)); [apply AF| |exact L]. intros z Lz. unfold g. rewrite live_value by (try lia; exact Lz).
    unfold SwitchSpec.selected. cbv zeta. destruct (Nat.eqb_spec (Z.to_nat (value z index)) i) as [Ez|Ez]; [rewrite Ez, (proj2 (Nat.ltb_ge i i)), andb_false_r by lia; reflexivity|rewrite andb_false_r; ring].
  - rewrite andb_false_r. replace (Z.to_nat (value y index) <? S i) with (Z.to_nat (value y index) <? i); [reflexivity|]. apply eq_true_iff_eq. rewrite !Nat.ltb_lt. lia.
Qed.
Lemma L_visit i c psi : i < amount -> guarded index anc branch i = Some c -> at_ (F (bits n i)) (sel i) psi -> at_ (F (bits n i)) (sel (S i)) (run c psi).
Proof.
  intros Hi E A. destruct (BR i Hi) as [EB AF]. unfold guarded in E. rewrite EB in E. cbn [option_map] in E. assert (Ec : c = control_on (a_ (n - 1)) (U i)) by congruence. subst c.
  apply (at_ext (F (bits n i)) _ (fun y => if live (bits n i) y then run (U i) (sel i) y else sel i y)); [reflexivity| |].
  - intros y L. symmetry. apply sel_step; assumption.
  - apply L_leaf; [apply bits_length|exact HN|exact AF|exact A].
Qed.
Lemma L_pair i c psi : S (2 * i) < amount -> leaf index anc ctrl branch (2 * i) = Some c -> at_ (F (bits n (2 * i))) (sel (2 * i)) psi -> at_ (F (bits n (S (2 * i)))) (sel (S (S (2 * i)))) (run c psi).
Proof.
  intros Hi E A. unfold leaf in E. destruct (guarded index anc branch (2 * i)) as [c1|] eqn:E1; [|discriminate]. destruct (guarded index anc branch (S (2 * i))) as [c2|] eqn:E2; [|discriminate].
  assert (Ec : c = c1 ++ step_right anc ctrl (n - 1) ++ c2) by congruence. subst c. rewrite !run_app. apply L_visit; [exact Hi|exact E2|].
  assert (A1 : at_ (F (bits n (2 * i))) (sel (S (2 * i))) (run c1 psi)) by (apply L_visit; [lia|exact E1|exact A]).
  assert (NS : exists m, n = S m) by (exists (n - 1); lia). destruct NS as [m Em].
  assert (D : bits n (S (2 * i)) = true :: bits m i /\ bits n (2 * i) = false :: bits m i).
  { rewrite Em. rewrite <- !bits_double. split; f_equal; cbn; lia. }
  destruct D as [D1 D2]. rewrite D1. rewrite D2 in A1.
  replace (n - 1) with (length (bits m i)) by (rewrite bits_length; lia). change true with (negb false) at 1. apply L_right; [rewrite bits_length; lia|exact A1].
Qed.
Lemma L_ups : forall t l phi psi k, length l + t <= n -> k = n - (length l + t) -> at_ (F (repeat true t ++ l)) phi psi -> at_ (F l) phi (run (flat_map (fun j => up index anc ctrl (n - j - 1)) (seq k t)) psi).
Proof.
  induction t as [|t IH]; intros l phi psi k H Hk A; [exact A|]. cbn [seq flat_map]. rewrite run_app. apply IH; [lia|lia|].
  replace (n - k - 1) with (length (repeat true t ++ l)) by (rewrite app_length, repeat_length; lia). apply L_up; [rewrite app_length, repeat_length; lia|exact A].
Qed.
Lemma L_downs : forall t l phi psi k m, length l + t <= n -> m + k = length l -> at_ (F l) phi psi -> at_ (F (repeat false t ++ l)) phi (run (flat_map (fun j => down index anc ctrl (m + j)) (seq k t)) psi).
Proof.
  induction t as [|t IH]; intros l phi psi k m H Hk A; [exact A|]. cbn [seq flat_map]. rewrite run_app.
  change (repeat false (S t) ++ l) with (false :: repeat false t ++ l). 
  replace (false :: repeat false t ++ l) with (repeat false t ++ false :: l) by (clear; induction t; cbn [repeat app]; congruence).
  apply IH; [cbn [length]; lia|cbn [length]; lia|]. rewrite Hk. apply L_down; [lia|exact A].
Qed.
Lemma L_body pos c psi : S (S (2 * pos)) < amount -> body_fun index anc ctrl branch pos = Some c ->
  at_ (F (bits n (2 * pos))) (sel (2 * pos)) psi -> at_ (F (bits n (2 * S pos))) (sel (2 * S pos)) (run c psi).
Proof.
  intros Hp E A. unfold body_fun in E. cbv zeta in E. destruct (leaf index anc ctrl branch (2 * pos)) as [c1|] eqn:E1; [|discriminate].
  assert (NS : exists m, n = S m) by (exists (n - 1); lia). destruct NS as [m Em]. assert (AM' : amount <= 2 * 2 ^ m) by (rewrite Em in AM; exact AM).
  destruct (carry m pos ltac:(lia)) as (t & r & B1 & B2 & B3). rewrite B3 in E. replace (S t - 1) with t in E by lia. destruct (bounce index anc ctrl (n - S t)) as [c2|] eqn:E2; [|discriminate].
  assert (LL : t + S (length r) = m) by (rewrite <- (bits_length m pos), B1, app_length, repeat_length; reflexivity).
  assert (Ec : c = c1 ++ flat_map (fun j => up index anc ctrl (n - j - 1)) (seq 0 t) ++ c2 ++ flat_map (fun j => down index anc ctrl (n - t + j)) (seq 0 t)) by congruence. clear E. subst c. rewrite !run_app.
  assert (A1 := L_pair pos c1 psi ltac:(lia) E1 A). replace (2 * S pos) with (S (S (2 * pos))) by lia.
  remember (run c1 psi) as psi1 eqn:Z. clear Z psi A. rename psi1 into psi. set (phi := sel (S (S (2 * pos)))) in *.
  replace (bits n (S (S (2 * pos)))) with (repeat false t ++ false :: true :: r).
  2: { rewrite Em. replace (S (S (2 * pos))) with (2 * S pos + Nat.b2n false) by (cbn; lia). rewrite bits_double, B2. clear. induction t; cbn [repeat app]; congruence. }
  apply L_downs; [cbn [length]; lia|cbn [length]; lia|]. replace (n - S t) with (S (length r)) in E2 by lia. apply L_bounce; [lia|exact E2|].
  apply L_ups; [cbn [length]; lia|cbn [length]; lia|]. replace (repeat true t ++ true :: false :: r) with (bits n (S (2 * pos))); [exact A1|].
  rewrite Em. replace (S (2 * pos)) with (2 * pos + Nat.b2n true) by (cbn; lia). rewrite bits_double, B1. clear. induction t; cbn [repeat app]; congruence.
Qed.
Lemma L_loop : forall times pos c psi, 2 * (pos + times) < amount -> loop index anc ctrl branch pos times = Some c ->
  at_ (F (bits n (2 * pos))) (sel (2 * pos)) psi -> at_ (F (bits n (2 * (pos + times)))) (sel (2 * (pos + times))) (run c psi).
Proof.
  induction times as [|t IH]; intros pos c psi H E A; cbn [loop] in E.
  - assert (c = []) by congruence. subst c. rewrite Nat.add_0_r. exact A.
  - destruct (body_fun index anc ctrl branch pos) as [c1|] eqn:E1; [|discriminate]. destruct (loop index anc ctrl branch (S pos) t) as [c2|] eqn:E2; [|discriminate].
    assert (Ec : c = c1 ++ c2) by congruence. subst c. rewrite run_app. replace (pos + S t) with (S pos + t) by lia. apply IH; [lia|exact E2|]. apply L_body; [lia|exact E1|exact A].
Qed.
Lemma L_go_back i phi psi : i < 2 ^ n -> at_ (F (bits n i)) phi psi -> at_ (F []) phi (run (go_back index anc ctrl (S i)) psi).
Proof.
  intros Hi A. unfold go_back. assert (G : forall k j psi, j + k = n -> at_ (F (skipn j (bits n i))) phi psi ->
    at_ (F []) phi (run (flat_map (fun j => up index anc ctrl (n - j - 1) ++ (if Nat.testbit (2 ^ n - S i) j then step_right anc ctrl (n - j - 1) else [])) (seq j k)) psi)).
  { induction k as [|k IH]; intros j chi Hj B.
    - rewrite skipn_all2 in B by (rewrite bits_length; lia). exact B.
    - cbn [seq flat_map]. rewrite run_app. apply IH; [lia|]. rewrite skipn_bits in B by lia. rewrite complement by lia.
      replace (n - j - 1) with (length (skipn (S j) (bits n i))) by (rewrite skipn_length, bits_length; lia). assert (length (skipn (S j) (bits n i)) < n) by (rewrite skipn_length, bits_length; lia).
      destruct (Nat.testbit i j); cbn [negb]; [rewrite app_nil_r; apply L_up|apply L_back]; assumption. }
  apply (G n 0 psi); [reflexivity|exact A].
Qed.
Lemma L_tree c psi : tree_switch index anc ctrl branch amount = Some c -> at_ (F []) psi0 psi -> at_ (F []) (sel amount) (run c psi).
Proof.
  intros E A. unfold tree_switch in E. assert (NS : exists m, n = S m) by (exists (n - 1); lia). destruct NS as [m Em]. rewrite Em in E at 1. destruct amount as [|b'] eqn:Eb; [discriminate|]. rewrite <- Eb in *.
  destruct (loop index anc ctrl branch 0 ((amount + 1) / 2 - 1)) as [c1|] eqn:E1; [|discriminate].
  destruct (if Nat.even amount then leaf index anc ctrl branch (amount - 2) else guarded index anc branch (amount - 1)) as [c2|] eqn:E2; [|discriminate].
  assert (Ec : c = flat_map (down index anc ctrl) (seq 0 n) ++ c1 ++ c2 ++ go_back index anc ctrl amount) by congruence. clear E. subst c. rewrite !run_app.
  assert (A0 : at_ (F (bits n 0)) (sel 0) (run (flat_map (down index anc ctrl) (seq 0 n)) psi)).
  { apply (at_ext (F (bits n 0)) _ psi0); [reflexivity|intros y _; unfold SwitchSpec.selected; cbv zeta; rewrite (proj2 (Nat.ltb_ge _ 0)) by lia; rewrite andb_false_r; reflexivity|].
    replace (bits n 0) with (repeat false n ++ []).
    - apply (L_downs n [] psi0 psi 0 0); [cbn; lia|reflexivity|exact A].
    - rewrite app_nil_r. symmetry. apply bits_zero. }
  assert (A2 : at_ (F (bits n (amount - 1))) (sel amount) (run c2 (run c1 (run (flat_map (down index anc ctrl) (seq 0 n)) psi)))).
  { destruct (Nat.Even_or_Odd amount) as [[k Ek]|[k Ek]].
    - rewrite (proj2 (Nat.even_spec amount)) in E2 by (exists k; exact Ek). replace ((amount + 1) / 2 - 1) with (k - 1) in E1 by (rewrite Ek; replace (2 * k + 1) with (1 + k * 2) by lia; rewrite Nat.div_add by lia; reflexivity).
      assert (A1 := L_loop (k - 1) 0 c1 _ ltac:(lia) E1 A0). cbn [Nat.add] in A1. replace (amount - 2) with (2 * (k - 1)) in E2 by lia.
      assert (A2 := L_pair (k - 1) c2 _ ltac:(lia) E2 A1). replace (S (2 * (k - 1))) with (amount - 1) in A2 by lia. replace (S (amount - 1)) with amount in A2 by lia. exact A2.
    - replace (Nat.even amount) with false in E2 by (symmetry; rewrite <- Nat.negb_odd, (proj2 (Nat.odd_spec amount)) by (exists k; exact Ek); reflexivity).
      replace ((amount + 1) / 2 - 1) with k in E1 by (rewrite Ek; replace (2 * k + 1 + 1) with (S k * 2) by lia; rewrite Nat.div_mul by lia; lia).
      assert (A1 := L_loop k 0 c1 _ ltac:(lia) E1 A0). cbn [Nat.add] in A1. replace (2 * k) with (amount - 1) in A1 by lia.
      assert (A2 := L_visit (amount - 1) c2 _ ltac:(lia) E2 A1). replace (S (amount - 1)) with amount in A2 by lia. exact A2. }
  replace amount with (S (amount - 1)) at 2 by lia. apply L_go_back; [lia|exact A2].
Qed.
End ring.
