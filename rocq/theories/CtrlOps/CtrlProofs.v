From Coq Require Import Ring Field Ring_theory Ascii FinFun.
From Verif.Gray Require Import GrayModel GraySpec GrayProofs GrayFinal GrayRange.
From Verif.Inverse Require Import InvModel InvSpec InvProofs.
From Verif.CtrlOps Require Import CtrlModel CtrlSpec.
Local Open Scope nat_scope.

(** ** bit lists as numbers *)
Fixpoint bitsN (l : list bool) : N := match l with [] => 0%N | b :: l => (2 * bitsN l + (if b then 1 else 0))%N end.
Lemma tb_bitsN : forall l j, tb (bitsN l) j = nth j l false.
Proof.
  induction l as [|b l IH]; intros j; [cbn [bitsN]; rewrite tb_0; destruct j; reflexivity|]. cbn [bitsN]. destruct j as [|j].
  - unfold tb. cbn [N.of_nat nth]. destruct b; [apply N.testbit_odd_0|rewrite N.add_0_r; apply N.testbit_even_0].
  - cbn [nth]. rewrite <- IH. unfold tb. rewrite Nat2N.inj_succ. destruct b; [apply N.testbit_odd_succ; lia|rewrite N.add_0_r; apply N.testbit_even_succ; lia].
Qed.
Lemma bitsN_state l : state (length l) (bitsN l).
Proof. apply state_bits. intros j Hj. rewrite tb_bitsN. apply nth_overflow, Hj. Qed.
Lemma getbit_ext x y : length x = length y -> (forall q, q < length x -> getbit x q = getbit y q) -> x = y.
Proof. intros L H. apply (nth_ext _ _ false false L). exact H. Qed.
Lemma nth_skipn {A} (l : list A) k i d : nth i (skipn k l) d = nth (k + i) l d.
Proof. revert l. induction k as [|k IH]; intros [|a l]; cbn; auto. destruct i; reflexivity. Qed.
Lemma getbit_over x q : length x <= q -> getbit x q = false.
Proof. apply nth_overflow. Qed.

Section ring.
Context {R : Type} (rO rI : R) (radd rmul rsub : R -> R -> R) (ropp : R -> R) (RT : ring_theory rO rI radd rmul rsub ropp eq).
Context (expi chalf shalf : Qc -> R) (im : R).
Context (EU : euler rO rI radd rmul ropp expi chalf shalf im).
Add Ring rr : RT.
Notation effect := (effect Qcplus rO rI radd rmul ropp expi chalf shalf im).
Notation run_body := (run_body Qcplus rO rI radd rmul ropp expi chalf shalf im).
Notation amp := (@amp R).
Notation on_qubit := (on_qubit radd rmul).
Notation "a + b" := (radd a b). Notation "a * b" := (rmul a b). Notation "- a" := (ropp a).

(** ** angles *)
Lemma e_add a b : expi (a + b)%Qc = expi a * expi b. Proof. apply EU. Qed.
Lemma e_0 : expi 0%Qc = rI. Proof. apply EU. Qed.
Lemma e_1 : expi 1%Qc = - rI. Proof. apply EU. Qed.
Lemma e_im : expi q_half = im. Proof. apply EU. Qed.
Lemma e_euler a : expi (a / (1 + 1))%Qc = chalf a + im * shalf a. Proof. apply EU. Qed.
Lemma e_even a : chalf (- a)%Qc = chalf a. Proof. apply EU. Qed.
Lemma e_odd a : shalf (- a)%Qc = - shalf a. Proof. apply EU. Qed.
Lemma two_cancel a b : a + a = b + b -> a = b.
Proof.
  destruct EU as (_ & _ & _ & _ & _ & _ & _ & (half & Hh)). intros H. transitivity ((half + half) * a); [rewrite Hh; ring|]. transitivity ((half + half) * b); [|rewrite Hh; ring].
  transitivity (half * (a + a)); [ring|]. rewrite H. ring.
Qed.
Lemma e_opp a : expi a * expi (- a)%Qc = rI.
Proof. rewrite <- e_add, Qcplus_opp_r. apply e_0. Qed.
Lemma im_im : im * im = - rI.
Proof. rewrite <- e_im, <- e_add. replace (q_half + q_half)%Qc with 1%Qc; [apply e_1|]. unfold q_half. field. discriminate. Qed.
Lemma e_euler' a : expi (- (a / (1 + 1)))%Qc = chalf a + - (im * shalf a).
Proof. replace (- (a / (1 + 1)))%Qc with (- a / (1 + 1))%Qc by (field; discriminate). rewrite e_euler, e_even, e_odd. ring. Qed.
Lemma c_s a : chalf a * chalf a + shalf a * shalf a = rI.
Proof.
  pose proof (e_opp (a / (1 + 1))%Qc) as H. rewrite e_euler, e_euler' in H. rewrite <- H. pose proof im_im as I. ring [I].
Qed.
Lemma angle_ok : angle_laws Qcplus rI radd rmul ropp expi chalf shalf im Qcopp.
Proof. split; [exact e_add|]. split; [exact e_opp|]. split; [exact e_even|]. split; [exact e_odd|]. split; [exact c_s|exact im_im]. Qed.
Lemma c_add a b : chalf (a + b)%Qc = chalf a * chalf b + - (shalf a * shalf b).
Proof.
  apply two_cancel. pose proof im_im as I.
  transitivity (expi ((a + b) / (1 + 1))%Qc + expi (- ((a + b) / (1 + 1)))%Qc); [rewrite e_euler, e_euler'; ring|].
  replace ((a + b) / (1 + 1))%Qc with (a / (1 + 1) + b / (1 + 1))%Qc by (field; discriminate).
  replace (- (a / (1 + 1) + b / (1 + 1)))%Qc with (- (a / (1 + 1)) + - (b / (1 + 1)))%Qc by ring. rewrite !e_add, !e_euler, !e_euler'. ring [I].
Qed.
Lemma s_add a b : shalf (a + b)%Qc = shalf a * chalf b + chalf a * shalf b.
Proof.
  assert (C : im * shalf (a + b)%Qc = im * (shalf a * chalf b + chalf a * shalf b)).
  { apply two_cancel. pose proof im_im as I.
    transitivity (expi ((a + b) / (1 + 1))%Qc + - expi (- ((a + b) / (1 + 1)))%Qc); [rewrite e_euler, e_euler'; ring|].
    replace ((a + b) / (1 + 1))%Qc with (a / (1 + 1) + b / (1 + 1))%Qc by (field; discriminate).
    replace (- (a / (1 + 1) + b / (1 + 1)))%Qc with (- (a / (1 + 1)) + - (b / (1 + 1)))%Qc by ring. rewrite !e_add, !e_euler, !e_euler'. ring [I]. }
  transitivity (- im * (im * shalf (a + b)%Qc)); [pose proof im_im as I; ring [I]|]. rewrite C. pose proof im_im as I. ring [I].
Qed.
Lemma c_0 : chalf 0%Qc = rI.
Proof.
  apply two_cancel. transitivity (expi (0 / (1 + 1))%Qc + expi (- (0 / (1 + 1)))%Qc); [rewrite e_euler, e_euler'; ring|].
  replace (- (0 / (1 + 1)))%Qc with 0%Qc by (field; discriminate). replace (0 / (1 + 1))%Qc with 0%Qc by (field; discriminate). rewrite e_0. ring.
Qed.
Lemma s_0 : shalf 0%Qc = rO.
Proof. pose proof (e_odd 0%Qc) as H. replace (- 0)%Qc with 0%Qc in H by ring. apply two_cancel. transitivity (shalf 0%Qc + - shalf 0%Qc); [rewrite <- H|]; ring. Qed.

(** ** matrices *)
Definition mat := bool -> bool -> R.
Definition mI : mat := fun o i => if Bool.eqb o i then rI else rO.
Definition mmul (m p : mat) : mat := fun o i => m o false * p false i + m o true * p true i.
Definition diag (a b : R) : mat := fun o i => if Bool.eqb o i then (if o then b else a) else rO.
Definition meq (m p : mat) : Prop := forall o i, m o i = p o i.
Lemma on_ext m p q psi x : meq m p -> on_qubit m q psi x = on_qubit p q psi x.
Proof. intros H. unfold InvSpec.on_qubit. rewrite !H. reflexivity. Qed.
Lemma on_mul m p q psi x : q < length x -> on_qubit m q (on_qubit p q psi) x = on_qubit (mmul m p) q psi x.
Proof. intros H. unfold InvSpec.on_qubit, mmul. rewrite !getbit_set_same, !setbit_twice by exact H. ring. Qed.
Lemma on_I q psi x : on_qubit mI q psi x = psi x.
Proof. unfold InvSpec.on_qubit, mI. pose proof (setbit_get x q) as E. destruct (getbit x q); rewrite E; cbn [Bool.eqb]; ring. Qed.
Lemma on_scalar a q psi x : on_qubit (diag a a) q psi x = a * psi x.
Proof. unfold InvSpec.on_qubit, diag. pose proof (setbit_get x q) as E. destruct (getbit x q); rewrite E; cbn [Bool.eqb]; ring. Qed.
Lemma on_diag a b q psi x : on_qubit (diag a b) q psi x = (if getbit x q then b else a) * psi x.
Proof. unfold InvSpec.on_qubit, diag. pose proof (setbit_get x q) as E. destruct (getbit x q); rewrite E; cbn [Bool.eqb]; ring. Qed.

(** ** Gray circuits are diagonal *)
Definition fits (qs : list nat) (x : list bool) : Prop := forall q, In q qs -> q < length x.
Definition vec (qs : list nat) (x : list bool) : N := bitsN (map (getbit x) qs).
Lemma tb_vec qs x j : j < length qs -> tb (vec qs x) j = getbit x (nth j qs 0).
Proof. intros H. unfold vec. rewrite tb_bitsN, (nth_indep _ false (getbit x 0)) by (rewrite map_length; exact H). apply map_nth. Qed.
Lemma vec_state qs x : state (length qs) (vec qs x).
Proof. unfold vec. rewrite <- (map_length (getbit x) qs). apply bitsN_state. Qed.
Lemma p_matrix theta phi lam gp : theta = 0%Qc -> gp = 0%Qc -> meq (u3_matrix Qcplus rmul ropp expi chalf shalf theta phi lam gp) (diag rI (expi (lam + phi)%Qc)).
Proof. intros -> -> [] []; unfold u3_matrix, diag; cbn [Bool.eqb]; rewrite ?c_0, ?s_0, e_0; try ring. rewrite (Qcplus_comm lam). ring. Qed.
Lemma gray_run qs : NoDup qs -> forall l, Forall (gate_ok (length qs)) l -> forall x, fits qs x ->
  exists y, vec qs y = snd (action l (vec qs x)) /\ agree_off qs x y /\ forall psi, run_body qs (gray_ops l) psi y = expi (fst (action l (vec qs x))) * psi x.
Proof.
  intros ND l F. induction F as [|g l G F IH]; intros x Hx.
  - exists x. split; [reflexivity|]. split; [apply agree_refl|]. intros psi. cbn [action fst gray_ops map InvProofs.run_body]. rewrite e_0. ring.
  - destruct g as [c t|a q]; cbn [gate_ok] in G.
    + destruct G as (Hc & Ht & Hct). set (qc := nth c qs 0). set (qt := nth t qs 0).
      assert (Hne : qc <> qt) by (intros E; apply Hct; apply (proj1 (NoDup_nth qs 0) ND); assumption).
      assert (It : In qt qs) by (apply nth_In, Ht). assert (Ic : In qc qs) by (apply nth_In, Hc).
      set (x1 := if getbit x qc then setbit x qt (negb (getbit x qt)) else x).
      assert (Hx1 : fits qs x1) by (unfold x1; destruct (getbit x qc); [intros q Iq; rewrite setbit_length; apply Hx, Iq|exact Hx]).
      assert (A1 : agree_off qs x x1) by (unfold x1; destruct (getbit x qc); [apply agree_set, It|apply agree_refl]).
      assert (V1 : vec qs x1 = if tb (vec qs x) c then N.lxor (vec qs x) (bit t) else vec qs x).
      { rewrite tb_vec by exact Hc. fold qc. unfold x1. destruct (getbit x qc); [|reflexivity]. apply N_ext. intros j. rewrite tb_lxor, tb_bit.
        destruct (Nat.lt_ge_cases j (length qs)) as [Hj|Hj].
        - rewrite !tb_vec by exact Hj. destruct (Nat.eqb_spec t j) as [<-|Htj].
          + fold qt. rewrite getbit_set_same by apply Hx, It. destruct (getbit x qt); reflexivity.
          + rewrite getbit_set_other, xorb_false_r; [reflexivity|]. intros E. apply Htj. symmetry. apply (proj1 (NoDup_nth qs 0) ND); assumption.
        - rewrite !(proj1 (state_bits _ _) (vec_state qs _)) by exact Hj. destruct (Nat.eqb_spec t j); [lia|reflexivity]. }
      destruct (IH x1 Hx1) as (y & Vy & Ay & Ry). exists y. cbn [action]. rewrite <- V1. split; [exact Vy|]. split; [exact (agree_trans _ _ _ _ A1 Ay)|].
      intros psi. cbn [gray_ops map InvProofs.run_body globals]. fold qc qt. change (map _ l) with (gray_ops l). rewrite Ry. f_equal.
      cbn [InvSpec.effect gCX gX length firstn skipn map]. cbn [bits_eqb nth].
      assert (G1 : getbit x1 qc = getbit x qc) by (unfold x1; destruct (getbit x qc) eqn:E; [rewrite getbit_set_other by exact Hne; exact E|exact E]).
      rewrite G1. unfold x1. destruct (getbit x qc); cbn [Bool.eqb andb]; [|reflexivity]. unfold InvSpec.on_qubit. rewrite getbit_set_same, !setbit_twice by apply Hx, It.
      pose proof (setbit_get x qt) as E. destruct (getbit x qt); cbn [negb pauli_matrix]; rewrite E; ring.
    + set (qq := nth q qs 0). destruct (IH x Hx) as (y & Vy & Ay & Ry). exists y. cbn [action]. destruct (action l (vec qs x)) as [p w] eqn:EA. cbn [fst snd] in *.
      split; [exact Vy|]. split; [exact Ay|]. intros psi. cbn [gray_ops map InvProofs.run_body globals]. fold qq. change (map _ l) with (gray_ops l). rewrite Ry.
      cbn [InvSpec.effect gP mk_u3 nth]. rewrite (on_ext _ _ _ _ _ (p_matrix 0%Qc 0%Qc a 0%Qc eq_refl eq_refl)), on_diag, tb_vec by exact G. fold qq.
      replace (a + 0)%Qc with a by ring. destruct (getbit x qq); [rewrite e_add|]; ring.
Qed.
Lemma gray_diag qs l phi x psi : NoDup qs -> Forall (gate_ok (length qs)) l -> fits qs x -> action l (vec qs x) = (phi, vec qs x) ->
  run_body qs (gray_ops l) psi x = expi phi * psi x.
Proof.
  intros ND F Hx E. destruct (gray_run qs ND l F x Hx) as (y & Vy & (Ly & Ay) & Ry). rewrite E in Vy, Ry. cbn [fst snd] in *.
  assert (Exy : y = x); [|subst y; apply Ry]. apply getbit_ext; [exact Ly|]. intros q Hq. destruct (in_dec Nat.eq_dec q qs) as [I|NI]; [|apply Ay, NI].
  destruct (In_nth _ _ 0 I) as (j & Hj & <-). rewrite <- !tb_vec by exact Hj. rewrite Vy. reflexivity.
Qed.

(** ** blocks: circuits that act on the last of [S n] qubits by a matrix that depends on the others *)
Section block.
Context (n : nat) (qs : list nat) (ND : NoDup qs) (LQ : length qs = S n).
Notation tq := (nth n qs 0).
Definition ctl (x : list bool) : list bool := map (getbit x) (firstn n qs).
Definition blk (F : amp -> amp) (M : list bool -> mat) : Prop := forall psi x, fits qs x -> F psi x = on_qubit (M (ctl x)) tq psi x.
Lemma tq_in : In tq qs. Proof. apply nth_In. lia. Qed.
Lemma tq_lt x : fits qs x -> tq < length x. Proof. intros H. apply H, tq_in. Qed.
Lemma qs_split : qs = firstn n qs ++ [tq].
Proof. rewrite <- (firstn_skipn n qs) at 1. f_equal. apply (nth_ext _ _ 0 0); rewrite skipn_length, LQ; [cbn [length]; lia|]. intros i Hi. rewrite nth_skipn. replace i with 0 by lia. rewrite Nat.add_0_r. reflexivity. Qed.
Lemma skip_qs : skipn n qs = [tq].
Proof. rewrite qs_split at 1. rewrite skipn_app, skipn_all2 by (rewrite firstn_length; lia). rewrite firstn_length. replace (n - Nat.min n (length qs)) with 0 by lia. reflexivity. Qed.
Lemma tq_not : ~ In tq (firstn n qs).
Proof. pose proof ND as H. rewrite qs_split in H. apply NoDup_remove in H. rewrite app_nil_r in H. tauto. Qed.
Lemma fits_set x q b : fits qs x -> fits qs (setbit x q b).
Proof. intros H p Hp. rewrite setbit_length. apply H, Hp. Qed.
Lemma ctl_set x b : ctl (setbit x tq b) = ctl x.
Proof. unfold ctl. apply map_ext_in. intros q Hq. apply getbit_set_other. intros ->. exact (tq_not Hq). Qed.
Lemma ctl_length x : length (ctl x) = n.
Proof. unfold ctl. rewrite map_length, firstn_length. lia. Qed.
Lemma blk_comp F M G N : blk F M -> blk G N -> blk (fun psi => G (F psi)) (fun c => mmul (N c) (M c)).
Proof.
  intros HF HG psi x Hx. rewrite (HG _ x Hx), <- on_mul by apply tq_lt, Hx. unfold InvSpec.on_qubit at 1 3. rewrite !HF, !ctl_set by apply fits_set, Hx. reflexivity.
Qed.
Lemma blk_ext F M N : (forall c, length c = n -> meq (M c) (N c)) -> blk F M -> blk F N.
Proof. intros E H psi x Hx. rewrite (H _ x Hx). apply on_ext, E, ctl_length. Qed.
Definition blkb (b : body) (M : list bool -> mat) : Prop := blk (run_body qs b) M.
Lemma blkb_nil : blkb [] (fun _ => mI).
Proof. intros psi x Hx. cbn [InvProofs.run_body]. rewrite on_I. reflexivity. Qed.
Lemma blkb_app a b M N : blkb a M -> blkb b N -> blkb (a ++ b) (fun c => mmul (N c) (M c)).
Proof. intros A B psi x Hx. rewrite run_body_app. exact (blk_comp _ _ _ _ A B psi x Hx). Qed.
Lemma blkb_cons o loc b M N : blk (effect o (globals qs loc)) M -> blkb b N -> blkb ((o, loc) :: b) (fun c => mmul (N c) (M c)).
Proof. intros A B psi x Hx. cbn [InvProofs.run_body]. exact (blk_comp _ _ _ _ A B psi x Hx). Qed.
Lemma globals_all : globals qs (seq 0 (S n)) = qs.
Proof. unfold globals. apply (nth_ext _ _ 0 0); rewrite map_length, seq_length; [lia|]. intros i Hi. rewrite (nth_indep _ 0 (nth 0 qs 0)) by (rewrite map_length, seq_length; exact Hi). rewrite (map_nth (fun i => nth i qs 0)), seq_nth by exact Hi. reflexivity. Qed.
Lemma globals_ctl : globals qs (seq 0 n) = firstn n qs.
Proof.
  pose proof (eq_trans globals_all qs_split) as H. rewrite seq_S in H. unfold globals in *. rewrite map_app in H. cbn [map Nat.add] in H. apply app_inv_tail in H. exact H.
Qed.
Lemma blk_u3 nm t p l g ps : blk (effect (U3 nm t p l g ps) (globals qs [n])) (fun _ => u3_matrix Qcplus rmul ropp expi chalf shalf t p l g).
Proof. intros psi x Hx. reflexivity. Qed.
Lemma vec_qs x : vec qs x = bitsN (ctl x ++ [getbit x tq]).
Proof. unfold vec, ctl. rewrite qs_split at 1. rewrite map_app. reflexivity. Qed.
Lemma bits_len c b : length c = n -> state (S n) (bitsN (c ++ [b])).
Proof. intros H. replace (S n) with (length (c ++ [b])) by (rewrite app_length; cbn; lia). apply bitsN_state. Qed.
Lemma blk_gray l phi : Forall (gate_ok (S n)) l -> (forall v, state (S n) v -> action l v = (phi v, v)) ->
  blk (effect (Comp n_gray (S n) 0 (gray_ops l) []) (globals qs (seq 0 (S n)))) (fun c => diag (expi (phi (bitsN (c ++ [false])))) (expi (phi (bitsN (c ++ [true]))))).
Proof.
  intros G H psi x Hx. rewrite effect_comp, globals_all, on_diag. rewrite (gray_diag qs l (phi (vec qs x)) x psi ND).
  - rewrite vec_qs. destruct (getbit x tq); reflexivity.
  - rewrite LQ. exact G.
  - exact Hx.
  - apply H. rewrite <- LQ. apply vec_state.
Qed.
Definition all1 (c : list bool) : bool := forallb (fun b => b) c.
Lemma all1_tb c b : length c = n -> forallb (tb (bitsN (c ++ [b]))) (seq 0 n) = all1 c.
Proof.
  intros L. apply eq_true_iff_eq. unfold all1. rewrite !forallb_forall. split; intros H.
  - intros d Hd. destruct (In_nth _ _ false Hd) as (j & Hj & <-). specialize (H j ltac:(apply in_seq; lia)). rewrite tb_bitsN, app_nth1 in H by lia. exact H.
  - intros j Hj. apply in_seq in Hj. rewrite tb_bitsN, app_nth1 by lia. apply H, nth_In. lia.
Qed.
Lemma last_tb c b : length c = n -> tb (bitsN (c ++ [b])) n = b.
Proof. intros L. rewrite tb_bitsN, app_nth2, L, Nat.sub_diag by lia. reflexivity. Qed.
Lemma ones_eq v m : state m v -> N.eqb v (N.ones (N.of_nat m)) = forallb (tb v) (seq 0 m).
Proof.
  intros Hv. apply eq_true_iff_eq. rewrite N.eqb_eq, forallb_forall. split; intros H.
  - intros j Hj. apply in_seq in Hj. subst v. change (tb (ones m) j = true). rewrite tb_ones. apply Nat.ltb_lt. lia.
  - apply N_ext. intros j. change (N.ones (N.of_nat m)) with (ones m). rewrite tb_ones. destruct (Nat.ltb_spec j m); [apply H, in_seq; lia|]. exact (proj1 (state_bits m v) Hv j H0).
Qed.
Lemma ones_last c b : length c = n -> N.eqb (bitsN (c ++ [b])) (N.ones (N.of_nat (S n))) = all1 c && b.
Proof. intros L. rewrite ones_eq by apply bits_len, L. rewrite seq_S, forallb_app, all1_tb by exact L. cbn [forallb Nat.add]. rewrite last_tb by exact L. rewrite andb_true_r. reflexivity. Qed.
(** two phases for the target, where the controls are all set; [s] is the phase the phase tolerant synthesis adds *)
Lemma flip_last c : length c = n -> N.lxor (bitsN (c ++ [true])) (bit n) = bitsN (c ++ [false]).
Proof.
  intros L. apply N_ext. intros j. rewrite tb_lxor, tb_bit, !tb_bitsN. destruct (Nat.eqb_spec n j) as [<-|H].
  - rewrite !app_nth2, L, Nat.sub_diag by lia. reflexivity.
  - rewrite xorb_false_r. destruct (Nat.lt_ge_cases j n); [rewrite !app_nth1 by lia; reflexivity|]. rewrite !nth_overflow by (rewrite app_length; cbn; lia). reflexivity.
Qed.
Lemma phase_two a0 a1 c b : 0 < n -> length c = n -> phase_of (S n) (last_phases (S n) a0 a1) (bitsN (c ++ [b])) = if all1 c then (if b then a1 else a0) else 0%Qc.
Proof.
  intros Hn L. unfold phase_of, last_phases. rewrite index_be, nth_last_two by apply be_lt.
  pose proof (be_full (S n) (bitsN (c ++ [b]))) as F. rewrite seq_S, forallb_app, all1_tb in F by exact L. cbn [forallb Nat.add] in F. rewrite last_tb, andb_true_r in F by exact L.
  assert (P2 : 2 <= 2 ^ n) by (destruct n; [lia|]; rewrite Nat.pow_succ_r'; pose proof (Nat.pow_nonzero 2 n0); lia).
  assert (G : be (S n) (bitsN (c ++ [b])) = (2 * be n (bitsN (c ++ [b])) + (if b then 1 else 0))%nat) by (cbn [be]; rewrite last_tb by exact L; reflexivity).
  pose proof (be_full n (bitsN (c ++ [b]))) as F1. rewrite all1_tb in F1 by exact L. rewrite Nat.pow_succ_r' in *. pose proof (be_lt n (bitsN (c ++ [b]))).
  destruct (all1 c), b; cbn [andb] in *.
  - rewrite (proj2 F eq_refl), Nat.eqb_refl. reflexivity.
  - pose proof (proj2 F1 eq_refl). destruct (Nat.eqb_spec (be (S n) (bitsN (c ++ [false]))) (2 * 2 ^ n - 1)%nat); [lia|]. destruct (Nat.eqb_spec (be (S n) (bitsN (c ++ [false]))) (2 * 2 ^ n - 2)%nat); [reflexivity|lia].
  - assert (be n (bitsN (c ++ [true])) <> 2 ^ n - 1) by (intros E; apply F1 in E; discriminate). destruct (Nat.eqb_spec (be (S n) (bitsN (c ++ [true]))) (2 * 2 ^ n - 1)%nat); [lia|]. destruct (Nat.eqb_spec (be (S n) (bitsN (c ++ [true]))) (2 * 2 ^ n - 2)%nat); [lia|reflexivity].
  - assert (be n (bitsN (c ++ [false])) <> 2 ^ n - 1) by (intros E; apply F1 in E; discriminate). destruct (Nat.eqb_spec (be (S n) (bitsN (c ++ [false]))) (2 * 2 ^ n - 1)%nat); [lia|]. destruct (Nat.eqb_spec (be (S n) (bitsN (c ++ [false]))) (2 * 2 ^ n - 2)%nat); [lia|reflexivity].
Qed.
Lemma phase_last a c b : 0 < n -> length c = n -> phase_of (S n) (last_phase (S n) a) (bitsN (c ++ [b])) = if all1 c then (if b then a else 0%Qc) else 0%Qc.
Proof.
  intros Hn L. unfold phase_of, last_phase. rewrite index_be, nth_last_phase by apply be_lt.
  pose proof (be_full (S n) (bitsN (c ++ [b]))) as F. rewrite seq_S, forallb_app, all1_tb in F by exact L. cbn [forallb Nat.add] in F. rewrite last_tb, andb_true_r in F by exact L.
  destruct (Nat.eqb_spec (be (S n) (bitsN (c ++ [b]))) (2 ^ S n - 1)) as [E|E].
  - apply F in E. apply andb_true_iff in E. destruct E as (-> & ->). reflexivity.
  - destruct (all1 c), b; try reflexivity. exfalso. apply E, F. reflexivity.
Qed.
Definition quiet (tol : bool) (s : list bool -> Qc) : Prop := tol = false -> forall c, s c = 0%Qc.
Lemma blk_phases phases a0 a1 tol : 0 < n -> (forall b, b < S n -> least_pair (S n) phases b) ->
  (forall c b, length c = n -> phase_of (S n) phases (bitsN (c ++ [b])) = if all1 c then (if b then a1 else a0) else 0%Qc) ->
  exists s, quiet tol s /\ blk (effect (gray_gate (S n) phases tol) (globals qs (seq 0 (S n))))
    (fun c => diag (expi (s c + (if all1 c then a0 else 0))%Qc) (expi (s c + (if all1 c then a1 else 0))%Qc)).
Proof.
  intros Hn HP Hph. pose proof (gray_gates_ok (S n) phases tol HP) as G.
  assert (P0 : phase_of (S n) phases 0 = 0%Qc).
  { assert (E : bitsN (repeat false n ++ [false]) = 0%N).
    { apply N_ext. intros j. rewrite tb_bitsN, tb_0. change [false] with (repeat false 1). rewrite <- repeat_app. apply nth_repeat. }
    rewrite <- E, Hph by apply repeat_length. destruct n as [|k]; [lia|]. reflexivity. }
  destruct tol.
  - destruct (gray_tolerant n phases (HP n ltac:(lia))) as (shift & HS & HD).
    exists (fun c => shift (bitsN (c ++ [false])) - (if all1 c then a0 else 0))%Qc. split; [discriminate|].
    eapply blk_ext; [|apply (blk_gray _ shift G); intros v _; apply HS]. intros c L o i.
    specialize (HD (bitsN (c ++ [true])) (bits_len _ _ L)). rewrite flip_last, !Hph in HD by exact L.
    assert (E : shift (bitsN (c ++ [true])) = (shift (bitsN (c ++ [false])) - (if all1 c then a0 else 0) + (if all1 c then a1 else 0))%Qc).
    { transitivity ((shift (bitsN (c ++ [true])) - shift (bitsN (c ++ [false]))) + shift (bitsN (c ++ [false])))%Qc; [ring|]. rewrite HD. destruct (all1 c); ring. }
    rewrite E. replace (shift (bitsN (c ++ [false])) - (if all1 c then a0 else 0) + (if all1 c then a0 else 0))%Qc with (shift (bitsN (c ++ [false]))) by ring. reflexivity.
  - exists (fun _ => 0%Qc). split; [intros _ c; reflexivity|].
    eapply blk_ext; [|apply (blk_gray _ (fun v => phase_of (S n) phases v - phase_of (S n) phases 0)%Qc G); intros v Hv; apply gray_correct; assumption].
    intros c L o i. cbv beta. rewrite !Hph, P0 by trivial. replace (0 + (if all1 c then a0 else 0))%Qc with ((if all1 c then a0 else 0) - 0)%Qc by ring.
    replace (0 + (if all1 c then a1 else 0))%Qc with ((if all1 c then a1 else 0) - 0)%Qc by ring. reflexivity.
Qed.
Lemma blk_two a0 a1 tol : 0 < n -> exists s, quiet tol s /\ blk (effect (gray_gate (S n) (last_phases (S n) a0 a1) tol) (globals qs (seq 0 (S n))))
    (fun c => diag (expi (s c + (if all1 c then a0 else 0))%Qc) (expi (s c + (if all1 c then a1 else 0))%Qc)).
Proof. intros Hn. apply blk_phases; [exact Hn| |intros; apply phase_two; assumption]. intros b Hb. apply two_pairs. lia. Qed.
Lemma blk_last a tol : 0 < n -> exists s, quiet tol s /\ blk (effect (gray_gate (S n) (last_phase (S n) a) tol) (globals qs (seq 0 (S n))))
    (fun c => diag (expi (s c + (if all1 c then 0 else 0))%Qc) (expi (s c + (if all1 c then a else 0))%Qc)).
Proof. intros Hn. apply blk_phases; [exact Hn| |intros; apply phase_last; assumption]. intros b Hb. apply mcp_pairs. Qed.
Lemma blk_global a : 0 < n -> blk (effect (gray_gate n (last_phase n a) false) (globals qs (seq 0 n))) (fun c => if all1 c then diag (expi a) (expi a) else mI).
Proof.
  intros Hn psi x Hx. unfold gray_gate. rewrite effect_comp, globals_ctl. assert (L : length (firstn n qs) = n) by (rewrite firstn_length; lia).
  rewrite (gray_diag (firstn n qs) _ (if all1 (ctl x) then a else 0%Qc) x psi).
  - destruct (all1 (ctl x)); [rewrite on_scalar; reflexivity|]. rewrite on_I, e_0. ring.
  - pose proof ND as H. rewrite qs_split in H. apply NoDup_remove in H. rewrite app_nil_r in H. tauto.
  - rewrite L. apply gray_gates_ok. intros b Hb. apply mcp_pairs.
  - intros q Hq. apply Hx. rewrite qs_split. apply in_or_app. auto.
  - assert (SV : state n (vec (firstn n qs) x)) by (pose proof (vec_state (firstn n qs) x) as H; rewrite L in H; exact H).
    unfold last_phase. rewrite mcp_correct; [|exact Hn|exact SV]. f_equal. rewrite ones_eq by exact SV.
    replace (forallb (tb (vec (firstn n qs) x)) (seq 0 n)) with (all1 (ctl x)); [reflexivity|]. symmetry. rewrite <- (all1_tb (ctl x) false (ctl_length x)).
    apply eq_true_iff_eq. rewrite !forallb_forall. split; intros H j Hj; specialize (H j Hj); apply in_seq in Hj; unfold vec in *; rewrite tb_bitsN in *; fold (ctl x) in *; rewrite app_nth1 in * by (rewrite ctl_length; lia); exact H.
Qed.
(** multi-controlled X *)
Definition mX : mat := pauli_matrix rO rI ropp im PX.
Lemma all1_eq c m : length c = m -> bits_eqb c (repeat true m) = all1 c.
Proof. revert m. induction c as [|b c IH]; intros m <-; [reflexivity|]. cbn [length repeat bits_eqb all1 forallb]. fold (all1 c). rewrite IH by reflexivity. destruct b; reflexivity. Qed.
Lemma blk_ctrl1 base M : (forall q psi x, effect base [q] psi x = on_qubit M q psi x) ->
  blk (effect (Ctrl (repeat true n) base) (globals qs (seq 0 (S n)))) (fun c => if all1 c then M else mI).
Proof.
  intros HM psi x Hx. rewrite globals_all. cbn [InvSpec.effect]. rewrite repeat_length. fold (ctl x). rewrite all1_eq by apply ctl_length.
  destruct (all1 (ctl x)); [|rewrite on_I; reflexivity]. rewrite qs_split at 1. rewrite skipn_app, skipn_all2 by (rewrite firstn_length; lia).
  rewrite firstn_length. replace (n - Nat.min n (length qs)) with 0 by lia. cbn [skipn app]. apply HM.
Qed.
Lemma blk_mcx : blk (effect (controlled (repeat true n) gX) (globals qs (seq 0 (S n)))) (fun c => if all1 c then mX else mI).
Proof. apply blk_ctrl1. reflexivity. Qed.
(** control states other than 11..1 *)
Definition msk (state : list bool) (l : list nat) (p : nat) : bool :=
  fold_right (fun i acc => xorb ((nth i qs 0 =? p) && negb (nth i state true)) acc) false l.
Definition flipx (state : list bool) (l : list nat) (x : list bool) : list bool := map (fun p => xorb (getbit x p) (msk state l p)) (seq 0 (length x)).
Lemma flipx_length st l x : length (flipx st l x) = length x.
Proof. unfold flipx. rewrite map_length, seq_length. reflexivity. Qed.
Lemma getbit_flipx st l x p : p < length x -> getbit (flipx st l x) p = xorb (getbit x p) (msk st l p).
Proof. intros H. unfold getbit at 1, flipx. rewrite (nth_indep _ false (xorb (getbit x 0) (msk st l 0))) by (rewrite map_length, seq_length; exact H). rewrite (map_nth (fun p => xorb (getbit x p) (msk st l p))), seq_nth by exact H. reflexivity. Qed.
Lemma run_xs st : forall l, (forall i, In i l -> i < S n) -> forall psi x, fits qs x ->
  run_body qs (flat_map (fun i => if nth i st true then [] else [(gX, [i])]) l) psi x = psi (flipx st l x).
Proof.
  induction l as [|i l IH]; intros Hl psi x Hx.
  - cbn. f_equal. apply getbit_ext; [rewrite flipx_length; reflexivity|]. intros q Hq. rewrite getbit_flipx by exact Hq. cbn [msk fold_right]. rewrite xorb_false_r. reflexivity.
  - cbn [flat_map]. rewrite run_body_app, IH by (try exact Hx; intros; apply Hl; right; assumption). destruct (nth i st true) eqn:E.
    + cbn [InvProofs.run_body]. f_equal. apply getbit_ext; [rewrite !flipx_length; reflexivity|]. rewrite flipx_length. intros q Hq. rewrite !getbit_flipx by exact Hq. cbn [msk fold_right]. rewrite E. cbn [negb]. rewrite andb_false_r, xorb_false_l. reflexivity.
    + cbn [InvProofs.run_body globals map InvSpec.effect gX nth]. unfold InvSpec.on_qubit. set (q := nth i qs 0). assert (Hq : q < length x) by (apply Hx, nth_In; rewrite LQ; apply Hl; left; reflexivity).
      assert (EE : setbit (flipx st l x) q (negb (getbit (flipx st l x) q)) = flipx st (i :: l) x).
      { apply getbit_ext; [rewrite setbit_length, !flipx_length; reflexivity|]. rewrite setbit_length, flipx_length. intros p Hp. rewrite (getbit_flipx st (i :: l) x p Hp). cbn [msk fold_right]. fold (msk st l p). rewrite E. cbn [negb]. rewrite andb_true_r. fold q.
        destruct (Nat.eqb_spec q p) as [<-|N].
        - rewrite getbit_set_same, getbit_flipx by (try rewrite flipx_length; exact Hp). destruct (getbit x q), (msk st l q); reflexivity.
        - rewrite getbit_set_other, getbit_flipx, xorb_false_l by auto. reflexivity. }
      rewrite <- EE. destruct (getbit (flipx st l x) q); cbn [pauli_matrix negb]; ring.
Qed.
Section state.
Context (st : list bool) (LS : length st = n).
Notation fl := (flipx st (seq 0 n)).
Lemma fits_fl x : fits qs x -> fits qs (fl x).
Proof. intros H q Hq. rewrite flipx_length. apply H, Hq. Qed.
Lemma fl_fl x : fl (fl x) = x.
Proof. apply getbit_ext; [rewrite !flipx_length; reflexivity|]. rewrite !flipx_length. intros q Hq. rewrite !getbit_flipx by (try rewrite flipx_length; exact Hq). rewrite xorb_assoc, xorb_nilpotent, xorb_false_r. reflexivity. Qed.
Lemma msk_tq : forall l, (forall i, In i l -> i < n) -> msk st l tq = false.
Proof.
  induction l as [|i l IH]; intros H; [reflexivity|]. cbn [msk fold_right]. fold (msk st l tq). rewrite IH by (intros; apply H; right; assumption). specialize (H i (or_introl eq_refl)).
  destruct (Nat.eqb_spec (nth i qs 0) tq) as [E|E]; [|reflexivity]. apply (proj1 (NoDup_nth qs 0) ND) in E; lia.
Qed.
Lemma msk_ctl i : i < n -> msk st (seq 0 n) (nth i qs 0) = negb (nth i st true).
Proof.
  intros Hi. assert (G : forall l, NoDup l -> (forall j, In j l -> j < n) -> msk st l (nth i qs 0) = if in_dec Nat.eq_dec i l then negb (nth i st true) else false).
  { induction l as [|j l IH]; intros Hl H; [reflexivity|]. inversion Hl; subst. cbn [msk fold_right]. fold (msk st l (nth i qs 0)). rewrite IH by (try assumption; intros; apply H; right; assumption).
    specialize (H j (or_introl eq_refl)). destruct (Nat.eqb_spec (nth j qs 0) (nth i qs 0)) as [E|E].
    - apply (proj1 (NoDup_nth qs 0) ND) in E; [|lia|lia]. subst j. destruct (in_dec _ i l); [contradiction|]. destruct (in_dec _ i (i :: l)); [|exfalso; auto with datatypes]. cbn [andb]. rewrite xorb_false_r. reflexivity.
    - cbn [andb]. rewrite xorb_false_l. destruct (in_dec _ i l), (in_dec _ i (j :: l)); try reflexivity; exfalso; [auto with datatypes|]. destruct i0; [subst; contradiction|contradiction]. }
  rewrite G; [|apply seq_NoDup|intros j Hj; apply in_seq in Hj; lia]. destruct (in_dec _ i _) as [|N]; [reflexivity|]. exfalso. apply N, in_seq. lia.
Qed.
Definition cflip (c : list bool) : list bool := map (fun p => negb (xorb (fst p) (snd p))) (combine c st).
Lemma ctl_fl x : fits qs x -> ctl (fl x) = cflip (ctl x).
Proof.
  intros Hx. unfold cflip. apply (nth_ext _ _ false (negb (xorb false true))); [rewrite map_length, combine_length, !ctl_length; lia|]. rewrite ctl_length. intros i Hi.
  rewrite (map_nth (fun p => negb (xorb (fst p) (snd p))) (combine (ctl x) st) (false, true)), combine_nth by (rewrite ctl_length; auto). cbn [fst snd].
  assert (G : forall y, nth i (ctl y) false = getbit y (nth i qs 0)).
  { intros y. unfold ctl. rewrite (nth_indep _ false (getbit y 0)) by (rewrite map_length, firstn_length; lia). rewrite map_nth. f_equal. rewrite <- (firstn_skipn n qs) at 2. rewrite app_nth1 by (rewrite firstn_length; lia). reflexivity. }
  rewrite !G, getbit_flipx by (apply Hx, nth_In; lia). rewrite msk_ctl by exact Hi. rewrite (nth_indep st true false) by lia. destruct (getbit x (nth i qs 0)), (nth i st false); reflexivity.
Qed.
Lemma all1_cflip c : length c = n -> all1 (cflip c) = bits_eqb c st.
Proof.
  unfold cflip. revert LS. generalize n. intros k. revert k st. induction c as [|b c IH]; intros k [|d s] Ls Lc; cbn in *; try lia. destruct k; [lia|]. fold (all1 (map (fun p => negb (xorb (fst p) (snd p))) (combine c s))).
  rewrite (IH k s) by lia. destruct b, d; reflexivity.
Qed.
Lemma cflip_length c : length c = n -> length (cflip c) = n.
Proof. intros H. unfold cflip. rewrite map_length, combine_length. lia. Qed.
Lemma blk_wrap b M : blkb b M -> blkb (wrap st ++ b ++ wrap st) (fun c => M (cflip c)).
Proof.
  intros H psi x Hx. rewrite !run_body_app. assert (W : forall psi x, fits qs x -> run_body qs (wrap st) psi x = psi (fl x)).
  { intros. unfold wrap. rewrite LS. apply run_xs; [|assumption]. intros i Hi. apply in_seq in Hi. lia. }
  rewrite W by exact Hx. rewrite H by apply fits_fl, Hx. rewrite ctl_fl by exact Hx. unfold InvSpec.on_qubit. rewrite !W by apply fits_set, fits_fl, Hx.
  rewrite getbit_flipx by apply tq_lt, Hx. rewrite msk_tq, xorb_false_r by (intros i Hi; apply in_seq in Hi; lia).
  assert (E : forall d, fl (setbit (fl x) tq d) = setbit x tq d).
  { intros d. apply getbit_ext; [rewrite flipx_length, !setbit_length, flipx_length; reflexivity|]. rewrite flipx_length, setbit_length, flipx_length. intros p Hp. rewrite getbit_flipx by (rewrite setbit_length, flipx_length; exact Hp).
    destruct (Nat.eq_dec p tq) as [->|N].
    - rewrite !getbit_set_same, msk_tq, xorb_false_r by (try rewrite flipx_length; try exact Hp; intros i Hi; apply in_seq in Hi; lia). reflexivity.
    - rewrite !getbit_set_other, getbit_flipx by assumption. rewrite xorb_assoc, xorb_nilpotent, xorb_false_r. reflexivity. }
  rewrite !E. reflexivity.
Qed.

(** ** the gates *)
Notation u3 := (u3_matrix Qcplus rmul ropp expi chalf shalf).
Lemma c_1 : chalf 1%Qc = rO.
Proof. apply two_cancel. transitivity (expi (1 / (1 + 1))%Qc + expi (- (1 / (1 + 1)))%Qc); [rewrite e_euler, e_euler'; ring|]. pose proof (e_opp q_half) as H. pose proof e_im as E. fold q_half. rewrite E in *. pose proof im_im as I.
  transitivity (im + - im * (im * expi (- q_half)%Qc)); [ring [I]|]. rewrite H. ring. Qed.
Lemma s_1 : shalf 1%Qc = rI.
Proof. pose proof (e_euler 1%Qc) as H. fold q_half in H. rewrite e_im, c_1 in H. pose proof im_im as I. assert (E : im * shalf 1%Qc = im) by (symmetry; transitivity (rO + im * shalf 1%Qc); [exact H|ring]). transitivity (- im * (im * shalf 1%Qc)); [ring [I]|]. rewrite E. ring [I]. Qed.
Definition h : R := shalf q_half.
Lemma half_half : (q_half + q_half = 1)%Qc. Proof. unfold q_half. field. discriminate. Qed.
Lemma cs_half : chalf q_half = h /\ (rI + rI) * (h * h) = rI.
Proof.
  pose proof (c_add q_half q_half) as C. pose proof (s_add q_half q_half) as S1. rewrite half_half, c_1 in C. rewrite half_half, s_1 in S1. pose proof (c_s q_half) as CS. fold h in *. set (c := chalf q_half) in *.
  assert (H2 : (rI + rI) * (h * h) = rI) by (transitivity ((c * c + h * h) + - (c * c + - (h * h))); [ring|]; rewrite CS, <- C; ring).
  assert (E : c * c = h * h) by (transitivity ((c * c + - (h * h)) + h * h); [ring|]; rewrite <- C; ring).
  split; [|exact H2]. transitivity (c * ((rI + rI) * (h * h))); [rewrite H2; ring|]. transitivity (h * (h * c + c * h)); [ring|]. rewrite <- S1. ring.
Qed.
Definition mH : mat := fun o i => if o && i then - h else h.
Lemma e_nhalf : expi (- q_half)%Qc = - im.
Proof. pose proof (e_opp q_half) as H. rewrite e_im in H. pose proof im_im as I. transitivity (- im * (im * expi (- q_half)%Qc)); [ring [I]|]. rewrite H. ring. Qed.
Lemma h_matrix : meq (u3 q_half 0%Qc q1 0%Qc) mH.
Proof. destruct cs_half as (C & _). intros [] []; unfold u3_matrix, mH, q1; cbn [andb]; rewrite e_0, ?Qcplus_0_l, ?e_1, ?C, ?e_0; fold h; ring. Qed.
Lemma h_inv_matrix : meq (u3 (- q_half)%Qc (- q1)%Qc 0%Qc 0%Qc) mH.
Proof.
  assert (E : expi (- q1)%Qc = - rI) by (pose proof (e_opp q1) as H; change (expi q1) with (expi 1%Qc) in H; rewrite e_1 in H; transitivity (- (- rI * expi (- q1)%Qc)); [ring|rewrite H; reflexivity]).
  destruct cs_half as (C & _). intros [] []; unfold u3_matrix, mH; cbn [andb]; rewrite e_0, ?Qcplus_0_r, ?e_even, ?e_odd, ?C, ?E, ?e_0; fold h; ring.
Qed.
Definition mRY (a : Qc) : mat := fun o i => if Bool.eqb o i then chalf a else if o then shalf a else - shalf a.
Lemma ry_matrix a : meq (u3 a 0%Qc 0%Qc 0%Qc) (mRY a).
Proof. intros [] []; unfold u3_matrix, mRY; cbn [Bool.eqb]; rewrite ?Qcplus_0_l, ?e_0; ring. Qed.
Lemma rz_matrix a b : meq (u3 0%Qc a b (- ((a + b) / (1 + 1)))%Qc) (diag (expi (- ((a + b) / (1 + 1)))%Qc) (expi ((a + b) / (1 + 1))%Qc)).
Proof.
  intros [] []; unfold u3_matrix, diag; cbn [Bool.eqb]; rewrite ?c_0, ?s_0; try ring. rewrite <- (Qcplus_0_r ((a + b) / (1 + 1))%Qc) at 2.
  transitivity (expi (a + b)%Qc * expi (- ((a + b) / (1 + 1)))%Qc); [ring|]. rewrite <- e_add. f_equal. field. discriminate.
Qed.
Lemma s_matrix : meq (u3 0%Qc 0%Qc q_half 0%Qc) (diag rI im).
Proof. intros o i. rewrite p_matrix by reflexivity. rewrite Qcplus_0_r, e_im. reflexivity. Qed.
Lemma sdg_matrix : meq (u3 0%Qc (- q_half)%Qc 0%Qc 0%Qc) (diag rI (- im)).
Proof. intros o i. rewrite p_matrix by reflexivity. rewrite Qcplus_0_l, e_nhalf. reflexivity. Qed.
Lemma t_matrix : meq (u3 0%Qc 0%Qc q_quarter 0%Qc) (diag rI (h + im * h)).
Proof. intros o i. rewrite p_matrix by reflexivity. rewrite Qcplus_0_r. unfold q_quarter. rewrite e_euler. destruct cs_half as (-> & _). reflexivity. Qed.
Lemma tdg_matrix : meq (u3 0%Qc (- q_quarter)%Qc 0%Qc 0%Qc) (diag rI (h + - (im * h))).
Proof. intros o i. rewrite p_matrix by reflexivity. rewrite Qcplus_0_l. unfold q_quarter. rewrite e_euler'. destruct cs_half as (-> & _). reflexivity. Qed.
Lemma mmul_ext a b a' b' : meq a a' -> meq b b' -> meq (mmul a b) (mmul a' b').
Proof. intros A B o i. unfold mmul. rewrite !A, !B. reflexivity. Qed.

(** ** results *)
Definition res (U : mat) (s : list bool -> Qc) (c : list bool) : mat := fun o i => expi (s c) * (if all1 c then U o i else mI o i).
Definition acts (base : qop) (U : mat) : Prop := forall q psi x, effect base [q] psi x = on_qubit U q psi x.
Lemma wrap_res b U s base : acts base U -> blkb b (res U s) -> forall psi x, fits qs x ->
  run_body qs (wrap st ++ b ++ wrap st) psi x = expi (s (cflip (ctl x))) * effect (Ctrl st base) qs psi x.
Proof.
  intros HA HB psi x Hx. rewrite (blk_wrap _ _ HB psi x Hx). cbn [InvSpec.effect]. rewrite LS. fold (ctl x). rewrite <- all1_cflip by apply ctl_length.
  unfold res. destruct (all1 (cflip (ctl x))).
  - rewrite skip_qs, HA. unfold InvSpec.on_qubit. ring.
  - rewrite <- (on_I tq psi x). unfold InvSpec.on_qubit. ring.
Qed.
Lemma blk_target o M : (exists nm t p l g ps, o = U3 nm t p l g ps /\ meq (u3 t p l g) M) -> blk (effect o (globals qs [n])) (fun _ => M).
Proof. intros (nm & t & p & l & g & ps & -> & E). eapply blk_ext; [|apply blk_u3]. intros c _. exact E. Qed.
Lemma blk_H : blk (effect gH (globals qs [n])) (fun _ => mH). Proof. apply blk_target. repeat eexists. apply h_matrix. Qed.
Lemma blk_S : blk (effect gS (globals qs [n])) (fun _ => diag rI im). Proof. apply blk_target. repeat eexists. apply s_matrix. Qed.
Lemma blk_Sdg : blk (effect gS_dg (globals qs [n])) (fun _ => diag rI (- im)). Proof. apply blk_target. repeat eexists. apply sdg_matrix. Qed.
Lemma blk_T : blk (effect gT (globals qs [n])) (fun _ => diag rI (h + im * h)). Proof. apply blk_target. repeat eexists. apply t_matrix. Qed.
Lemma blk_Tdg : blk (effect gT_dg (globals qs [n])) (fun _ => diag rI (h + - (im * h))). Proof. apply blk_target. repeat eexists. apply tdg_matrix. Qed.
Ltac entries := intros [] []; unfold res, mmul, mI, diag, mH, mX; cbn [Bool.eqb andb negb pauli_matrix].
Lemma S_conj : meq (mmul mI (mI)) mI.
Proof. entries; ring. Qed.
Lemma br_p tol phi lam : 0 < n -> exists s, quiet tol s /\ blkb [(gray_gate (S n) (last_phase (S n) (lam + phi)%Qc) tol, seq 0 (S n))] (res (u3 0%Qc phi lam 0%Qc) s).
Proof.
  intros Hn. destruct (blk_last (lam + phi)%Qc tol Hn) as (s & Q & B). exists s. split; [exact Q|]. eapply blk_ext; [|eapply blkb_cons; [exact B|apply blkb_nil]].
  intros c L. intros o i. pose proof (p_matrix 0%Qc phi lam 0%Qc eq_refl eq_refl o i) as E. unfold res. rewrite E. clear E. revert o i. entries; destruct (all1 c); rewrite ?Qcplus_0_r, ?e_add, ?e_0; ring.
Qed.
Lemma br_rz tol phi lam : 0 < n -> exists s, quiet tol s /\ blkb [(gray_gate (S n) (last_phases (S n) (- ((lam + phi) / (1 + 1)))%Qc ((lam + phi) / (1 + 1))%Qc) tol, seq 0 (S n))] (res (u3 0%Qc phi lam (- ((phi + lam) / (1 + 1)))%Qc) s).
Proof.
  intros Hn. rewrite (Qcplus_comm lam phi). set (a := ((phi + lam) / (1 + 1))%Qc). destruct (blk_two (- a)%Qc a tol Hn) as (s & Q & B). exists s. split; [exact Q|]. eapply blk_ext; [|eapply blkb_cons; [exact B|apply blkb_nil]].
  intros c L. intros o i. pose proof (rz_matrix phi lam o i) as E. fold a in E. unfold res. rewrite E. clear E. revert o i. entries; destruct (all1 c); rewrite ?Qcplus_0_r, ?e_add, ?e_0; ring.
Qed.
Definition mRX (a : Qc) : mat := fun o i => if Bool.eqb o i then chalf a else - (im * shalf a).
Lemma rx_matrix a : meq (u3 a (- q_half)%Qc q_half 0%Qc) (mRX a).
Proof. intros [] []; unfold u3_matrix, mRX; cbn [Bool.eqb]; rewrite ?e_im, ?e_nhalf, ?e_0; try ring. replace (- q_half + q_half)%Qc with 0%Qc by ring. rewrite e_0. ring. Qed.
Lemma br_rx tol theta : 0 < n -> exists s, quiet tol s /\ blkb [(gH, [n]); (gray_gate (S n) (last_phases (S n) (- (theta / (1 + 1)))%Qc (theta / (1 + 1))%Qc) tol, seq 0 (S n)); (gH, [n])] (res (mRX theta) s).
Proof.
  intros Hn. destruct (blk_two (- (theta / (1 + 1)))%Qc (theta / (1 + 1))%Qc tol Hn) as (s & Q & B). exists s. split; [exact Q|].
  eapply blk_ext; [|eapply blkb_cons; [apply blk_H|eapply blkb_cons; [exact B|eapply blkb_cons; [apply blk_H|apply blkb_nil]]]].
  intros c L. destruct cs_half as (_ & H2). unfold mRX. entries; destruct (all1 c); rewrite ?Qcplus_0_r, ?e_add, ?e_euler, ?e_euler'; ring [H2].
Qed.
Lemma br_ry tol theta : 0 < n -> exists s, quiet tol s /\ blkb [(gS, [n]); (gH, [n]); (gray_gate (S n) (last_phases (S n) (theta / (1 + 1))%Qc (- (theta / (1 + 1)))%Qc) tol, seq 0 (S n)); (gH, [n]); (gS_dg, [n])] (res (mRY theta) s).
Proof.
  intros Hn. destruct (blk_two (theta / (1 + 1))%Qc (- (theta / (1 + 1)))%Qc tol Hn) as (s & Q & B). exists s. split; [exact Q|].
  eapply blk_ext; [|eapply blkb_cons; [apply blk_S|eapply blkb_cons; [apply blk_H|eapply blkb_cons; [exact B|eapply blkb_cons; [apply blk_H|eapply blkb_cons; [apply blk_Sdg|apply blkb_nil]]]]]].
  intros c L. destruct cs_half as (_ & H2). pose proof im_im as I. unfold mRY. entries; destruct (all1 c); rewrite ?Qcplus_0_r, ?e_add, ?e_euler, ?e_euler'; ring [H2 I].
Qed.
Lemma br_h : blkb [(gS, [n]); (gH, [n]); (gT, [n]); (controlled (repeat true n) gX, seq 0 (S n)); (gT_dg, [n]); (gH, [n]); (gS_dg, [n])] (res mH (fun _ => 0%Qc)).
Proof.
  eapply blk_ext; [|eapply blkb_cons; [apply blk_S|eapply blkb_cons; [apply blk_H|eapply blkb_cons; [apply blk_T|eapply blkb_cons; [apply blk_mcx|eapply blkb_cons; [apply blk_Tdg|eapply blkb_cons; [apply blk_H|eapply blkb_cons; [apply blk_Sdg|apply blkb_nil]]]]]]]].
  intros c L. destruct cs_half as (_ & H2). pose proof im_im as I. entries; destruct (all1 c); rewrite e_0; cbn [pauli_matrix Bool.eqb]; ring [H2 I].
Qed.
Lemma br_z : blkb [(gH, [n]); (controlled (repeat true n) gX, seq 0 (S n)); (gH, [n])] (res (pauli_matrix rO rI ropp im PZ) (fun _ => 0%Qc)).
Proof.
  eapply blk_ext; [|eapply blkb_cons; [apply blk_H|eapply blkb_cons; [apply blk_mcx|eapply blkb_cons; [apply blk_H|apply blkb_nil]]]].
  intros c L. destruct cs_half as (_ & H2). entries; destruct (all1 c); rewrite e_0; cbn [pauli_matrix Bool.eqb]; ring [H2].
Qed.
(** the multi-controlled Y gate is -Y *)
Lemma br_y : blkb [(gS, [n]); (controlled (repeat true n) gX, seq 0 (S n)); (gS_dg, [n])] (res (fun o i => - pauli_matrix rO rI ropp im PY o i) (fun _ => 0%Qc)).
Proof.
  eapply blk_ext; [|eapply blkb_cons; [apply blk_S|eapply blkb_cons; [apply blk_mcx|eapply blkb_cons; [apply blk_Sdg|apply blkb_nil]]]].
  intros c L. pose proof im_im as I. entries; destruct (all1 c); rewrite e_0; cbn [pauli_matrix Bool.eqb]; ring [I].
Qed.
Lemma br_x : 0 < n -> blkb [(multi_cx n, seq 0 (S n))] (res mX (fun _ => 0%Qc)).
Proof.
  intros Hn. unfold multi_cx. destruct (Nat.leb_spec n 2).
  - eapply blk_ext; [|eapply blkb_cons; [apply blk_mcx|apply blkb_nil]]. intros c L. entries; destruct (all1 c); rewrite e_0; cbn [pauli_matrix Bool.eqb]; ring.
  - destruct (blk_last q1 false Hn) as (s & Q & B). specialize (Q eq_refl).
    assert (BB : blk (effect (Comp n_gray (S n) 0 [(gH, [n]); (gray_gate (S n) (last_phase (S n) q1) false, seq 0 (S n)); (gH, [n])] []) (globals qs (seq 0 (S n)))) (res mX (fun _ => 0%Qc))).
    { intros psi x Hx. rewrite effect_comp, globals_all. revert psi x Hx. change (blkb [(gH, [n]); (gray_gate (S n) (last_phase (S n) q1) false, seq 0 (S n)); (gH, [n])] (res mX (fun _ => 0%Qc))).
      eapply blk_ext; [|eapply blkb_cons; [apply blk_H|eapply blkb_cons; [exact B|eapply blkb_cons; [apply blk_H|apply blkb_nil]]]].
      intros c L. destruct cs_half as (_ & H2). unfold q1. rewrite Q. entries; destruct (all1 c); rewrite ?Qcplus_0_r, ?Qcplus_0_l, ?e_0, ?e_1; cbn [pauli_matrix Bool.eqb]; ring [H2]. }
    eapply blk_ext; [|eapply blkb_cons; [exact BB|apply blkb_nil]]. intros c L. entries; destruct (all1 c); cbn [pauli_matrix Bool.eqb]; ring.
Qed.
Lemma br_zero gp : meq (u3 0%Qc 0%Qc 0%Qc gp) (diag (expi gp) (expi gp)).
Proof. intros [] []; unfold u3_matrix, diag; cbn [Bool.eqb]; rewrite ?c_0, ?s_0, ?Qcplus_0_l, ?e_0; ring. Qed.

Lemma blk_inv o o' M N : inverse Qcopp Qcplus o = Some o' -> well_formed o -> arity o = S n -> blk (effect o qs) M ->
  (forall c, length c = n -> meq (mmul (N c) (M c)) mI) -> blk (effect o' qs) N.
Proof.
  intros HI W A B E psi x Hx. destruct (inverse_undoes Qcopp Qcplus rO rI radd rmul rsub ropp RT expi chalf shalf im angle_ok (length x) o o' HI W) as (_ & U).
  assert (UU : forall y, length y = length x -> effect o qs (effect o' qs psi) y = psi y).
  { intros y Hy. apply U; [exact ND|rewrite (inverse_arity Qcopp Qcplus _ _ HI), A; exact LQ|exact Hx|exact Hy]. }
  rewrite <- (on_I tq (effect o' qs psi) x). rewrite <- (on_ext _ _ tq _ x (E (ctl x) (ctl_length x))). rewrite <- on_mul by apply tq_lt, Hx.
  assert (FX : forall b, on_qubit (M (ctl x)) tq (effect o' qs psi) (setbit x tq b) = psi (setbit x tq b)).
  { intros b. rewrite <- (ctl_set x b). rewrite <- B by apply fits_set, Hx. apply UU, setbit_length. }
  unfold InvSpec.on_qubit at 1 3. rewrite !FX. reflexivity.
Qed.
Lemma wf_gray k l : Forall (gate_ok k) l -> wf_body k (gray_ops l).
Proof.
  induction 1 as [|g l G F IH]; [constructor|]. destruct g as [c t|a q]; cbn [gray_ops map]; (constructor; [| | | |exact IH]).
  - repeat constructor.
  - destruct G as (_ & _ & D). repeat constructor; cbn; intuition.
  - reflexivity.
  - destruct G as (A & B & _). cbn. intros i [<-|[<-|[]]]; assumption.
  - constructor.
  - repeat constructor. intros [].
  - reflexivity.
  - cbn. intros i [<-|[]]. exact G.
Qed.
Lemma gray_unitary k l : ~ non_unitary (Comp n_gray k 0 (gray_ops l) []).
Proof.
  intros H. inversion H as [|? ? ? ? ? C| | | |? ? ? ? ? o loc I NU]; subst; [apply C; reflexivity|]. unfold gray_ops in I. apply in_map_iff in I. destruct I as ([c t|a q] & E & _); injection E as <- _; inversion NU; subst.
  match goal with X : non_unitary gX |- _ => inversion X end.
Qed.
Lemma br_mcx : 0 < n -> exists s, blk (effect (gray_pt_mcx n) (globals qs (seq 0 (S n)))) (res mX s) /\
  blk (effect (inv_op (gray_pt_mcx n)) (globals qs (seq 0 (S n)))) (res mX (fun c => - s c)%Qc).
Proof.
  intros Hn. unfold gray_pt_mcx. destruct (Nat.leb_spec n 1).
  - assert (n = 1) as E1 by lia. assert (BX : blk (effect gCX (globals qs (seq 0 (S n)))) (fun c => if all1 c then mX else mI)) by (pose proof (blk_ctrl1 gX mX (fun _ _ _ => eq_refl)) as B; rewrite E1 in B at 1; exact B).
    exists (fun _ => 0%Qc). split; (eapply blk_ext; [|exact BX]); intros c L; replace (- 0)%Qc with 0%Qc by ring; entries; destruct (all1 c); rewrite e_0; cbn [pauli_matrix Bool.eqb]; ring.
  - set (G := Comp n_gray (S n) 0 [(gH, [n]); (gray_gate (S n) (last_phase (S n) q1) true, seq 0 (S n)); (gH, [n])] []). destruct (blk_last q1 true Hn) as (s & _ & B). exists s.
    assert (BG : blk (effect G (globals qs (seq 0 (S n)))) (res mX s)).
    { intros psi x Hx. unfold G. rewrite effect_comp, globals_all. revert psi x Hx. change (blkb [(gH, [n]); (gray_gate (S n) (last_phase (S n) q1) true, seq 0 (S n)); (gH, [n])] (res mX s)).
      eapply blk_ext; [|eapply blkb_cons; [apply blk_H|eapply blkb_cons; [exact B|eapply blkb_cons; [apply blk_H|apply blkb_nil]]]].
      intros c L. destruct cs_half as (_ & H2). unfold q1. entries; destruct (all1 c); rewrite ?Qcplus_0_r, ?e_add, ?e_1; cbn [pauli_matrix Bool.eqb]; ring [H2]. }
    split; [exact BG|].
    assert (W : well_formed G).
    { constructor. pose proof (wf_gray (S n) _ (gray_gates_ok (S n) (last_phase (S n) q1) true (fun b _ => mcp_pairs (S n) q1 b))) as WG.
      repeat (constructor; [constructor| | | |]); try (repeat constructor; intros []); try (cbn; intros i [<-|[]]; lia); try reflexivity.
      - exact WG.
      - apply seq_NoDup.
      - apply seq_length.
      - intros i Hi. apply in_seq in Hi. lia. }
    assert (NU : ~ non_unitary G).
    { intros H'. inversion H' as [|? ? ? ? ? C| | | |? ? ? ? ? o loc I NU]; subst; [apply C; reflexivity|]. cbn in I. destruct I as [I|[I|[I|[]]]]; injection I as <- _; try (inversion NU; fail). exact (gray_unitary _ _ NU). }
    unfold inv_op. destruct (inverse Qcopp Qcplus G) as [G'|] eqn:EG; [|exfalso; apply NU; exact (proj1 (inverse_none Qcopp Qcplus G) EG)].
    rewrite globals_all in *. eapply (blk_inv G G' _ _ EG W eq_refl BG). intros c L.
    pose proof (e_opp (s c)) as EO. entries; destruct (all1 c); cbn [pauli_matrix Bool.eqb]; ring [EO].
Qed.
Lemma blk_comp2 nm nm1 t1 p1 l1 g1 ps1 nm2 t2 p2 l2 g2 ps2 M1 M2 : meq (u3 t1 p1 l1 g1) M1 -> meq (u3 t2 p2 l2 g2) M2 ->
  blk (effect (Comp nm 1 0 [(U3 nm1 t1 p1 l1 g1 ps1, [0]); (U3 nm2 t2 p2 l2 g2 ps2, [0])] []) (globals qs [n])) (fun _ => mmul M2 M1).
Proof.
  intros E1 E2 psi x Hx. rewrite effect_comp. cbn [InvProofs.run_body globals map InvSpec.effect nth]. rewrite on_mul by apply tq_lt, Hx. apply on_ext, mmul_ext; assumption.
Qed.
Lemma rz_m a : meq (u3 0%Qc a 0%Qc (- (a / (1 + 1)))%Qc) (diag (expi (- (a / (1 + 1)))%Qc) (expi (a / (1 + 1))%Qc)).
Proof. pose proof (rz_matrix a 0%Qc) as E. rewrite Qcplus_0_r in E. exact E. Qed.
Lemma br_abc na nb nc theta phi lam gp : 0 < n ->
  blkb [(Comp na 1 0 [(gRZ lam, [0]); (gRY (theta / (1 + 1))%Qc, [0])] [], [n]); (gray_pt_mcx n, seq 0 (S n));
        (Comp nb 1 0 [(gRY (- (theta / (1 + 1)))%Qc, [0]); (gRZ (- ((lam + phi) / (1 + 1)))%Qc, [0])] [], [n]);
        (inv_op (gray_pt_mcx n), seq 0 (S n)); (Comp nc 1 0 [(gRZ ((phi - lam) / (1 + 1))%Qc, [0])] [], [n])]
    (res (u3 theta phi lam gp) (fun c => if all1 c then - (gp + (lam + phi) / (1 + 1)) else 0)%Qc).
Proof.
  intros Hn. destruct (br_mcx Hn) as (s & BX & BX').
  assert (BC : blk (effect (Comp nc 1 0 [(gRZ ((phi - lam) / (1 + 1))%Qc, [0])] []) (globals qs [n])) (fun _ => diag (expi (- (((phi - lam) / (1 + 1)) / (1 + 1)))%Qc) (expi (((phi - lam) / (1 + 1)) / (1 + 1))%Qc))).
  { intros psi x Hx. rewrite effect_comp. cbn [InvProofs.run_body globals map gRZ mk_u3 InvSpec.effect nth]. apply on_ext, rz_m. }
  eapply blk_ext; [|eapply blkb_cons; [apply blk_comp2; [apply rz_m|apply ry_matrix]|eapply blkb_cons; [exact BX|eapply blkb_cons; [apply blk_comp2; [apply ry_matrix|apply rz_m]|eapply blkb_cons; [exact BX'|eapply blkb_cons; [exact BC|apply blkb_nil]]]]]].
  intros c L. set (a := (lam / (1 + 1) / (1 + 1))%Qc). set (b := (phi / (1 + 1) / (1 + 1))%Qc). set (t := (theta / (1 + 1))%Qc).
  replace (- (lam / (1 + 1)))%Qc with (- a + - a)%Qc by (unfold a; field; discriminate). replace (lam / (1 + 1))%Qc with (a + a)%Qc by (unfold a; field; discriminate).
  replace (- (- ((lam + phi) / (1 + 1)) / (1 + 1)))%Qc with (a + b)%Qc by (unfold a, b; field; discriminate).
  replace (- ((lam + phi) / (1 + 1)) / (1 + 1))%Qc with (- a + - b)%Qc by (unfold a, b; field; discriminate).
  replace (- ((phi - lam) / (1 + 1) / (1 + 1)))%Qc with (a + - b)%Qc by (unfold a, b; field; discriminate).
  replace ((phi - lam) / (1 + 1) / (1 + 1))%Qc with (- a + b)%Qc by (unfold a, b; field; discriminate).
  replace (- (gp + (lam + phi) / (1 + 1)))%Qc with (- gp + (- a + - a + - b + - b))%Qc by (unfold a, b; field; discriminate).
  assert (El : expi lam = expi a * expi a * expi a * expi a) by (rewrite <- !e_add; f_equal; unfold a; field; discriminate).
  assert (Ep : expi phi = expi b * expi b * expi b * expi b) by (rewrite <- !e_add; f_equal; unfold b; field; discriminate).
  assert (Ec : chalf theta = chalf t * chalf t + - (shalf t * shalf t)) by (rewrite <- c_add; f_equal; unfold t; field; discriminate).
  assert (Es : shalf theta = shalf t * chalf t + chalf t * shalf t) by (rewrite <- s_add; f_equal; unfold t; field; discriminate).
  pose proof (e_opp a) as Ea. pose proof (e_opp b) as Eb. pose proof (e_opp gp) as Eg. pose proof (e_opp (s c)) as EO.
  assert (CS : shalf t * shalf t = rI + - (chalf t * chalf t)) by (pose proof (c_s t) as CS; rewrite <- CS; ring).
  entries; unfold mRY, u3_matrix; destruct (all1 c); cbn [Bool.eqb pauli_matrix]; rewrite ?e_even, ?e_odd, ?e_0, ?e_add, ?El, ?Ep, ?Ec, ?Es; ring [Ea Eb Eg EO CS].
Qed.

Lemma acts_u3 nm t p l g ps M : meq (u3 t p l g) M -> acts (U3 nm t p l g ps) M.
Proof. intros E q psi x. cbn [InvSpec.effect nth]. apply on_ext, E. Qed.
Lemma res_ext U V s c : meq U V -> meq (res U s c) (res V s c).
Proof. intros E o i. unfold res. rewrite E. reflexivity. Qed.
Theorem u3_controlled m nm theta phi lam gp params : 0 < n -> m <> GrayPtInv -> (m = GrayPt -> nm <> n_h) -> standard_u3 nm theta phi lam gp params ->
  exists s, (m = Exact -> forall c, s c = 0%Qc) /\ forall psi x, fits qs x ->
    run_body qs (multi_controlled_u3_circ m (U3 nm theta phi lam gp params) n st) psi x = expi (s (ctl x)) * effect (Ctrl st (U3 nm theta phi lam gp params)) qs psi x.
Proof.
  intros Hn Hm Hmh (HS & HZ & HX & HY & HH & _). assert (Hfin : forall b, finish m b = b) by (destruct m; [reflexivity|reflexivity|contradiction]).
  assert (QM : forall s, quiet (pt m) s -> m = Exact -> forall c, s (cflip c) = 0%Qc) by (intros s Q -> c; apply Q; reflexivity).
  assert (FIN : forall b U s, acts (U3 nm theta phi lam gp params) U -> quiet (pt m) s -> blkb b (res U s) ->
    exists s, (m = Exact -> forall c, s c = 0%Qc) /\ forall psi x, fits qs x -> run_body qs (wrap st ++ b ++ wrap st) psi x = expi (s (ctl x)) * effect (Ctrl st (U3 nm theta phi lam gp params)) qs psi x).
  { intros b U s A Q B. exists (fun c => s (cflip c)). split; [exact (QM s Q)|]. intros psi x Hx. apply (wrap_res b U s); assumption. }
  assert (Q0 : quiet (pt m) (fun _ => 0%Qc)) by (intros _ c; reflexivity).
  cbn [multi_controlled_u3_circ]. rewrite !Hfin.
  destruct (n_S nm) eqn:E1.
  { apply name_in_In in E1. destruct (HS E1) as (-> & ->). destruct (br_p (pt m) phi lam Hn) as (s & Q & B). rewrite <- app_assoc. eapply FIN; [|exact Q|exact B]. apply acts_u3. intros o i; reflexivity. }
  destruct (name_eqb nm n_rz) eqn:E2.
  { apply name_eqb_eq in E2. destruct (HZ E2) as (-> & -> & ->). destruct (br_rz (pt m) phi lam Hn) as (s & Q & B). rewrite <- app_assoc. eapply FIN; [|exact Q|exact B]. apply acts_u3. intros o i; reflexivity. }
  destruct (name_in nm [n_rx; n_sx; n_sx ++ dg]) eqn:E3.
  { apply name_in_In in E3. destruct (HX E3) as (-> & -> & ->). destruct (br_rx (pt m) theta Hn) as (s & Q & B). rewrite <- app_assoc. eapply FIN; [|exact Q|exact B]. apply acts_u3, rx_matrix. }
  destruct (name_eqb nm n_ry) eqn:E4.
  { apply name_eqb_eq in E4. destruct (HY E4) as (-> & -> & ->). destruct (br_ry (pt m) theta Hn) as (s & Q & B). rewrite <- app_assoc. eapply FIN; [|exact Q|exact B]. apply acts_u3, ry_matrix. }
  unfold is0. destruct (Qc_eq_bool phi 0 && Qc_eq_bool lam 0 && Qc_eq_bool theta 0) eqn:E5.
  { apply andb_true_iff in E5. destruct E5 as (E5 & Et). apply andb_true_iff in E5. destruct E5 as (Ep & El). apply Qc_eq_bool_correct in Ep, El, Et. subst phi lam theta.
    destruct (Qc_eq_bool gp 0 || pt m) eqn:E6.
    - change (wrap st ++ wrap st) with (wrap st ++ [] ++ wrap st). apply orb_true_iff in E6.
      apply (FIN _ (diag (expi gp) (expi gp)) (fun c => if all1 c then - gp else 0)%Qc); [apply acts_u3, br_zero| |].
      + intros Hq c. destruct E6 as [E6|E6]; [|congruence]. apply Qc_eq_bool_correct in E6. subst gp. destruct (all1 c); ring.
      + eapply blk_ext; [|apply blkb_nil]. intros c L. pose proof (e_opp gp) as EO. entries; destruct (all1 c); rewrite ?e_0; ring [EO].
    - apply orb_false_iff in E6. destruct E6 as (_ & E6). apply (FIN _ (diag (expi gp) (expi gp)) (fun _ => 0%Qc)); [apply acts_u3, br_zero|exact Q0|].
      eapply blk_ext; [|eapply blkb_cons; [apply (blk_global gp Hn)|apply blkb_nil]]. intros c L. entries; destruct (all1 c); cbn [Bool.eqb]; rewrite ?e_0; ring. }
  destruct (name_eqb nm n_h) eqn:E7.
  { apply name_eqb_eq in E7. apply (FIN _ mH (fun _ => 0%Qc)); [apply acts_u3|exact Q0|exact br_h]. destruct (HH E7) as [(-> & -> & -> & ->)|(-> & -> & -> & ->)]; [apply h_matrix|apply h_inv_matrix]. }
  pose proof (br_abc ["A"%char] ["B"%char] ["C"%char] theta phi lam gp Hn) as B. set (l := [_; _; _; _; _]) in B. change ([(Comp _ _ _ _ _, _); _; _; _; _]) with l. rewrite (app_assoc _ l).
  destruct (pt m) eqn:Ept.
  - cbn [app]. apply (FIN _ (u3 theta phi lam gp) (fun c => if all1 c then - (gp + (lam + phi) / (1 + 1)) else 0)%Qc); [apply acts_u3; intros o i; reflexivity|discriminate|exact B].
  - apply (FIN _ (u3 theta phi lam gp) (fun _ => 0%Qc)); [apply acts_u3; intros o i; reflexivity|intros _ c; reflexivity|].
    eapply blk_ext; [|eapply blkb_app; [eapply blkb_cons; [apply (blk_global _ Hn)|apply blkb_nil]|exact B]]. intros c L. pose proof (e_opp (gp + (lam + phi) / (1 + 1))%Qc) as EO. entries; destruct (all1 c); cbn [Bool.eqb]; rewrite ?e_0; ring [EO].
Qed.
Theorem pauli_controlled p : 0 < n -> p <> PY -> forall psi x, fits qs x ->
    run_body qs (multi_controlled_u3_circ Exact (Pauli p) n st) psi x = effect (Ctrl st (Pauli p)) qs psi x.
Proof.
  intros Hn Hp psi x Hx. destruct p; [|contradiction|]; cbn [multi_controlled_u3_circ].
  - rewrite (wrap_res _ _ _ (Pauli PX) (fun _ _ _ => eq_refl) (br_x Hn) psi x Hx), e_0. ring.
  - rewrite (wrap_res _ _ _ (Pauli PZ) (fun _ _ _ => eq_refl) br_z psi x Hx), e_0. ring.
Qed.
(** for Y: the sign is wrong where the controls match *)
Theorem y_controlled : forall psi x, fits qs x ->
    run_body qs (multi_controlled_u3_circ Exact (Pauli PY) n st) psi x = (if bits_eqb (ctl x) st then - effect (Ctrl st (Pauli PY)) qs psi x else psi x).
Proof.
  intros psi x Hx. cbn [multi_controlled_u3_circ]. rewrite (blk_wrap _ _ br_y psi x Hx). rewrite <- all1_cflip by apply ctl_length. unfold res. rewrite e_0. destruct (all1 (cflip (ctl x))) eqn:E.
  - cbn [InvSpec.effect]. rewrite LS. fold (ctl x). rewrite <- all1_cflip, E, skip_qs by apply ctl_length. cbn [nth]. unfold InvSpec.on_qubit. ring.
  - rewrite <- (on_I tq psi x). unfold InvSpec.on_qubit. ring.
Qed.
End state.
End block.

(** ** composite operations, nested controls *)
Lemma firstn_last {A} (d : A) : forall l k, k < length l -> firstn (S k) l = firstn k l ++ [nth k l d].
Proof. induction l as [|a l IH]; intros k H; [cbn in H; lia|]. destruct k as [|k]; [destruct l; reflexivity|]. cbn [length] in H. rewrite !firstn_cons, (IH k) by lia. reflexivity. Qed.
Lemma NoDup_disj {A} (a b : list A) : NoDup (a ++ b) -> forall q, In q a -> In q b -> False.
Proof. induction a as [|z a IH]; intros H q Ha Hb; [destruct Ha|]. inversion H as [|? ? N D]; subst. destruct Ha as [->|Ha]; [apply N, in_or_app; auto|exact (IH D q Ha Hb)]. Qed.
Lemma agree_fits qs qs' x y : agree_off qs' x y -> fits qs x -> fits qs y.
Proof. intros (L & _) H q Hq. rewrite L. apply H, Hq. Qed.
Lemma bits_app : forall a b c d, length a = length c -> bits_eqb (a ++ b) (c ++ d) = bits_eqb a c && bits_eqb b d.
Proof. induction a as [|x a IH]; intros b [|y c] d L; cbn in *; try lia; [reflexivity|]. rewrite IH by lia. destruct (Bool.eqb x y); reflexivity. Qed.
Lemma firstn_skipn_add {A} (l : list A) a b : firstn (a + b)%nat l = firstn a l ++ firstn b (skipn a l).
Proof. revert l. induction a as [|a IH]; intros [|x l]; cbn [Nat.add firstn skipn app]; try reflexivity; [rewrite firstn_nil; reflexivity|]. rewrite IH. reflexivity. Qed.
Lemma skipn_add {A} (l : list A) a b : skipn (a + b)%nat l = skipn b (skipn a l).
Proof. revert l. induction a as [|a IH]; intros [|x l]; cbn [Nat.add skipn]; try reflexivity; [rewrite skipn_nil; reflexivity|]. apply IH. Qed.
Lemma ctrl_ctrl s1 s2 base qs psi x : length s1 <= length qs -> effect (Ctrl (s1 ++ s2) base) qs psi x = effect (Ctrl s1 (Ctrl s2 base)) qs psi x.
Proof.
  intros L. cbn [InvSpec.effect]. rewrite app_length, firstn_skipn_add, skipn_add, map_app, bits_app by (rewrite map_length, firstn_length; lia).
  destruct (bits_eqb _ s1); [|reflexivity]. cbn [andb]. reflexivity.
Qed.
Lemma controlled_effect : forall o st qs psi x, length qs = (length st + arity o)%nat -> effect (controlled st o) qs psi x = effect (Ctrl st o) qs psi x.
Proof.
  induction o as [| |s b IH| | | | | |] using op_ind'; intros st qs psi x L; try reflexivity. cbn [controlled arity] in *. rewrite IH by (rewrite app_length; lia). apply ctrl_ctrl. lia.
Qed.
Lemma composite_controlled n qs st : NoDup qs -> length st = n -> forall b, wf_body (length (skipn n qs)) b -> n <= length qs -> forall psi x,
  run_body qs (multi_controlled_circuit b n st) psi x = if bits_eqb (map (getbit x) (firstn n qs)) st then run_body (skipn n qs) b psi x else psi x.
Proof.
  intros ND LS b W LN. induction b as [|[o loc] b IH]; intros psi x; [destruct (bits_eqb _ _); reflexivity|]. inversion W as [|? ? ? ? Wo Nl Ll Rl Wb]; subst. specialize (IH Wb).
  cbn [multi_controlled_circuit map]. fold (multi_controlled_circuit b (length st) st). set (n := length st) in *.
  assert (GL : globals qs (map (fun q => (n + q)%nat) loc) = globals (skipn n qs) loc).
  { unfold globals. rewrite map_map. apply map_ext. intros i. rewrite nth_skipn. reflexivity. }
  assert (GC : globals qs (seq 0 n) = firstn n qs).
  { unfold globals. apply (nth_ext _ _ 0 0); rewrite map_length, seq_length; [rewrite firstn_length; lia|]. intros i Hi. rewrite (nth_indep _ 0 (nth 0 qs 0)) by (rewrite map_length, seq_length; exact Hi). rewrite (map_nth (fun i => nth i qs 0)), seq_nth by exact Hi.
    rewrite <- (firstn_skipn n qs) at 1. rewrite app_nth1 by (rewrite firstn_length; lia). reflexivity. }
  assert (DJ : forall q, In q (firstn n qs) -> ~ In q (skipn n qs)).
  { intros q A B. pose proof ND as H. rewrite <- (firstn_skipn n qs) in H. exact (NoDup_disj _ _ H q A B). }
  assert (CT : forall y, agree_off (skipn n qs) x y -> map (getbit y) (firstn n qs) = map (getbit x) (firstn n qs)).
  { intros y (_ & H). apply map_ext_in. intros q Hq. apply H, DJ, Hq. }
  destruct (is_alloc o) eqn:AL.
  - destruct o; try discriminate; cbn [InvProofs.run_body InvSpec.effect]; apply IH.
  - cbn [InvProofs.run_body]. rewrite IH. unfold globals at 1 2. rewrite map_app. fold (globals qs (seq 0 n)). fold (globals qs (map (fun q => (n + q)%nat) loc)). rewrite GL, GC.
    assert (EF : forall y, map (getbit y) (firstn n qs) = map (getbit x) (firstn n qs) -> effect (controlled st o) (firstn n qs ++ globals (skipn n qs) loc) psi y = if bits_eqb (map (getbit x) (firstn n qs)) st then effect o (globals (skipn n qs) loc) psi y else psi y).
    { intros y Hy. rewrite controlled_effect by (rewrite app_length, firstn_length; unfold globals; rewrite map_length, Ll; fold n; lia). cbn [InvSpec.effect]. fold n. rewrite firstn_app, firstn_firstn, Nat.min_id, firstn_length.
      replace (n - Nat.min n (length qs)) with 0 by lia. rewrite firstn_O, app_nil_r, Hy, skipn_app, skipn_all2, firstn_length by (rewrite firstn_length; lia). replace (n - Nat.min n (length qs)) with 0 by lia. reflexivity. }
    destruct (bits_eqb (map (getbit x) (firstn n qs)) st) eqn:EB.
    + apply run_body_wf_local; [exact Wb|]. intros y Hy. apply EF, CT, Hy.
    + rewrite EF by reflexivity. reflexivity.
Qed.
(** ** swap *)
Definition cxf (a b : nat) (x : list bool) : list bool := setbit x b (xorb (getbit x b) (getbit x a)).
Lemma cx_effect a b psi x : effect gCX [a; b] psi x = psi (cxf a b x).
Proof.
  cbn [gCX gX InvSpec.effect length firstn skipn map bits_eqb nth]. unfold cxf. destruct (getbit x a); cbn [Bool.eqb andb].
  - unfold InvSpec.on_qubit. destruct (getbit x b); cbn [pauli_matrix xorb]; ring.
  - rewrite xorb_false_r, setbit_get. reflexivity.
Qed.
Lemma cxf_length a b x : length (cxf a b x) = length x. Proof. apply setbit_length. Qed.
Lemma get_cxf a b x q : b < length x -> getbit (cxf a b x) q = if q =? b then xorb (getbit x b) (getbit x a) else getbit x q.
Proof. intros H. unfold cxf. destruct (Nat.eqb_spec q b) as [->|N]; [apply getbit_set_same, H|apply getbit_set_other, N]. Qed.
Lemma swap_two a b x : a <> b -> a < length x -> b < length x -> cxf b a (cxf a b (cxf b a x)) = cxf a b (cxf b a (cxf a b x)).
Proof.
  intros D A B. apply getbit_ext; [rewrite !cxf_length; reflexivity|]. rewrite !cxf_length. intros q _. repeat rewrite get_cxf by (rewrite ?cxf_length; assumption). rewrite !Nat.eqb_refl.
  destruct (Nat.eqb_spec a b); [contradiction|]. destruct (Nat.eqb_spec b a); [congruence|]. destruct (Nat.eqb_spec q a), (Nat.eqb_spec q b); subst; try congruence; destruct (getbit x a), (getbit x b); reflexivity.
Qed.
Lemma cxf_cxf a b x : a <> b -> b < length x -> cxf a b (cxf a b x) = x.
Proof.
  intros D B. apply getbit_ext; [rewrite !cxf_length; reflexivity|]. rewrite !cxf_length. intros q _. repeat rewrite get_cxf by (rewrite ?cxf_length; assumption). rewrite !Nat.eqb_refl. destruct (Nat.eqb_spec a b); [contradiction|].
  destruct (Nat.eqb_spec q b); [subst|reflexivity]. destruct (getbit x a), (getbit x b); reflexivity.
Qed.
Theorem swap_controlled n qs st : NoDup qs -> length qs = (n + 2)%nat -> length st = n -> forall psi x, fits qs x ->
  run_body qs (fredkin_qc n st) psi x = effect (Ctrl st gSwap) qs psi x.
Proof.
  intros ND LQ LS psi x Hx. set (a := nth n qs 0). set (b := nth (n + 1)%nat qs 0).
  assert (SK : skipn n qs = [a; b]).
  { apply (nth_ext _ _ 0 0); rewrite skipn_length, LQ; [cbn [length]; lia|]. intros i Hi. rewrite nth_skipn. destruct i as [|[|i]]; [rewrite Nat.add_0_r; reflexivity|reflexivity|lia]. }
  assert (Ia : In a qs) by (apply nth_In; lia). assert (Ib : In b qs) by (apply nth_In; lia). assert (D : a <> b) by (intros E; apply (proj1 (NoDup_nth qs 0) ND) in E; lia).
  assert (NC : forall q, In q (firstn n qs) -> q <> a /\ q <> b).
  { intros q Hq. pose proof ND as H. rewrite <- (firstn_skipn n qs), SK in H. split; intros ->; apply (NoDup_disj _ _ H _ Hq); cbn; auto. }
  pose proof (Hx a Ia) as La. pose proof (Hx b Ib) as Lb.
  assert (GA : globals qs (seq 0 (n + 2)) = qs).
  { unfold globals. apply (nth_ext _ _ 0 0); rewrite map_length, seq_length; [lia|]. intros i Hi. rewrite (nth_indep _ 0 (nth 0 qs 0)) by (rewrite map_length, seq_length; exact Hi). rewrite (map_nth (fun i => nth i qs 0)), seq_nth by exact Hi. reflexivity. }
  unfold fredkin_qc. cbn [InvProofs.run_body]. rewrite GA. cbn [globals map]. fold a b. rewrite cx_effect.
  rewrite controlled_effect by (cbn [arity gCX gX length]; lia). cbn [InvSpec.effect gSwap]. rewrite LS.
  assert (C1 : map (getbit (cxf b a x)) (firstn n qs) = map (getbit x) (firstn n qs)).
  { apply map_ext_in. intros q Hq. rewrite get_cxf by exact La. destruct (Nat.eqb_spec q a); [subst; exfalso; apply (proj1 (NC _ Hq)); reflexivity|reflexivity]. }
  rewrite C1. destruct (bits_eqb _ st).
  - rewrite SK. change (effect gCX [a; b] (effect gCX [b; a] psi) (cxf b a x) = effect gCX [a; b] (effect gCX [b; a] (effect gCX [a; b] psi)) x). rewrite !cx_effect. rewrite swap_two by assumption. reflexivity.
  - change (effect gCX [b; a] psi (cxf b a x) = psi x). rewrite cx_effect, cxf_cxf by auto. reflexivity.
Qed.
(** ** global phases *)
Theorem gphase_controlled n qs st a nm params : NoDup qs -> length qs = S n -> length st = n -> 0 < n -> forall psi x, fits qs x ->
  run_body qs (controlled_gphase a n st) psi x = effect (Ctrl (tl st ++ [hd true st]) (U3 nm 0%Qc 0%Qc 0%Qc a params)) qs psi x.
Proof.
  intros ND LQ LS Hn psi x Hx. destruct st as [|s0 st]; [cbn in LS; lia|]. cbn [tl hd]. destruct n as [|k]; [lia|]. cbn in LS. assert (Lk : length st = k) by lia. clear LS Hn.
  set (q := nth k qs 0). assert (Iq : In q qs) by (apply nth_In; lia). pose proof (Hx q Iq) as Lq.
  assert (FQ : firstn (S k) qs = firstn k qs ++ [q]) by (apply firstn_last; lia).
  assert (NQ : ~ In q (firstn k qs)) by (pose proof ND as H; rewrite <- (firstn_skipn (S k) qs), FQ, <- app_assoc in H; apply NoDup_remove in H; intros I; apply (proj2 H), in_or_app; auto).
  assert (GC : globals qs (seq 0 (S k)) = firstn k qs ++ [q]).
  { rewrite <- FQ. unfold globals. apply (nth_ext _ _ 0 0); rewrite map_length, seq_length; [rewrite firstn_length; lia|]. intros i Hi. rewrite (nth_indep _ 0 (nth 0 qs 0)) by (rewrite map_length, seq_length; exact Hi). rewrite (map_nth (fun i => nth i qs 0)), seq_nth by exact Hi.
    rewrite <- (firstn_skipn (S k) qs) at 1. rewrite app_nth1 by (rewrite firstn_length; lia). reflexivity. }
  assert (PG : forall psi x, effect (if 1 <? S k then controlled st (gP a) else gP a) (firstn k qs ++ [q]) psi x = if bits_eqb (map (getbit x) (firstn k qs)) st && getbit x q then expi a * psi x else psi x).
  { intros phi y. assert (GP : forall p, effect (gP a) [p] phi y = if getbit y p then expi a * phi y else phi y).
    { intros p. cbn [gP mk_u3 InvSpec.effect nth]. rewrite (on_ext _ _ _ _ _ (p_matrix 0%Qc 0%Qc a 0%Qc eq_refl eq_refl)), on_diag. replace (a + 0)%Qc with a by ring. destruct (getbit y p); ring. }
    destruct (Nat.ltb_spec 1 (S k)) as [Hk|Hk].
    - cbn [controlled gP mk_u3]. change (U3 n_p _ _ _ _ _) with (gP a). cbn [InvSpec.effect]. rewrite Lk, firstn_app, firstn_firstn, Nat.min_id, firstn_length. replace (k - Nat.min k (length qs)) with 0 by lia. rewrite firstn_O, app_nil_r, skipn_app, skipn_all2, firstn_length by (rewrite firstn_length; lia). replace (k - Nat.min k (length qs)) with 0 by lia. cbn [app skipn]. rewrite GP. destruct (bits_eqb _ st); reflexivity.
    - destruct st; [|cbn in Lk; lia]. cbn in Lk. subst k. cbn [firstn app map bits_eqb andb]. apply GP. }
  assert (RH : effect (Ctrl (st ++ [s0]) (U3 nm 0%Qc 0%Qc 0%Qc a params)) qs psi x = if bits_eqb (map (getbit x) (firstn k qs)) st && Bool.eqb (getbit x q) s0 then expi a * psi x else psi x).
  { cbn [InvSpec.effect]. rewrite app_length, Lk, Nat.add_1_r, FQ, map_app. rewrite bits_app by (rewrite map_length, firstn_length; lia). cbn [map bits_eqb]. rewrite andb_true_r. destruct (_ && _); [|reflexivity].
    rewrite (on_ext _ _ _ _ _ (br_zero a)). apply on_scalar. }
  rewrite RH. unfold controlled_gphase. cbn [hd tl]. replace (S k - 1) with k by lia. destruct s0; cbn [app InvProofs.run_body]; rewrite ?GC.
  - rewrite PG. destruct (getbit x q); reflexivity.
  - cbn [globals map]. fold q. set (y := setbit x q (negb (getbit x q))).
    assert (XE : forall phi z, effect gX [q] phi z = phi (setbit z q (negb (getbit z q)))) by (intros phi z; cbn [gX InvSpec.effect nth]; unfold InvSpec.on_qubit; destruct (getbit z q); cbn [pauli_matrix negb]; ring).
    rewrite XE. fold y. rewrite PG, XE. assert (Gy : getbit y q = negb (getbit x q)) by (apply getbit_set_same, Lq). rewrite Gy, negb_involutive. unfold y at 2 3. rewrite setbit_twice, setbit_get.
    assert (Cy : map (getbit y) (firstn k qs) = map (getbit x) (firstn k qs)) by (apply map_ext_in; intros p Hp; apply getbit_set_other; intros ->; contradiction). rewrite Cy. destruct (getbit x q); reflexivity.
Qed.

(** ** definitions, to any depth *)
Lemma some_inj {A} (u v : A) : Some u = Some v -> v = u.
Proof. congruence. Qed.
Lemma rotate_const st : st <> [] -> st = repeat true (length st) \/ st = repeat false (length st) -> tl st ++ [hd true st] = st.
Proof. intros N H. destruct st as [|b st]; [contradiction|]. cbn [tl hd length repeat] in *. destruct H as [E|E]; injection E as -> E; rewrite E; symmetry; apply repeat_cons. Qed.
Theorem definition_correct st base b : st <> [] -> controllable st base -> definition Exact base (length st) st = Some b ->
  forall qs, NoDup qs -> length qs = (length st + arity base)%nat -> forall psi x, fits qs x -> run_body qs b psi x = effect (Ctrl st base) qs psi x.
Proof.
  intros NE C D qs ND LQ psi x Hx. assert (Hn : 0 < length st) by (destruct st; [contradiction|cbn; lia]).
  destruct C as [st nm theta phi lam gp params S0 G|st p P|st|st nm nq ncl b0 params N W F|st st' base C]; cbn [definition arity] in D, LQ.
  - destruct (name_eqb nm n_gphase) eqn:E.
    + apply some_inj in D; subst b. apply name_eqb_eq in E. destruct S0 as (_ & _ & _ & _ & _ & S0). destruct (S0 E) as (-> & -> & -> & ->). cbn [hd].
      rewrite (gphase_controlled (length st) qs st gp nm [gp] ND ltac:(lia) eq_refl Hn psi x Hx). rewrite rotate_const by auto. reflexivity.
    + apply some_inj in D; subst b. destruct (u3_controlled (length st) qs ND ltac:(lia) st eq_refl Exact nm theta phi lam gp params Hn ltac:(discriminate) ltac:(discriminate) S0) as (s & Q & H).
      rewrite (H psi x Hx), Q, e_0 by reflexivity. ring.
  - destruct ((length st =? 1) && hd false st) eqn:E; [discriminate|].
    assert (NY : p <> PY) by (destruct P as [P|P]; [exact P|]; subst st; discriminate E).
    assert (b = multi_controlled_u3_circ Exact (Pauli p) (length st) st) as -> by (destruct p; [destruct (_ && _) in D; [discriminate|]| |]; apply some_inj in D; exact D).
    apply pauli_controlled; try assumption; [lia|reflexivity].
  - apply some_inj in D; subst b. apply swap_controlled; try assumption; reflexivity.
  - rewrite (name_eqb_neq _ _ N) in D. apply some_inj in D; subst b. rewrite (composite_controlled (length st) qs st ND eq_refl); [|rewrite skipn_length, LQ; replace (length st + nq - length st)%nat with nq by lia; exact W|lia].
    cbn [InvSpec.effect]. destruct (bits_eqb _ st); [|reflexivity]. symmetry. exact (f_equal (fun f => f x) (effect_comp Qcplus rO rI radd rmul ropp expi chalf shalf im nm nq ncl b0 params (skipn (length st) qs) psi)).
  - discriminate.
Qed.
Definition inst_ok (k : nat) (i : qop * list nat) : Prop := decomposable (fst i) /\ NoDup (snd i) /\ length (snd i) = arity (fst i) /\ forall j, In j (snd i) -> j < k.
Lemma controllable_wf st o : controllable st o -> well_formed o.
Proof.
  induction 1; try (constructor; assumption). unfold gSwap, gCX, gX. constructor. repeat (constructor; [repeat constructor|repeat constructor; cbn; intuition lia|reflexivity|cbn; intuition lia|]). constructor.
Qed.
Lemma decomposable_wf o : decomposable o -> well_formed o.
Proof. intros H. inversion H; subst; constructor; auto. eapply controllable_wf; eassumption. Qed.
Lemma controlled_dec st o : st <> [] -> controllable st o -> decomposable (controlled st o).
Proof.
  intros NE C. induction C as [st nm theta phi lam gp params S0 G|st p P|st|st nm nq ncl b0 params N W F|st st' base C IH]; cbn [controlled]; try (constructor; [exact NE|]).
  - constructor; assumption.
  - constructor; assumption.
  - constructor.
  - apply c_comp; [exact N|exact W|]. intros o loc I. destruct (F o loc I); auto.
  - apply IH. intros E. apply app_eq_nil in E. tauto.
Qed.
Lemma controlled_arity : forall o st, arity (controlled st o) = (length st + arity o)%nat.
Proof. induction o as [| |s b IH| | | | | |] using op_ind'; intros st; try reflexivity. cbn [controlled arity]. rewrite IH, app_length. lia. Qed.
Lemma dec_gCX : decomposable gCX. Proof. constructor; [discriminate|]. constructor. left. discriminate. Qed.
Lemma inst_one k o q : decomposable o -> arity o = 1 -> q < k -> inst_ok k (o, [q]).
Proof. intros D A Q. split; [exact D|]. split; [repeat constructor; intros []|]. split; [symmetry; exact A|]. cbn. intros j [<-|[]]. exact Q. Qed.
Lemma inst_seq k m o : decomposable o -> arity o = m -> m <= k -> inst_ok k (o, seq 0 m).
Proof. intros D A Q. split; [exact D|]. split; [apply seq_NoDup|]. split; [cbn [fst snd]; rewrite seq_length; symmetry; exact A|]. cbn. intros j Hj. apply in_seq in Hj. lia. Qed.
Lemma inst_wf k b : Forall (inst_ok k) b -> wf_body k b.
Proof. induction 1 as [|[o loc] b (D & N & L & B) F IH]; constructor; auto. apply decomposable_wf, D. Qed.
Lemma dec_comp nm k b ps : Forall (inst_ok k) b -> decomposable (Comp nm k 0 b ps).
Proof. intros F. constructor; [apply inst_wf, F|]. intros o loc I. rewrite Forall_forall in F. apply (F _ I). Qed.
Lemma inst_gray k l : Forall (gate_ok k) l -> Forall (inst_ok k) (gray_ops l).
Proof.
  induction 1 as [|g l G F IH]; [constructor|]. destruct g as [c t|a q]; cbn [gray_ops map]; (constructor; [|exact IH]).
  - destruct G as (A & B & D). split; [exact dec_gCX|]. split; [repeat constructor; cbn; intuition|]. split; [reflexivity|]. cbn. intros j [<-|[<-|[]]]; assumption.
  - apply inst_one; [constructor|reflexivity|exact G].
Qed.
Lemma dec_gray n phases tol : (forall b, b < n -> least_pair n phases b) -> decomposable (gray_gate n phases tol).
Proof. intros H. apply dec_comp, inst_gray, gray_gates_ok, H. Qed.
Lemma dec_last n a tol : decomposable (gray_gate n (last_phase n a) tol).
Proof. apply dec_gray. intros b _. apply mcp_pairs. Qed.
Lemma dec_two n a b tol : decomposable (gray_gate (S n) (last_phases (S n) a b) tol).
Proof. apply dec_gray. intros q Hq. apply two_pairs. lia. Qed.
Lemma inst_wrap n st : length st <= n -> Forall (inst_ok (S n)) (wrap st).
Proof.
  intros L. unfold wrap. apply Forall_forall. intros i Hi. apply in_flat_map in Hi. destruct Hi as (j & Hj & Hi). apply in_seq in Hj. destruct (nth j st true); [destruct Hi|]. destruct Hi as [<-|[]]. apply inst_one; [constructor|reflexivity|lia].
Qed.
(** inverses of the gates of a Gray circuit *)
Inductive plain : qop -> Prop :=
| p_u3 nm t p l g ps : plain (U3 nm t p l g ps) | p_cx : plain gCX
| p_comp nm k b ps : wf_body k b -> (forall o loc, In (o, loc) b -> plain o) -> plain (Comp nm k 0 b ps).
Lemma plain_dec o : plain o -> decomposable o.
Proof. induction 1 as [| |nm k b ps W F IH]; [constructor|exact dec_gCX|]. constructor; assumption. Qed.
Lemma plain_wf o : plain o -> well_formed o. Proof. intros H. apply decomposable_wf, plain_dec, H. Qed.
Lemma plain_inv o : plain o -> forall o', inverse Qcopp Qcplus o = Some o' -> plain o'.
Proof.
  induction 1 as [nm t p l g ps| |nm k b ps W F IH]; intros o' E.
  - injection E as <-. constructor.
  - injection E as <-. constructor.
  - pose proof (inverse_wf Qcopp Qcplus _ _ E (wf_comp _ _ 0 _ _ W)) as WW. rewrite inverse_comp in E. destruct (inverse_onto Qcopp Qcplus b []) as [l|] eqn:EL; [|discriminate]. injection E as <-. constructor; [inversion WW; assumption|].
    intros o loc I. apply filter_In in I. destruct I as (I & _). apply inverse_onto_shape in EL. destruct EL as (e & -> & F2). rewrite app_nil_r in I. apply in_rev in I.
    destruct (shape_In Qcopp Qcplus _ _ _ _ F2 I) as (o0 & I0 & E0). exact (IH o0 loc I0 o E0).
Qed.
Lemma plain_mcx n : 0 < n -> plain (gray_pt_mcx n) /\ arity (gray_pt_mcx n) = S n.
Proof.
  intros Hn. unfold gray_pt_mcx. destruct (Nat.leb_spec n 1); [split; [constructor|cbn; lia]|]. split; [|reflexivity].
  pose proof (gray_gates_ok (S n) (last_phase (S n) q1) true (fun b _ => mcp_pairs (S n) q1 b)) as G. pose proof (inst_gray _ _ G) as IG.
  constructor.
  - apply inst_wf. constructor; [apply inst_one; [constructor|reflexivity|lia]|]. constructor; [apply inst_seq; [apply dec_last|reflexivity|lia]|]. constructor; [apply inst_one; [constructor|reflexivity|lia]|constructor].
  - intros o loc I. cbn in I. destruct I as [I|[I|[I|[]]]]; injection I as <- _; try constructor; [apply inst_wf, IG|].
    intros o loc' I. unfold gray_ops in I. apply in_map_iff in I. destruct I as ([c t|a q] & E & _); injection E as <- _; constructor.
Qed.
Lemma dec_inv_mcx n : 0 < n -> decomposable (inv_op (gray_pt_mcx n)) /\ arity (inv_op (gray_pt_mcx n)) = S n.
Proof.
  intros Hn. destruct (plain_mcx n Hn) as (P & A). unfold inv_op. destruct (inverse Qcopp Qcplus (gray_pt_mcx n)) as [o|] eqn:E; [|split; [apply plain_dec, P|exact A]].
  split; [apply plain_dec, (plain_inv _ P _ E)|]. rewrite (inverse_arity _ _ _ _ E). exact A.
Qed.
Lemma dec_mcx n : 0 < n -> inst_ok (S n) (controlled (repeat true n) gX, seq 0 (S n)).
Proof.
  intros Hn. apply inst_seq; [|rewrite controlled_arity, repeat_length; cbn; lia|lia]. apply controlled_dec; [destruct n; [lia|discriminate]|]. constructor. left. discriminate.
Qed.
Lemma u3_inst base st n : length st = n -> 0 < n -> Forall (inst_ok (S n)) (multi_controlled_u3_circ Exact base n st).
Proof.
  intros L Hn. pose proof (inst_wrap n st ltac:(lia)) as W.
  assert (T1 : forall nm t p l g ps, inst_ok (S n) (U3 nm t p l g ps, [n])) by (intros; apply inst_one; [constructor|reflexivity|lia]).
  assert (MX := dec_mcx n Hn).
  assert (GL : forall a, inst_ok (S n) (gray_gate (S n) (last_phase (S n) a) false, seq 0 (S n))) by (intros; apply inst_seq; [apply dec_last|reflexivity|lia]).
  assert (GT : forall a b, inst_ok (S n) (gray_gate (S n) (last_phases (S n) a b) false, seq 0 (S n))) by (intros; apply inst_seq; [apply dec_two|reflexivity|lia]).
  assert (GG : forall a, inst_ok (S n) (gray_gate n (last_phase n a) false, seq 0 n)) by (intros; apply inst_seq; [apply dec_last|reflexivity|lia]).
  destruct base as [nm theta phi lam gp params|p| | | | | | |]; try constructor; cbn [multi_controlled_u3_circ finish pt].
  - assert (AL : forall b, Forall (inst_ok (S n)) b -> Forall (inst_ok (S n)) (wrap st ++ b ++ wrap st)) by (intros b Hb; repeat (apply Forall_app; split); assumption).
    destruct (n_S nm); [rewrite <- app_assoc; apply AL; constructor; [apply GL|constructor]|]. destruct (name_eqb nm n_rz); [rewrite <- app_assoc; apply AL; constructor; [apply GT|constructor]|].
    destruct (name_in nm [n_rx; n_sx; n_sx ++ dg]); [rewrite <- app_assoc; apply AL; constructor; [apply T1|constructor; [apply GT|constructor; [apply T1|constructor]]]|].
    destruct (name_eqb nm n_ry); [rewrite <- app_assoc; apply AL; constructor; [apply T1|constructor; [apply T1|constructor; [apply GT|constructor; [apply T1|constructor; [apply T1|constructor]]]]]|].
    destruct (is0 phi && is0 lam && is0 theta); [destruct (is0 gp || false); [apply (AL []); constructor|apply AL; constructor; [apply GG|constructor]]|].
    destruct (name_eqb nm n_h); [apply AL; repeat (constructor; [first [apply T1|exact MX]|]); constructor|].
    repeat (apply Forall_app; split); try exact W; [cbv iota; constructor; [apply GG|constructor]|]. destruct (plain_mcx n Hn) as (P & A). destruct (dec_inv_mcx n Hn) as (P' & A').
    assert (D1 : forall nm b, Forall (inst_ok 1) b -> inst_ok (S n) (Comp nm 1 0 b [], [n])) by (intros nm0 b F; apply inst_one; [apply dec_comp, F|reflexivity|lia]).
    assert (T0 : forall nm t p l g ps, inst_ok 1 (U3 nm t p l g ps, [0])) by (intros; apply inst_one; [constructor|reflexivity|lia]).
    constructor; [apply D1; constructor; [apply T0|constructor; [apply T0|constructor]]|]. constructor; [apply inst_seq; [apply plain_dec, P|exact A|lia]|].
    constructor; [apply D1; constructor; [apply T0|constructor; [apply T0|constructor]]|]. constructor; [apply inst_seq; [exact P'|exact A'|lia]|]. constructor; [apply D1; constructor; [apply T0|constructor]|constructor].
  - destruct p; cbn [multi_controlled_u3_circ]; repeat (apply Forall_app; split); auto; try solve [repeat (constructor; [first [apply T1|exact MX]|]); constructor].
    constructor; [|constructor]. apply inst_seq; [| |lia]; unfold multi_cx; destruct (Nat.leb_spec n 2).
    + constructor; [destruct n; [lia|discriminate]|]. constructor. left. discriminate.
    + apply dec_comp. constructor; [apply T1|]. constructor; [apply GL|]. constructor; [apply T1|constructor].
    + cbn. rewrite repeat_length. lia.
    + reflexivity.
Qed.

Lemma definition_inst st base b : st <> [] -> controllable st base -> definition Exact base (length st) st = Some b -> Forall (inst_ok (length st + arity base)%nat) b.
Proof.
  intros NE C D. assert (Hn : 0 < length st) by (destruct st; [contradiction|cbn; lia]).
  destruct C as [st nm theta phi lam gp params S0 G|st p P|st|st nm nq ncl b0 params N W F|st st' base C]; cbn [definition arity] in D |- *.
  - rewrite Nat.add_1_r. destruct (name_eqb nm n_gphase).
    + apply some_inj in D. subst b. unfold controlled_gphase.
      assert (X : Forall (inst_ok (S (length st))) (if hd true st then [] else [(gX, [length st - 1])])) by (destruct (hd true st); [constructor|constructor; [|constructor]]; apply inst_one; [constructor|reflexivity|lia]).
      apply Forall_app; split; [exact X|]. apply Forall_app; split; [|exact X]. constructor; [|constructor]. destruct st as [|s0 [|s1 st]]; [contradiction|apply inst_seq; [constructor|reflexivity|cbn; lia]|].
      cbn [tl length Nat.ltb Nat.leb]. apply inst_seq; [|rewrite controlled_arity; cbn; lia|lia]. apply controlled_dec; [discriminate|]. constructor; [|discriminate].
      split; [intros _; split; reflexivity|]. split; [discriminate|]. split; [intros [E|[E|[E|[]]]]; discriminate|]. split; [discriminate|]. split; discriminate.
    + apply some_inj in D. subst b. apply u3_inst; [reflexivity|exact Hn].
  - rewrite Nat.add_1_r. destruct (_ && _) in D; [discriminate|]. destruct p; [destruct (_ && _) in D; [discriminate|]| |]; apply some_inj in D; subst b; apply u3_inst; auto.
  - apply some_inj in D. subst b. change (arity gSwap) with 2. assert (T : forall i j k, i <> j -> i < k -> j < k -> inst_ok k (gCX, [i; j])) by (intros i j k A B E; split; [exact dec_gCX|]; split; [repeat constructor; cbn; intuition|]; split; [reflexivity|]; cbn; intros q [<-|[<-|[]]]; assumption).
    unfold fredkin_qc. constructor; [apply T; lia|]. constructor; [|constructor; [apply T; lia|constructor]]. apply inst_seq; [|rewrite controlled_arity; cbn; lia|lia].
    apply controlled_dec; [exact NE|]. constructor. constructor. left. discriminate.
  - rewrite (name_eqb_neq _ _ N) in D. apply some_inj in D. subst b. apply Forall_forall. intros (o, loc) I. unfold multi_controlled_circuit in I. apply in_map_iff in I. destruct I as ((o', loc') & E & I).
    pose proof (proj1 (wf_body_In _ _) W o' loc' I) as (Wo & Nl & Ll & Rl). assert (NM : NoDup (map (fun q => (length st + q)%nat) loc')) by (apply FinFun.Injective_map_NoDup; [intros a c; lia|exact Nl]).
    destruct (is_alloc o') eqn:AL; injection E as <- <-.
    + split; [destruct o'; try discriminate; constructor|]. split; [exact NM|]. split; [cbn [fst snd]; rewrite map_length; exact Ll|]. cbn [snd]. intros j Hj. apply in_map_iff in Hj. destruct Hj as (q & <- & Hq). specialize (Rl q Hq). lia.
    + destruct (F o' loc' I) as [A|C]; [congruence|]. split; [apply controlled_dec; assumption|]. cbn [fst snd]. split.
      { assert (DJ : forall q, In q (seq 0 (length st)) -> ~ In q (map (fun q => (length st + q)%nat) loc')) by (intros q A B; apply in_seq in A; apply in_map_iff in B; destruct B as (z & <- & _); lia).
        revert DJ. generalize (seq_NoDup (length st) 0). generalize (seq 0 (length st)) as l. induction l as [|a l IH]; intros Hl DJ; [exact NM|]. inversion Hl; subst. cbn [app]. constructor; [|apply IH; [assumption|intros q A; apply DJ; right; exact A]].
        intros A. apply in_app_or in A. destruct A as [A|A]; [contradiction|]. exact (DJ a (or_introl eq_refl) A). }
      split; [rewrite app_length, seq_length, map_length, controlled_arity; lia|]. intros j Hj. apply in_app_or in Hj. destruct Hj as [Hj|Hj]; [apply in_seq in Hj; lia|]. apply in_map_iff in Hj. destruct Hj as (q & <- & Hq). specialize (Rl q Hq). lia.
  - discriminate.
Qed.
Lemma run_replace (f : qop -> qop) qs : NoDup qs -> forall b, Forall (inst_ok (length qs)) b ->
  (forall o, decomposable o -> forall qs, NoDup qs -> length qs = arity o -> forall psi x, fits qs x -> effect (f o) qs psi x = effect o qs psi x) ->
  forall psi x, fits qs x -> run_body qs (map (fun i => (f (fst i), snd i)) b) psi x = run_body qs b psi x.
Proof.
  intros ND b F H. induction F as [|[o loc] b (D & N & L & B) F IH]; intros psi x Hx; [reflexivity|]. cbn [map InvProofs.run_body fst snd] in *. rewrite IH by exact Hx.
  apply run_body_wf_local; [apply inst_wf, F|]. intros y Hy. apply H; [exact D|apply globals_NoDup; assumption|unfold globals; rewrite map_length; exact L|].
  intros q Hq. apply (agree_fits qs _ x y Hy Hx). exact (globals_incl qs loc B q Hq).
Qed.
Theorem expand_correct depth : forall o, decomposable o -> forall qs, NoDup qs -> length qs = arity o -> forall psi x, fits qs x ->
  effect (expand Exact depth o) qs psi x = effect o qs psi x.
Proof.
  induction depth as [|d IH]; intros o D qs ND LQ psi x Hx; [reflexivity|]. destruct D as [nm theta phi lam gp params|p|st base NE C|nm nq ncl b params W F| | |k|nm nq ncl]; cbn [expand]; try reflexivity.
  - destruct (definition Exact base (length st) st) as [b|] eqn:E; [|reflexivity]. cbn [arity] in LQ. rewrite effect_comp. rewrite run_replace; [apply (definition_correct st base b); assumption|exact ND| |exact IH|exact Hx].
    rewrite LQ. apply definition_inst; assumption.
  - rewrite !effect_comp. apply run_replace; [exact ND| |exact IH|exact Hx]. cbn [arity] in LQ. rewrite LQ. apply Forall_forall. intros (o, loc) I. destruct (proj1 (wf_body_In _ _) W o loc I) as (_ & A & B & C). split; [exact (F o loc I)|]. auto.
Qed.

(** ** deviations *)
Lemma one_minus : rI <> rO -> rI <> - rI.
Proof. intros N E. apply N, two_cancel. transitivity (rI + - rI); [rewrite <- E; reflexivity|ring]. Qed.
Lemma e_unit a b : expi a * b = rO -> b = rO.
Proof. intros E. transitivity (expi (- a)%Qc * (expi a * b)); [pose proof (e_opp a) as EO; ring [EO]|rewrite E; ring]. Qed.
Lemma fits_2 b0 b1 : fits [0; 1] [b0; b1].
Proof. intros q [<-|[<-|[]]]; cbn; lia. Qed.
Lemma nd_2 : NoDup [0; 1]. Proof. repeat constructor; cbn; intuition lia. Qed.
(** method "gray_pt_inv" for a phase gate and control state 0: the inverse gate, controlled on 1 *)
Lemma pt_inv_zero a : exists s, forall psi x, fits [0; 1] x ->
  run_body [0; 1] (multi_controlled_u3_circ GrayPtInv (gP a) 1 [false]) psi x = expi (s (getbit x 0)) * effect (Ctrl [true] (gP (- a)%Qc)) [0; 1] psi x.
Proof.
  destruct (blk_last 1 [0; 1] nd_2 eq_refl a true ltac:(lia)) as (s & _ & B).
  set (g := gray_gate 2 (last_phase 2 a) true) in *. pose proof (dec_last 2 a true) as D. fold g in D.
  destruct (inverse Qcopp Qcplus g) as [g'|] eqn:EG; [|exfalso; apply (gray_unitary 1 [0; 1] eq_refl [true] eq_refl 2 (gray_synth_qc 2 (last_phase 2 a) true)); exact (proj1 (inverse_none Qcopp Qcplus g) EG)].
  change (seq 0 2) with [0; 1] in B. change (globals [0; 1] [0; 1]) with [0; 1] in B.
  assert (BI : blk 1 [0; 1] (effect g' [0; 1]) (fun c => diag (expi (- s c)%Qc) (expi (- (s c + (if all1 c then a else 0)))%Qc))).
  { apply (blk_inv 1 [0; 1] nd_2 eq_refl g g' _ _ EG (decomposable_wf _ D) eq_refl B). intros c L [] []; unfold mmul, diag, mI; cbn [Bool.eqb]; replace (if all1 c then 0%Qc else 0%Qc) with 0%Qc by (destruct (all1 c); reflexivity); rewrite ?Qcplus_0_r.
    - pose proof (e_opp (s c + (if all1 c then a else 0))%Qc) as EO. ring [EO].
    - ring. - ring. - pose proof (e_opp (s c)) as EO. ring [EO]. }
  exists (fun b => - s [b])%Qc. intros psi x Hx.
  assert (E : multi_controlled_u3_circ GrayPtInv (gP a) 1 [false] = [(g', [0; 1]); (gX, [0]); (gX, [0])]).
  { change (multi_controlled_u3_circ GrayPtInv (gP a) 1 [false]) with (inv_body [(gX, [0]); (gray_gate 2 (last_phase 2 (a + 0)%Qc) true, [0; 1])] ++ [(gX, [0])]).
    rewrite Qcplus_0_r. fold g. unfold inv_body, inverse_circuit. cbn [inverse_onto]. change (inverse Qcopp Qcplus gX) with (Some gX). cbn [inverse_onto]. rewrite EG. reflexivity. }
  rewrite E. cbn [InvProofs.run_body globals map nth]. change (globals [0; 1] [0; 1]) with [0; 1].
  assert (XE : forall phi z, effect gX [0] phi z = phi (setbit z 0 (negb (getbit z 0)))) by (intros phi z; cbn [gX InvSpec.effect nth]; unfold InvSpec.on_qubit; destruct (getbit z 0); cbn [pauli_matrix negb]; ring).
  rewrite !XE, setbit_twice. pose proof (Hx 0 ltac:(cbn; auto)) as L0. rewrite getbit_set_same, negb_involutive, setbit_get by exact L0.
  rewrite (BI psi x Hx). unfold ctl. cbn [firstn map nth]. rewrite on_diag. cbn [InvSpec.effect length firstn skipn map bits_eqb].
  cbn [gP mk_u3 InvSpec.effect nth]. rewrite (on_ext _ _ _ _ _ (p_matrix 0%Qc 0%Qc (- a)%Qc 0%Qc eq_refl eq_refl)), on_diag, Qcplus_0_r.
  destruct (getbit x 0); cbn [all1 forallb andb Bool.eqb]; destruct (getbit x 1); rewrite ?Qcplus_0_r; try ring. replace (- (s [true] + a))%Qc with (- s [true] + - a)%Qc by ring. rewrite e_add. ring.
Qed.
Lemma pt_inv_wrong : rI <> rO -> ~ exists s : bool -> R, forall psi x, length x = 2 ->
  run_body [0; 1] (multi_controlled_u3_circ GrayPtInv (gP q1) 1 [false]) psi x = s (getbit x 0) * effect (Ctrl [false] (gP q1)) [0; 1] psi x.
Proof.
  intros N (s & H). destruct (pt_inv_zero q1) as (t & T). pose proof (H (fun _ => rI) [true; false] eq_refl) as H0. pose proof (H (fun _ => rI) [true; true] eq_refl) as H1.
  rewrite T in H0, H1 by apply fits_2. cbn in H0, H1. cbn [InvSpec.effect gP mk_u3 nth] in H0, H1.
  change (expi (t true) * on_qubit (u3_matrix Qcplus rmul ropp expi chalf shalf 0%Qc 0%Qc (- q1)%Qc 0%Qc) 1 (fun _ => rI) [true; false] = s true * rI) in H0.
  change (expi (t true) * on_qubit (u3_matrix Qcplus rmul ropp expi chalf shalf 0%Qc 0%Qc (- q1)%Qc 0%Qc) 1 (fun _ => rI) [true; true] = s true * rI) in H1.
  rewrite (on_ext _ _ _ _ _ (p_matrix 0%Qc 0%Qc (- q1)%Qc 0%Qc eq_refl eq_refl)), on_diag, Qcplus_0_r in H0. rewrite (on_ext _ _ _ _ _ (p_matrix 0%Qc 0%Qc (- q1)%Qc 0%Qc eq_refl eq_refl)), on_diag, Qcplus_0_r in H1. cbn [getbit nth] in H0, H1.
  assert (EM : expi (- q1)%Qc = - rI) by (pose proof (e_opp q1) as EO; change (expi q1) with (expi 1%Qc) in EO; rewrite e_1 in EO; transitivity (- (- rI * expi (- q1)%Qc)); [ring|rewrite EO; reflexivity]).
  rewrite EM in H1. apply (one_minus N). assert (Z : expi (t true) * (rI + - - rI) = rO).
  { transitivity (expi (t true) * (rI * rI) + - (expi (t true) * (- rI * rI))); [ring|]. rewrite H0, H1. ring. }
  apply e_unit in Z. transitivity (- rI + (rI + - - rI)); [ring|]. rewrite Z. ring.
Qed.
Lemma y_wrong : rI <> rO -> exists psi x, length x = 3 /\ run_body [0; 1; 2] (multi_controlled_u3_circ Exact (Pauli PY) 2 [true; true]) psi x <> effect (Ctrl [true; true] (Pauli PY)) [0; 1; 2] psi x.
Proof.
  intros N. exists (fun _ => rI), [true; true; false]. assert (F : fits [0; 1; 2] [true; true; false]) by (intros q [<-|[<-|[<-|[]]]]; cbn; lia). split; [reflexivity|].
  rewrite (y_controlled 2 [0; 1; 2] ltac:(repeat constructor; cbn; intuition lia) eq_refl [true; true] eq_refl _ _ F). cbn [ctl firstn map getbit nth bits_eqb Bool.eqb andb InvSpec.effect length skipn]. unfold InvSpec.on_qubit. cbn [getbit nth pauli_matrix].
  intros E. pose proof im_im as I. assert (Z : im = - im) by (transitivity (- (rO * rI + - im * rI)); [ring|rewrite E; ring]). apply N, two_cancel. transitivity (- (im * im) + - (im * im)); [ring [I]|]. rewrite Z at 1. ring.
Qed.
Lemma gphase_wrong : rI <> rO -> exists psi x, length x = 3 /\
  run_body [0; 1; 2] (controlled_gphase q1 2 [false; true]) psi x <> effect (Ctrl [false; true] (U3 n_gphase 0%Qc 0%Qc 0%Qc q1 [q1])) [0; 1; 2] psi x.
Proof.
  intros N. exists (fun _ => rI), [false; true; false]. assert (F : fits [0; 1; 2] [false; true; false]) by (intros q [<-|[<-|[<-|[]]]]; cbn; lia). split; [reflexivity|].
  rewrite (gphase_controlled 2 [0; 1; 2] [false; true] q1 n_gphase [q1] ltac:(repeat constructor; cbn; intuition lia) eq_refl eq_refl ltac:(lia) _ _ F). cbn [tl hd app InvSpec.effect length firstn skipn map getbit nth bits_eqb Bool.eqb andb].
  rewrite (on_ext _ _ _ _ _ (br_zero q1)), on_scalar. change (expi q1) with (expi 1%Qc). rewrite e_1. intros E. apply (one_minus N). transitivity (- rI * rI); [exact E|ring].
Qed.
Lemma named_swap_wrong : rI <> rO -> exists psi x, length x = 3 /\
  run_body [0; 1; 2] (fredkin_qc 1 [true]) psi x <> effect (Ctrl [true] (Comp n_swap 2 0 [(gX, [0])] [])) [0; 1; 2] psi x.
Proof.
  intros N. exists (fun x => if bits_eqb x [true; true; true] then rI else rO), [true; false; true]. assert (F : fits [0; 1; 2] [true; false; true]) by (intros q [<-|[<-|[<-|[]]]]; cbn; lia). split; [reflexivity|].
  rewrite (swap_controlled 1 [0; 1; 2] [true] ltac:(repeat constructor; cbn; intuition lia) eq_refl eq_refl _ _ F).
  intros E. apply N. cbn in E. unfold InvSpec.on_qubit in E. cbn in E. transitivity (rO * rO + rI * rI); [ring|]. rewrite <- E. ring.
Qed.
End ring.
(** ** control states *)
From Coq Require Import ZArith Lia.
Lemma number_bits : forall c i, Z.testbit (number c) (Z.of_nat i) = nth i c false.
Proof.
  induction c as [|b c IH]; intros i; [cbn [number]; rewrite Z.testbit_0_l; destruct i; reflexivity|]. cbn [number].
  replace ((if b then 1 else 0) + 2 * number c)%Z with (2 * number c + Z.b2z b)%Z by (destruct b; cbn [Z.b2z]; apply Z.add_comm).
  destruct i as [|i]; [apply Z.testbit_0_r|]. rewrite Nat2Z.inj_succ, Z.testbit_succ_r by lia. apply IH.
Qed.
Lemma number_range : forall c, (0 <= number c < 2 ^ Z.of_nat (length c))%Z.
Proof.
  induction c as [|b c IH]; [cbn; lia|]. cbn [number length]. rewrite Nat2Z.inj_succ, Z.pow_succ_r by lia. destruct b; lia.
Qed.
Lemma bits_eqb_eq : forall a b, bits_eqb a b = true <-> a = b.
Proof.
  induction a as [|x a IH]; intros [|y b]; cbn; try (split; [discriminate|discriminate]); [tauto|]. rewrite Bool.andb_true_iff, IH, Bool.eqb_true_iff. split; [intros [-> ->]; reflexivity|intros E; injection E; auto].
Qed.
Lemma ctrl_string_int n k : (0 <= k < 2 ^ Z.of_nat n)%Z -> exists st, ctrl_string n (inl k) = Some st /\ length st = n /\ number st = k.
Proof.
  intros H. unfold ctrl_string. destruct (Z.eqb_spec k (-1)) as [E|_]; [lia|]. destruct (Z.ltb_spec k 0) as [E|_]; [lia|]. destruct (Z.leb_spec (2 ^ Z.of_nat n) k) as [E|_]; [lia|].
  eexists. split; [reflexivity|]. split; [now rewrite map_length, seq_length|]. apply Z.bits_inj'. intros i Hi. rewrite <- (Z2Nat.id i) by exact Hi. rewrite number_bits.
  set (j := Z.to_nat i). destruct (Nat.lt_ge_cases j n) as [L|L].
  - rewrite nth_indep with (d' := (fun i => Z.testbit k (Z.of_nat i)) 0) by (rewrite map_length, seq_length; exact L). rewrite (map_nth (fun i => Z.testbit k (Z.of_nat i))), seq_nth by exact L. reflexivity.
  - rewrite nth_overflow by (rewrite map_length, seq_length; exact L). symmetry. destruct (Z.eq_dec k 0) as [->|NZ]; [apply Z.testbit_0_l|]. apply Z.bits_above_log2; [lia|].
    apply Z.lt_le_trans with (Z.of_nat n); [apply Z.log2_lt_pow2; lia|lia].
Qed.
Lemma ctrl_string_ones n : ctrl_string n (inl (-1)%Z) = Some (repeat true n).
Proof. reflexivity. Qed.
Lemma ctrl_string_reject n s : ctrl_string n s = None <-> match s with inl k => (k < -1 \/ 2 ^ Z.of_nat n <= k)%Z | inr l => length l <> n end.
Proof.
  unfold ctrl_string. destruct s as [k|l].
  - pose proof (Z.pow_pos_nonneg 2 (Z.of_nat n) ltac:(lia) ltac:(lia)) as P. destruct (Z.eqb_spec k (-1)) as [E|E]; [split; [discriminate|lia]|]. destruct (Z.ltb_spec k 0) as [F|F]; [cbn; split; [lia|reflexivity]|]. destruct (Z.leb_spec (2 ^ Z.of_nat n) k) as [G|G]; cbn; split; try reflexivity; try discriminate; lia.
  - destruct (Nat.eqb_spec (length l) n) as [E|E]; split; try discriminate; try reflexivity; try contradiction; auto.
Qed.
