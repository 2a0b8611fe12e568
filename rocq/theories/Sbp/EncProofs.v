(** The circuit of the polynomial encoder adds the polynomial to the output register. *)
From Coq Require Import List ZArith Bool Lia Arith QArith Qround Qcanon Field Ring Ring_theory.
Import ListNotations.
From Verif.Inverse Require Import InvModel InvSpec InvProofs.
From Verif.CtrlOps Require Import CtrlModel CtrlSpec CtrlProofs.
From Verif.Fourier Require Import FourierModel FourierSpec RegProofs FourierProofs FourierFinal AdderProofs.
From Verif.QFloat Require Import QFModel.
From Verif.Sbp Require Import SbpModel.
Local Open Scope nat_scope.

Definition zb (b : bool) : Z := if b then 1%Z else 0%Z.
Lemma mod2_even a : exists k, mod2 a = (a + zq (2 * k))%Qc.
Proof. exists (- Qfloor (this (a * half)%Qc))%Z. unfold mod2. rewrite Z.mul_opp_r, zq_opp. ring. Qed.
Lemma angle_number y bs : angle (y * reading true bs) (length bs) = qsum (map (fun i => zq y * half ^ i * b2q (nth i bs false))%Qc (seq 0 (length bs))).
Proof.
  induction bs as [|b bs IH] using rev_ind; [cbn [length seq map]; apply Qc_is_canon; cbn; rewrite Z.mul_0_r; reflexivity|].
  unfold reading in *. rewrite rev_app_distr. cbn [rev app]. rewrite app_length. cbn [length]. rewrite Nat.add_1_r, seq_S, map_app. cbn [Nat.add map number].
  rewrite Z.mul_add_distr_l, angle_add. replace (y * (2 * number (rev bs)))%Z with (2 * (y * number (rev bs)))%Z by ring. rewrite angle_S, IH.
  assert (A : forall a b, qsum (a ++ b) = (qsum a + qsum b)%Qc). { induction a as [|t a I]; intros c; [cbn [app]; change (qsum []) with 0%Qc; ring|]. cbn [app]. rewrite !qsum_cons, I. ring. }
  rewrite A, Qcplus_comm. f_equal.
  - apply qsum_ext. intros i I. apply in_seq in I. rewrite app_nth1 by lia. reflexivity.
  - rewrite qsum_cons. change (qsum []) with 0%Qc. rewrite app_nth2, Nat.sub_diag by lia. cbn [nth]. rewrite angle_zq, zq_mul. pose proof half_2 as H2. destruct b; cbn [b2q].
    + cbn [Qcpower]. change (zq 1) with 1%Qc. transitivity (half * zq 2 * (zq y * half ^ length bs))%Qc; [ring|]. rewrite H2. ring.
    + change (zq 0) with 0%Qc. ring.
Qed.
Lemma nodup_forallb (g : nat -> bool) qs : forallb g (nodup Nat.eq_dec qs) = forallb g qs.
Proof.
  destruct (forallb g qs) eqn:E.
  - apply forallb_forall. intros q I. apply nodup_In in I. rewrite forallb_forall in E. auto.
  - apply not_true_is_false. intros H. rewrite forallb_forall in H. assert (forallb g qs = true); [|congruence]. apply forallb_forall. intros q I. apply H, nodup_In, I.
Qed.
Lemma bits_eqb_true : forall b, bits_eqb b (repeat true (length b)) = forallb (fun a => a) b.
Proof. induction b as [|a b IH]; [reflexivity|]. cbn. rewrite IH. destruct a; reflexivity. Qed.

(** the number a monomial adds, with its ancilla *)
Definition addend (e : Z) (x : list bool) (m : monomial) (a : nat) : Z :=
  let y := qround (fst m / pw e)%Q in
  let all := forallb (getbit x) (snd m) in
  (y * zb (match nodup Nat.eq_dec (snd m) with [] | [_] => all | _ => xorb (getbit x a) all end))%Z.
Definition addends (e : Z) (x : list bool) (ms : list monomial) (ancillas : list nat) : Z :=
  fold_right (fun '(m, a) acc => (addend e x m a + acc)%Z) 0%Z (combine ms ancillas).
Lemma addend_write e x out b m a : (forall q, In q (snd m) -> ~ In q out) -> ~ In a out -> addend e (write x out b) m a = addend e x m a.
Proof.
  intros H Ha. unfold addend. assert (E : forallb (getbit (write x out b)) (snd m) = forallb (getbit x) (snd m)).
  { induction (snd m) as [|q qs IH]; [reflexivity|]. cbn [forallb]. rewrite write_other, IH by (try apply H; cbn; auto; intros; apply H; cbn; auto). reflexivity. }
  rewrite E, write_other by exact Ha. reflexivity.
Qed.
Lemma addends_write e out b x (ms : list monomial) ancs : (forall m q, In m ms -> In q (snd m) -> ~ In q out) -> (forall a, In a ancs -> ~ In a out) -> addends e (write x out b) ms ancs = addends e x ms ancs.
Proof.
  intros H Ha. unfold addends. assert (forall (m : monomial) a, In (m, a) (combine ms ancs) -> addend e (write x out b) m a = addend e x m a) as K.
  { intros m a I. apply addend_write; [intros q; apply H, (in_combine_l _ _ _ _ I)|apply Ha, (in_combine_r _ _ _ _ I)]. }
  induction (combine ms ancs) as [|[m a] l IH]; [reflexivity|]. cbn [fold_right]. rewrite K by (left; reflexivity). rewrite IH; [reflexivity|]. intros; apply K; right; assumption.
Qed.

Section ring.
Context {R : Type} (rO rI : R) (radd rmul rsub : R -> R -> R) (ropp : R -> R) (RT : ring_theory rO rI radd rmul rsub ropp eq).
Context (expi chalf shalf : Qc -> R) (im : R).
Context (EU : euler rO rI radd rmul ropp expi chalf shalf im).
Add Ring rr4 : RT.
Notation effect := (effect Qcplus rO rI radd rmul ropp expi chalf shalf im).
Notation run := (run_circuit Qcplus rO rI radd rmul ropp expi chalf shalf im).
Notation diag := (diag rO rI radd rmul ropp expi chalf shalf im).
Notation diag_nil := (diag_nil rO rI radd rmul rsub ropp RT expi chalf shalf im EU).
Notation diag_app := (diag_app rO rI radd rmul rsub ropp RT expi chalf shalf im EU).
Notation diag_flat := (diag_flat rO rI radd rmul rsub ropp RT expi chalf shalf im EU).
Notation diag_ext := (diag_ext rO rI radd rmul ropp expi chalf shalf im).
Notation diag_p := (diag_p rO rI radd rmul rsub ropp RT expi chalf shalf im EU).
Notation expi_qsum := (expi_qsum rO rI radd rmul ropp expi chalf shalf im EU).
Notation e_add := (e_add rO rI radd rmul ropp expi chalf shalf im EU).
Notation e_0 := (e_0 rO rI radd rmul ropp expi chalf shalf im EU).
Notation e_even := (FourierProofs.e_even rO rI radd rmul rsub ropp RT expi chalf shalf im EU).
Notation run_app := (FourierProofs.run_app rO rI radd rmul ropp expi chalf shalf im).
Notation run_cx := (FourierProofs.run_cx rO rI radd rmul rsub ropp RT expi chalf shalf im).
Notation run_p := (FourierProofs.run_p rO rI radd rmul rsub ropp RT expi chalf shalf im EU).
Local Infix "+" := radd. Local Infix "*" := rmul. Local Notation "- a" := (ropp a).

Lemma e_mod2 a (b : bool) : expi (mod2 a * b2q b)%Qc = expi (a * b2q b)%Qc.
Proof. destruct (mod2_even a) as [k ->]. destruct b; cbn [b2q]; [|f_equal; ring]. rewrite !Qcmult_1_r, e_add, e_even. ring. Qed.
Lemma diag_opt N a q : diag N (opt_p a q) (fun x => a * b2q (getbit x q))%Qc.
Proof.
  unfold opt_p, is_zero. destruct (Qc_eq_dec a 0) as [->|]; [|apply diag_p]. eapply diag_ext; [apply diag_nil|]. intros x _. cbv beta. apply f_equal. ring.
Qed.
Lemma diag_U_g N y out : diag N (U_g y out) (fun x => angle (y * reading true (read x out)) (length out)).
Proof.
  eapply diag_ext; [apply diag_flat; intros i _; apply diag_opt|]. cbv beta. intros x _. rewrite <- (read_length x out) at 2. rewrite angle_number, read_length.
  apply expi_qsum. intros i I. apply in_seq in I. rewrite nth_read by lia. apply e_mod2.
Qed.
Lemma diag_crz N r a b : a <> b -> (b < N)%nat -> diag N (crz_helper r a b) (fun x => r * (b2q (getbit x a) * b2q (getbit x b)) - r * half * b2q (getbit x a))%Qc.
Proof.
  intros NE Hb psi x L.
  change (run (crz_helper r a b) psi x) with (effect (gP (r * half)%Qc) [b] (effect gCX [a; b] (effect (gP (- r * half)%Qc) [b] (effect gCX [a; b] psi))) x).
  rewrite run_p, run_cx, run_p, run_cx. rewrite getbit_set_same by lia. rewrite getbit_set_other by auto. rewrite setbit_twice, xorb_assoc, xorb_nilpotent, xorb_false_r, setbit_get.
  transitivity (expi (r * half * b2q (getbit x b) + - r * half * b2q (xorb (getbit x b) (getbit x a)))%Qc * psi x); [rewrite e_add; ring|]. f_equal. apply f_equal. rewrite xor_q.
  pose proof half_2 as H2. transitivity (r * (b2q (getbit x a) * b2q (getbit x b)) * (half * zq 2) - r * half * b2q (getbit x a))%Qc; [ring|]. rewrite H2. ring.
Qed.
Lemma diag_rotations N out a y : ~ In a out -> (forall q, In q out -> (q < N)%nat) -> diag N (rotations out a y) (fun x => angle (y * zb (getbit x a) * reading true (read x out)) (length out)).
Proof.
  intros NI F. unfold rotations. set (n := length out).
  eapply diag_ext; [apply diag_app; [apply (diag_flat N _ (fun i x => rotation y i * (b2q (getbit x a) * b2q (getbit x (nth i out 0%nat))) - rotation y i * half * b2q (getbit x a))%Qc)|apply diag_p]|].
  - intros i I. apply in_seq in I. unfold is_zero. destruct (Qc_eq_dec (rotation y i) 0) as [E|_].
    + eapply diag_ext; [apply diag_nil|]. intros x _. cbv beta. rewrite E. apply f_equal. ring.
    + apply diag_crz; [intros E; apply NI; rewrite E; apply nth_In; fold n; lia|apply F, nth_In; fold n; lia].
  - cbv beta. intros x _. rewrite (qsum_ext _ (fun i => rotation y i * (b2q (getbit x a) * b2q (getbit x (nth i out 0%nat))) + (Qcopp (b2q (getbit x a))) * (rotation y i * half))%Qc) by (intros i _; ring).
    rewrite qsum_add, (qsum_scale (Qcopp (b2q (getbit x a)))).
    transitivity (expi (qsum (map (fun i => rotation y i * (b2q (getbit x a) * b2q (getbit x (nth i out 0%nat))))%Qc (seq 0 n)))); [apply f_equal; ring|].
    destruct (getbit x a) eqn:Ea; cbn [zb b2q].
    + rewrite Z.mul_1_r. unfold n. rewrite <- (read_length x out) at 2. rewrite angle_number, read_length. fold n. apply expi_qsum. intros i I. apply in_seq in I. rewrite nth_read by (fold n; lia). rewrite Qcmult_1_l. apply e_mod2.
    + rewrite Z.mul_0_r, Z.mul_0_l. rewrite (qsum_ext _ (fun _ => 0%Qc)) by (intros i _; ring). rewrite qsum_0. apply f_equal. rewrite angle_zq, zq_0. ring.
Qed.
Lemma run_mcx ctrls t psi x : run (mcx ctrls t) psi x = psi (setbit x t (xorb (getbit x t) (forallb (getbit x) ctrls))).
Proof.
  unfold mcx. unfold run_circuit. cbn [fold_left]. cbn [InvSpec.effect]. rewrite repeat_length, firstn_app, Nat.sub_diag, firstn_all, app_nil_r.
  rewrite <- (map_length (getbit x) ctrls) at 1. rewrite bits_eqb_true. replace (forallb (fun a => a) (map (getbit x) ctrls)) with (forallb (getbit x) ctrls) by (induction ctrls as [|c l IH]; cbn; [reflexivity|rewrite IH; reflexivity]).
  rewrite skipn_app, Nat.sub_diag, skipn_all. cbn [app skipn]. destruct (forallb (getbit x) ctrls).
  - unfold on_qubit. cbn [nth]. destruct (getbit x t); cbn [xorb pauli_matrix]; ring.
  - rewrite xorb_false_r, setbit_get. reflexivity.
Qed.
Lemma diag_mcx N ctrls t c h : ~ In t ctrls -> (t < N)%nat -> diag N c h -> diag N (mcx ctrls t ++ c ++ mcx ctrls t) (fun x => h (setbit x t (xorb (getbit x t) (forallb (getbit x) ctrls)))).
Proof.
  intros NI Ht D psi x L. rewrite !run_app, run_mcx. rewrite (D _ _) by (rewrite setbit_length; exact L). rewrite run_mcx. f_equal. f_equal.
  rewrite getbit_set_same by lia. rewrite setbit_twice. assert (E : forall b, forallb (getbit (setbit x t b)) ctrls = forallb (getbit x) ctrls).
  { intros b. clear - NI. induction ctrls as [|c l IH]; [reflexivity|]. cbn [forallb]. cbn [In] in NI. rewrite getbit_set_other, IH by (auto; intros ->; apply NI; auto). reflexivity. }
  rewrite E, xorb_assoc, xorb_nilpotent, xorb_false_r, setbit_get. reflexivity.
Qed.
Lemma diag_monomial N out e m a : (forall q, In q (snd m) -> ~ In q out) -> ~ In a out -> ~ In a (snd m) -> (a < N)%nat -> (forall q, In q out -> (q < N)%nat) ->
  diag N (encode_monomial out e m a) (fun x => angle (addend e x m a * reading true (read x out)) (length out)).
Proof.
  intros Hm Ha Ham La F. unfold encode_monomial, addend. set (y := qround (fst m / pw e)). pose proof (nodup_forallb) as NF. pose proof (fun q => nodup_In Nat.eq_dec (snd m) q) as NI.
  destruct (nodup Nat.eq_dec (snd m)) as [|c [|c' l]] eqn:E.
  - eapply diag_ext; [apply diag_U_g|]. intros x _. cbv beta. rewrite <- NF, E. cbn [forallb zb]. rewrite Z.mul_1_r. reflexivity.
  - cbn [multi_controlled_U_g]. eapply diag_ext; [apply diag_rotations; [apply Hm, NI; left; reflexivity|exact F]|]. intros x _. cbv beta. rewrite <- NF, E. cbn [forallb]. rewrite andb_true_r. reflexivity.
  - assert (Nc : ~ In a (c :: c' :: l)) by (intros I; apply Ham, NI, I).
    eapply diag_ext; [exact (diag_mcx N (c :: c' :: l) a _ _ Nc La (diag_rotations N out a y Ha F))|]. intros x L. cbv beta.
    rewrite getbit_set_same by lia. rewrite <- (NF (getbit x) (snd m)), E. unfold read. rewrite (map_ext_in (getbit (setbit x a _)) (getbit x)); [reflexivity|]. intros q I. apply getbit_set_other. intros ->. contradiction.
Qed.
Lemma diag_encode N out e (ms : list monomial) ancs : (forall m q, In m ms -> In q (snd m) -> ~ In q out) -> (forall a, In a ancs -> ~ In a out) -> (forall m a, In m ms -> In a ancs -> ~ In a (snd m)) ->
  (forall a, In a ancs -> (a < N)%nat) -> (forall q, In q out -> (q < N)%nat) -> diag N (encode out e ms ancs) (fun x => angle (addends e x ms ancs * reading true (read x out)) (length out)).
Proof.
  intros H1 H2 H3 H4 F. unfold encode, addends.
  assert (D : forall (m : monomial) a, In (m, a) (combine ms ancs) -> diag N (encode_monomial out e m a) (fun x => angle (addend e x m a * reading true (read x out)) (length out))).
  { intros m a I. pose proof (in_combine_l _ _ _ _ I) as Im. pose proof (in_combine_r _ _ _ _ I) as Ia. apply diag_monomial; auto. intros q. apply H1, Im. }
  clear H1 H2 H3 H4. induction (combine ms ancs) as [|[m a] l IH]; cbn [flat_map fold_right].
  - eapply diag_ext; [apply diag_nil|]. intros x _. cbv beta. rewrite Z.mul_0_l. apply f_equal. rewrite angle_zq, zq_0. ring.
  - eapply diag_ext; [apply diag_app; [apply D; left; reflexivity|apply IH; intros; apply D; right; assumption]|]. intros x _. cbv beta. apply f_equal. rewrite Z.mul_add_distr_r, angle_add. reflexivity.
Qed.
Lemma encoder_run out e m ms ancs c psi x : sb_polynomial_encoder out e m ms ancs = Some c -> register out x ->
  (forall t q, In t ms -> In q (snd t) -> ~ In q out) -> (forall a, In a ancs -> ~ In a out /\ (a < length x)%nat /\ forall t, In t ms -> ~ In a (snd t)) ->
  run c psi (store x out (m * value x out + addends e x ms ancs)) = psi x.
Proof.
  intros H Rg H1 H2. unfold sb_polynomial_encoder, QFT in H.
  assert (G : exists v v1 w, qft_inner out false true m = Some v /\ qft_inner out false true 1 = Some v1 /\ invert_circuit v1 = Some w /\ c = v ++ encode out e ms ancs ++ w).
  { destruct (Z.eqb_spec m 1) as [->|N].
    - destruct (qft_inner out false true 1) as [v|]; [|discriminate]. unfold conjugate in H. destruct (invert_circuit v) as [w|] eqn:Hw; [|discriminate]. injection H as <-. exists v, v, w. auto.
    - destruct (qft_inner out false true m) as [v|]; [|discriminate]. destruct (qft_inner out false true 1) as [v1|]; [|discriminate]. destruct (invert_circuit v1) as [w|] eqn:Hw; [|discriminate]. injection H as <-. exists v, v1, w. auto. }
  destruct G as (v & v1 & w & Hv & Hv1 & Hw & E).
  apply (shift_conj rO rI radd rmul rsub ropp RT expi chalf shalf im EU (length x) out m (encode out e ms ancs) (fun x => addends e x ms ancs) v v1 w c Hv Hv1 Hw E); auto.
  - apply diag_encode; try (intros a I; apply H2, I); auto; [|apply Rg]. intros t a It Ia. apply (proj2 (proj2 (H2 a Ia)) t It).
  - intros y b. apply addends_write; auto. intros a I. apply H2, I.
Qed.
End ring.
