(** Iterative phase estimation. *)
From Coq Require Import List ZArith Bool Lia Arith QArith Qcanon Field Ring Ring_theory.
Import ListNotations.
From Verif.Inverse Require Import InvModel InvSpec InvProofs.
From Verif.CtrlOps Require Import CtrlModel CtrlSpec CtrlProofs.
From Verif.Fourier Require Import FourierModel FourierSpec RegProofs FourierProofs FourierFinal AdderProofs.
From Verif.Hybrid Require Import HybridSpec HybridFinal.
From Verif.Qpe Require Import QpeModel QpeSpec QpeProofs QpeMain.
Local Open Scope nat_scope.

(** the lowest i bits of k behind the point *)
Definition low (k : Z) (i : nat) : Qc := (zq (k mod 2 ^ Z.of_nat i) * half ^ i)%Qc.
Lemma low_0 k : low k 0 = 0%Qc.
Proof. unfold low. cbn [Z.of_nat]. change (2 ^ 0)%Z with 1%Z. rewrite Z.mod_1_r, zq_0. ring. Qed.
Lemma low_next k i : iqpe_next (low k i) (Z.testbit k (Z.of_nat i)) = low k (S i).
Proof.
  unfold iqpe_next, low. set (P := (2 ^ Z.of_nat i)%Z). assert (HP : (0 < P)%Z) by (apply Z.pow_pos_nonneg; lia).
  assert (E : (k mod 2 ^ Z.of_nat (S i) = k mod P + P * Z.b2z (Z.testbit k (Z.of_nat i)))%Z).
  { rewrite Nat2Z.inj_succ, Z.pow_succ_r by lia. fold P. rewrite (Z.mul_comm 2), Z.rem_mul_r by lia. f_equal. f_equal. rewrite Z.testbit_spec' by lia. reflexivity. }
  rewrite E, zq_add, zq_mul. pose proof (half_pow i) as H. fold P in H. pose proof half_2 as H2. rewrite zq_2 in H2.
  assert (D : forall a : Qc, (a / (1 + 1) = a * half)%Qc) by (intros a; unfold half, q_half; field; discriminate). rewrite D. cbn [Qcpower].
  destruct (Z.testbit k (Z.of_nat i)); cbn [Z.b2z]; rewrite ?zq_1, ?zq_0; [|ring].
  transitivity (zq (k mod P) * half ^ i * half + half * (half ^ i * zq P))%Qc; [rewrite H; ring|ring].
Qed.
Lemma fraction_zq z n : fraction z n = (zq z * half ^ n)%Qc.
Proof.
  assert (P : (0 < 2 ^ Z.of_nat n)%Z) by (apply Z.pow_pos_nonneg; lia).
  assert (E : fraction z n = (zq z / zq (2 ^ Z.of_nat n))%Qc).
  { apply Qc_is_canon. unfold fraction, zq, Qcdiv, Qcmult, Qcinv. cbn [this Q2Qc]. rewrite !Qred_correct. reflexivity. }
  rewrite E. pose proof (half_pow n) as H. assert (N : zq (2 ^ Z.of_nat n) <> 0%Qc). { intros E0. rewrite E0 in H. apply (f_equal this) in H. revert H. replace (half ^ n * 0)%Qc with 0%Qc by ring. discriminate. }
  transitivity (zq z * (half ^ n * zq (2 ^ Z.of_nat n)) / zq (2 ^ Z.of_nat n))%Qc; [rewrite H; field; exact N|field; exact N].
Qed.
Lemma low_fraction k p : low k p = fraction (k mod 2 ^ Z.of_nat p) p.
Proof. rewrite fraction_zq. reflexivity. Qed.
Lemma fraction_inj a b n : fraction a n = fraction b n -> a = b.
Proof.
  rewrite !fraction_zq. intros E. pose proof (half_pow n) as H. assert (E' : zq a = zq b).
  { transitivity (zq a * half ^ n * zq (2 ^ Z.of_nat n))%Qc; [transitivity (zq a * (half ^ n * zq (2 ^ Z.of_nat n)))%Qc; [rewrite H; ring|ring]|]. rewrite E. transitivity (zq b * (half ^ n * zq (2 ^ Z.of_nat n)))%Qc; [ring|rewrite H; ring]. }
  apply (f_equal this) in E'. unfold zq in E'. cbn [this Q2Qc] in E'. apply (f_equal (Qeq (inject_Z a))) in E'. assert (Q : (inject_Z a == inject_Z b)%Q).
  { rewrite <- (Qred_correct (inject_Z b)). rewrite <- E'. symmetry. apply Qred_correct. }
  unfold Qeq in Q. cbn in Q. lia.
Qed.
(** k / 2 ^ i is the lowest i bits and the whole part *)
Lemma low_whole k i p : i <= p -> (zq 2 ^ (p - i) * angle k (S p) = low k i + zq (k / 2 ^ Z.of_nat i))%Qc.
Proof.
  intros H. rewrite angle_zq. unfold low. set (P := (2 ^ Z.of_nat i)%Z). assert (HP : (0 < P)%Z) by (apply Z.pow_pos_nonneg; lia).
  pose proof (half_pow i) as Hi. fold P in Hi. pose proof half_2 as H2. cbn [Qcpower].
  assert (E : (half ^ p = half ^ (p - i) * half ^ i)%Qc) by (rewrite <- qpow_plus; f_equal; lia). rewrite E.
  assert (E2 : (zq 2 ^ (p - i) * half ^ (p - i) = 1)%Qc).
  { rewrite <- (half_pow (p - i)), zq_pow. ring. }
  transitivity (zq k * half ^ i * (half * zq 2) * (zq 2 ^ (p - i) * half ^ (p - i)))%Qc; [ring|]. rewrite H2, E2.
  rewrite (Z.div_mod k P) at 1 by lia. rewrite zq_add, zq_mul. transitivity (zq (k mod P) * half ^ i + zq (k / P) * (half ^ i * zq P))%Qc; [ring|]. rewrite Hi. ring.
Qed.

Section ring.
Context {R : Type} (rO rI : R) (radd rmul rsub : R -> R -> R) (ropp : R -> R) (RT : ring_theory rO rI radd rmul rsub ropp eq).
Context (expi chalf shalf : Qc -> R) (im : R).
Context (EU : euler rO rI radd rmul ropp expi chalf shalf im).
Add Ring rr11 : RT.
Notation amp := (list bool -> R).
Notation effect := (effect Qcplus rO rI radd rmul ropp expi chalf shalf im).
Notation run := (run_circuit Qcplus rO rI radd rmul ropp expi chalf shalf im).
Notation rt := (FourierProofs.rt chalf).
Notation e_add := (e_add rO rI radd rmul ropp expi chalf shalf im EU).
Notation e_0 := (e_0 rO rI radd rmul ropp expi chalf shalf im EU).
Notation e_1 := (e_1 rO rI radd rmul ropp expi chalf shalf im EU).
Notation e_even := (FourierProofs.e_even rO rI radd rmul rsub ropp RT expi chalf shalf im EU).
Notation run_app := (FourierProofs.run_app rO rI radd rmul ropp expi chalf shalf im).
Notation run_h := (FourierProofs.run_h rO rI radd rmul rsub ropp RT expi chalf shalf im EU).
Notation rt_2 := (FourierProofs.rt_2 rO rI radd rmul rsub ropp RT expi chalf shalf im EU).
Notation eigenstate := (eigenstate rO rI radd rmul ropp expi chalf shalf im).
Notation repeats := (repeats rO rI radd rmul ropp expi chalf shalf im).
Notation run_moved := (run_moved rO rI radd rmul rsub ropp RT expi chalf shalf im).
Notation run_control := (run_control rO rI radd rmul rsub ropp RT expi chalf shalf im).
Notation iqpe_run := (iqpe_run rO rI radd rmul ropp expi chalf shalf im).
Notation collapse := (collapse rO).
Notation possible := (possible rO).

Lemma run_rz a q psi x : effect (gRZ a) [q] psi x = rmul (expi (a * b2q (getbit x q) - a / (1 + 1))%Qc) (psi x).
Proof.
  cbn [InvSpec.effect gRZ mk_u3 nth]. unfold on_qubit, u3_matrix.
  rewrite (CtrlProofs.c_0 rO rI radd rmul rsub ropp RT expi chalf shalf im EU), (CtrlProofs.s_0 rO rI radd rmul rsub ropp RT expi chalf shalf im EU).
  destruct (getbit x q) eqn:G; cbn [b2q].
  - replace (setbit x q true) with x by (rewrite <- G; symmetry; apply setbit_get). replace (a * 1 - a / (1 + 1))%Qc with (a + 0 + (- (a / (1 + 1))))%Qc by ring. rewrite !e_add. ring.
  - replace (setbit x q false) with x by (rewrite <- G; symmetry; apply setbit_get). replace (a * 0 - a / (1 + 1))%Qc with (- (a / (1 + 1)))%Qc by ring. ring.
Qed.
Lemma e_whole z : expi (zq z) = expi (b2q (Z.odd z)).
Proof.
  rewrite (Z.div_mod z 2) at 1 by lia. rewrite Zmod_odd, zq_add, e_add, e_even. destruct (Z.odd z); cbn [b2q]; rewrite ?zq_1, ?zq_0; ring.
Qed.

Section main.
Context (N q : nat) (U : option nat -> body) (iter : bool) (p : nat) (k : Z).
Context (Hq : q < N) (OFF : forall a, acts_off N [q] (U a)).
Lemma ctrl_phase c phi psi (f : bool -> R) chi x : acts_off N [q] c -> eigenstate N c phi psi -> length x = N -> (forall y, length y = N -> chi y = rmul (f (getbit y q)) (psi (setbit y q false))) ->
  run (control_on q c) chi x = rmul (rmul (f (getbit x q)) (expi (phi * b2q (getbit x q))%Qc)) (psi (setbit x q false)).
Proof.
  intros OA E L H. rewrite (run_control N) by assumption. destruct (getbit x q) eqn:G; cbn [b2q].
  - assert (M : run c chi x = rmul (f (getbit x q)) (run c psi (setbit x q false))).
    { apply (run_moved (fun p => p <> q) (fun y => f (getbit y q)) (fun y => setbit y q false)) with (N := N).
      - intros y r NE. apply getbit_set_other. exact NE.
      - intros y r a NE. apply setbit_comm. exact NE.
      - intros y r a NE. rewrite getbit_set_other; [reflexivity|]. intros E'. apply NE. symmetry. exact E'.
      - apply OA.
      - intros o qs r I Ir E'. subst r. apply (proj2 OA o qs q I Ir). left. reflexivity.
      - intros y Ly. apply H. congruence. }
    rewrite M, G, E by (rewrite setbit_length; exact L). replace (phi * 1)%Qc with phi by ring. ring.
  - rewrite H, G by exact L. replace (phi * 0)%Qc with 0%Qc by ring. rewrite e_0. ring.
Qed.
(** one iteration *)
Lemma iteration_run i psi x : i <= p -> blank rO psi [q] -> repeats N (S p) U iter (angle k (S p)) psi -> length x = N ->
  run (iqpe_iteration U iter p q i (low k i)) psi x = if Bool.eqb (getbit x q) (Z.testbit k (Z.of_nat i)) then rmul (expi (low k i / (1 + 1))%Qc) (psi (setbit x q false)) else rO.
Proof.
  intros Hi B EIG L. unfold iqpe_iteration. rewrite !run_app. set (c := applications U iter (p - i)).
  pose proof (off_applications N [q] U iter (p - i) OFF) as OA. fold c in OA.
  assert (EC : eigenstate N c (zq 2 ^ (p - i) * angle k (S p))%Qc psi) by (apply (eig_applications rO rI radd rmul rsub ropp RT expi chalf shalf im EU N [q] (S p)); [exact OFF|exact EIG|lia]).
  set (phi := (zq 2 ^ (p - i) * angle k (S p))%Qc) in *. set (t := low k i).
  change (run [qH q]) with (effect gH [q]). change (run [(gRZ (- t)%Qc, [q])]) with (effect (gRZ (- t)%Qc) [q]). rewrite run_h, !run_rz.
  assert (C : forall y, length y = N -> run (control_on q c) (effect gH [q] psi) y = rmul (rmul rt (expi (phi * b2q (getbit y q))%Qc)) (psi (setbit y q false))).
  { intros y Ly. apply (ctrl_phase c phi psi (fun _ => rt)); auto. intros z Lz. rewrite run_h. rewrite (B (setbit z q true) q); [ring|left; reflexivity|]. apply getbit_set_same. lia. }
  rewrite !C by (rewrite setbit_length; exact L). rewrite !setbit_twice, !getbit_set_same by lia. cbn [b2q].
  assert (EP : expi phi = rmul (expi t) (expi (b2q (Z.testbit k (Z.of_nat i))))).
  { unfold phi, t. rewrite low_whole by exact Hi. rewrite e_add, e_whole. f_equal. f_equal. f_equal. rewrite <- Z.bit0_odd, Z.div_pow2_bits by lia. rewrite Z.add_0_l. reflexivity. }
  replace (phi * 1)%Qc with phi by ring. replace (phi * 0)%Qc with 0%Qc by ring. rewrite EP, e_0.
  assert (D : forall a : Qc, (a / (1 + 1) = a * half)%Qc) by (intros a; unfold half, q_half; field; discriminate). rewrite !D.
  replace (- t * 0 - - t * half)%Qc with (t * half)%Qc by ring.
  assert (T : (- t * 1 - - t * half)%Qc = (t * half + - t)%Qc) by ring. rewrite T, e_add.
  pose proof (CtrlProofs.e_opp rO rI radd rmul ropp expi chalf shalf im EU t) as EO.
  transitivity (rmul (rmul (rmul rt rt) (radd rI (rmul (expi (b2q (getbit x q))) (expi (b2q (Z.testbit k (Z.of_nat i))))))) (rmul (expi (t * half)%Qc) (psi (setbit x q false)))); [ring [EO]|].
  destruct (getbit x q), (Z.testbit k (Z.of_nat i)); cbn [Bool.eqb b2q]; rewrite ?e_1, ?e_0.
  - transitivity (rmul (radd (rmul rt rt) (rmul rt rt)) (rmul (expi (t * half)%Qc) (psi (setbit x q false)))); [ring|]. rewrite rt_2. ring.
  - ring.
  - ring.
  - transitivity (rmul (radd (rmul rt rt) (rmul rt rt)) (rmul (expi (t * half)%Qc) (psi (setbit x q false)))); [ring|]. rewrite rt_2. ring.
Qed.
(** after the measurement the state is the one before, up to a phase *)
Lemma collapse_run i psi : i <= p -> blank rO psi [q] -> repeats N (S p) U iter (angle k (S p)) psi ->
  let phi := run (iqpe_iteration U iter p q i (low k i)) psi in
  (forall x, length x = N -> collapse q (Z.testbit k (Z.of_nat i)) phi x = rmul (expi (low k i / (1 + 1))%Qc) (psi x)) /\
  (forall r, possible N q r phi -> r = Z.testbit k (Z.of_nat i)) /\
  (forall x, length x = N -> psi x <> rO -> possible N q (Z.testbit k (Z.of_nat i)) phi).
Proof.
  intros Hi B EIG phi. set (r := Z.testbit k (Z.of_nat i)). split; [|split].
  - intros x L. unfold QpeModel.collapse. destruct (getbit x q) eqn:G.
    + rewrite (B x q) by (try (left; reflexivity); exact G). ring.
    + unfold phi. rewrite iteration_run by (try assumption; rewrite setbit_length; exact L). fold r. rewrite getbit_set_same by lia. rewrite Bool.eqb_reflx, setbit_twice.
      replace (setbit x q false) with x by (rewrite <- G; symmetry; apply setbit_get). reflexivity.
  - intros r' (x & L & G & NZ). destruct (Bool.bool_dec r' r) as [E|E]; [exact E|]. exfalso. apply NZ. unfold phi. rewrite iteration_run by assumption. fold r. rewrite G.
    apply Bool.eqb_false_iff in E. rewrite E. reflexivity.
  - intros x L NZ. exists (setbit x q r). split; [rewrite setbit_length; exact L|]. split; [apply getbit_set_same; lia|]. unfold phi. rewrite iteration_run by (try assumption; rewrite setbit_length; exact L).
    fold r. rewrite getbit_set_same by lia. rewrite Bool.eqb_reflx, setbit_twice. intros Z. apply NZ.
    assert (G : getbit x q = false) by (destruct (getbit x q) eqn:G; [exfalso; apply NZ, (B x q); [left; reflexivity|exact G]|reflexivity]).
    replace (setbit x q false) with x in Z by (rewrite <- G; symmetry; apply setbit_get).
    pose proof (CtrlProofs.e_opp rO rI radd rmul ropp expi chalf shalf im EU (low k i / (1 + 1))%Qc) as EO.
    transitivity (rmul (expi (- (low k i / (1 + 1)))%Qc) (rmul (expi (low k i / (1 + 1))%Qc) (psi x))); [ring [EO]|rewrite Z; ring].
Qed.
Lemma repeats_scaled n theta s psi phi : repeats N n U iter theta psi -> (forall x, length x = N -> phi x = rmul s (psi x)) -> repeats N n U iter theta phi.
Proof.
  assert (G : forall a t, eigenstate N (U a) t psi -> (forall x, length x = N -> phi x = rmul s (psi x)) -> eigenstate N (U a) t phi).
  { intros a t E H x L. rewrite (run_scaled rO rI radd rmul rsub ropp RT expi chalf shalf im N (U a) s psi phi x), E, H by (try assumption; apply OFF). ring. }
  unfold QpeSpec.repeats. destruct iter; intros E H; [intros i Hi; apply G; auto|apply G; auto].
Qed.
Lemma blank_collapse r phi : blank rO (collapse q r phi) [q].
Proof. intros y a [<-|[]] G. unfold QpeModel.collapse. rewrite G. reflexivity. Qed.
Lemma runs_to i theta psi theta' psi' : iqpe_run U iter p N q i theta psi theta' psi' -> i <= p -> theta = low k i -> blank rO psi [q] -> repeats N (S p) U iter (angle k (S p)) psi ->
  theta' = low k p /\ exists s, forall x, length x = N -> psi' x = rmul (expi s) (psi x).
Proof.
  intros H. induction H as [theta psi|i theta psi r theta' psi' Hi phi P H IH]; intros Hp T B EIG.
  - split; [exact T|]. exists 0%Qc. intros x L. rewrite e_0. ring.
  - subst theta. destruct (collapse_run i psi Hp B EIG) as (C1 & C2 & _). fold phi in C1, C2. pose proof (C2 r P) as ->.
    destruct IH as [T [s Hs]]; [lia|apply low_next|apply blank_collapse| |].
    + apply (repeats_scaled _ _ (expi (low k i / (1 + 1))%Qc) psi); assumption.
    + split; [exact T|]. exists (s + low k i / (1 + 1))%Qc. intros x L. rewrite Hs, C1, e_add by exact L. ring.
Qed.
Lemma runs_from d : forall i psi, i + d = p -> blank rO psi [q] -> repeats N (S p) U iter (angle k (S p)) psi -> (exists x, length x = N /\ psi x <> rO) ->
  exists theta' psi', iqpe_run U iter p N q i (low k i) psi theta' psi'.
Proof.
  induction d as [|d IH]; intros i psi Hd B EIG (x & L & NZ).
  - replace i with p by lia. exists (low k p), psi. constructor.
  - assert (Hi : i <= p) by lia. destruct (collapse_run i psi Hi B EIG) as (C1 & _ & C3). pose proof (C3 x L NZ) as P.
    destruct (IH (S i) (collapse q (Z.testbit k (Z.of_nat i)) (run (iqpe_iteration U iter p q i (low k i)) psi))) as (theta' & psi' & Hr); [lia|apply blank_collapse|..].
    + apply (repeats_scaled _ _ (expi (low k i / (1 + 1))%Qc) psi); assumption.
    + exists x. split; [exact L|]. rewrite C1 by exact L. intros Z. apply NZ.
      pose proof (CtrlProofs.e_opp rO rI radd rmul ropp expi chalf shalf im EU (low k i / (1 + 1))%Qc) as EO.
      transitivity (rmul (expi (- (low k i / (1 + 1)))%Qc) (rmul (expi (low k i / (1 + 1))%Qc) (psi x))); [ring [EO]|rewrite Z; ring].
    + exists theta', psi'. apply iqpe_step with (r := Z.testbit k (Z.of_nat i)); [lia|exact P|]. rewrite low_next. exact Hr.
Qed.
End main.
End ring.
