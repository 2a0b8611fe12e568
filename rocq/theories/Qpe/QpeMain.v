(** The amplitudes after phase estimation. *)
From Coq Require Import List ZArith Bool Lia Arith QArith Qcanon Field Ring Ring_theory.
Import ListNotations.
From Verif.Inverse Require Import InvModel InvSpec InvProofs.
From Verif.CtrlOps Require Import CtrlModel CtrlSpec CtrlProofs.
From Verif.Fourier Require Import FourierModel FourierSpec RegProofs FourierProofs FourierFinal AdderProofs.
From Verif.Hybrid Require Import HybridSpec HybridFinal.
From Verif.Qpe Require Import QpeModel QpeSpec QpeProofs.
Local Open Scope nat_scope.

Lemma off_sub N res qs c : acts_off N res c -> incl qs res -> acts_off N qs c.
Proof. intros [W O] I. split; [exact W|]. intros o l q Io Iq H. exact (O o l q Io Iq (I _ H)). Qed.
Lemma off_repeat N res c k : acts_off N res c -> acts_off N res (concat (repeat c k)).
Proof.
  intros [W O]. induction k as [|k [IW IO]]; cbn [repeat concat]; [split; [constructor|intros o qs q []]|]. split; [apply wf_app; assumption|].
  intros o qs q I. apply in_app_or in I. destruct I; eauto.
Qed.
Lemma off_applications N res U iter i : (forall a, acts_off N res (U a)) -> acts_off N res (applications U iter i).
Proof. intros H. unfold applications. destruct iter; [apply H|apply off_repeat, H]. Qed.
Lemma zq_pow2 i : zq (Z.of_nat (2 ^ i)) = (zq 2 ^ i)%Qc.
Proof. rewrite <- zq_pow. f_equal. rewrite Nat2Z.inj_pow. reflexivity. Qed.

Lemma zeros_bits qs : zeros qs = bits_of (length qs) 0.
Proof.
  unfold zeros, bits_of. generalize 0%nat as a. induction (length qs) as [|m IH]; intros a; [reflexivity|]. cbn [repeat seq map]. rewrite (IH (S a)). f_equal. symmetry. apply Z.testbit_0_l.
Qed.
Section ring.
Context {R : Type} (rO rI : R) (radd rmul rsub : R -> R -> R) (ropp : R -> R) (RT : ring_theory rO rI radd rmul rsub ropp eq).
Context (expi chalf shalf : Qc -> R) (im : R).
Context (EU : euler rO rI radd rmul ropp expi chalf shalf im).
Add Ring rr10 : RT.
Notation amp := (list bool -> R).
Notation effect := (effect Qcplus rO rI radd rmul ropp expi chalf shalf im).
Notation run := (run_circuit Qcplus rO rI radd rmul ropp expi chalf shalf im).
Notation dft := (dft rO rI radd rmul expi chalf).
Notation total := (total rO radd).
Notation power := (power rI rmul).
Notation rt := (FourierProofs.rt chalf).
Notation e_add := (e_add rO rI radd rmul ropp expi chalf shalf im EU).
Notation e_0 := (e_0 rO rI radd rmul ropp expi chalf shalf im EU).
Notation run_app := (FourierProofs.run_app rO rI radd rmul ropp expi chalf shalf im).
Notation eigenstate := (eigenstate rO rI radd rmul ropp expi chalf shalf im).
Notation repeats := (repeats rO rI radd rmul ropp expi chalf shalf im).
Notation run_moved := (run_moved rO rI radd rmul rsub ropp RT expi chalf shalf im).
Notation run_control := (run_control rO rI radd rmul rsub ropp RT expi chalf shalf im).

Lemma run_scaled N c k psi phi x : wf_circuit N c -> length x = N -> (forall y, length y = N -> phi y = rmul k (psi y)) -> run c phi x = rmul k (run c psi x).
Proof.
  intros W L E. apply (run_moved (fun _ => True) (fun _ => k) (fun y => y)) with (N := N); auto. intros y Ly. apply E. congruence.
Qed.
Lemma eig_app N c d s t psi : wf_circuit N c -> wf_circuit N d -> eigenstate N c s psi -> eigenstate N d t psi -> eigenstate N (c ++ d) (s + t)%Qc psi.
Proof. intros Wc Wd Ec Ed x L. rewrite run_app, (run_scaled N d (expi s) psi _ x Wd L), Ed, e_add by (assumption || exact Ec). ring. Qed.
Lemma eig_repeat N c t psi k : wf_circuit N c -> eigenstate N c t psi -> eigenstate N (concat (repeat c k)) (zq (Z.of_nat k) * t)%Qc psi.
Proof.
  intros W E. induction k as [|k IH]; cbn [repeat concat].
  - intros x L. cbn [Z.of_nat]. rewrite zq_0. replace (0 * t)%Qc with 0%Qc by ring. rewrite e_0. cbn. ring.
  - replace (zq (Z.of_nat (S k)) * t)%Qc with (t + zq (Z.of_nat k) * t)%Qc by (rewrite Nat2Z.inj_succ, <- Z.add_1_r, zq_add, zq_1; ring).
    apply eig_app; auto. apply (off_repeat N []). split; [exact W|intros o qs q _ _ []].
Qed.
Lemma eig_applications N res n U iter theta psi i : (forall a, acts_off N res (U a)) -> repeats N n U iter theta psi -> i < n -> eigenstate N (applications U iter i) (zq 2 ^ i * theta)%Qc psi.
Proof.
  intros OFF H Hi. unfold applications, QpeSpec.repeats in *. rewrite <- zq_pow2. destruct iter.
  - replace (zq (Z.of_nat (2 ^ i))) with (Q2Qc (inject_Z (2 ^ Z.of_nat i))) by (unfold zq; rewrite Nat2Z.inj_pow; reflexivity). apply H, Hi.
  - apply eig_repeat; [apply OFF|exact H].
Qed.

Section main.
Context (N : nat) (res : list nat) (U : option nat -> body) (iter : bool) (theta : Qc) (psi : amp).
Let n := length res.
Context (ND : NoDup res) (LR : forall q, In q res -> q < N) (OFF : forall a, acts_off N res (U a)) (EIG : repeats N n U iter theta psi).
Definition base (x : list bool) : list bool := write x res (zeros res).
Definition spread (F : list bool -> R) : amp := fun x => rmul (F (read x res)) (psi (base x)).
Lemma reg x : length x = N -> register res x.
Proof. intros L. split; [exact ND|]. intros q I. rewrite L. apply LR, I. Qed.
Lemma stage F i chi x : i < n -> length x = N -> (forall y, length y = N -> chi y = spread F y) ->
  run (control_on (nth i res 0) (applications U iter i)) chi x = rmul (rmul (F (read x res)) (expi (zq 2 ^ i * b2q (nth i (read x res) false) * theta)%Qc)) (psi (base x)).
Proof.
  intros Hi L E. assert (Iq : In (nth i res 0) res) by (apply nth_In; exact Hi). pose proof (off_applications N res U iter i OFF) as OA.
  rewrite (run_control N); [|apply LR, Iq|apply (off_sub _ res); [exact OA|intros p [<-|[]]; exact Iq]|exact L].
  rewrite nth_read by exact Hi. destruct (getbit x (nth i res 0)); cbn [b2q].
  - assert (M : run (applications U iter i) chi x = rmul (F (read x res)) (run (applications U iter i) psi (base x))).
    { apply (run_moved (fun q => ~ In q res) (fun y => F (read y res)) base) with (N := N).
      - intros y q NI. unfold base. apply write_other, NI.
      - intros y q a NI. unfold base. apply write_set, NI.
      - intros y q a NI. f_equal. apply map_ext_in. intros p I. apply getbit_set_other. intros ->. contradiction.
      - apply OA.
      - intros o qs q I Iq'. apply (proj2 OA o qs q I Iq').
      - intros y Ly. apply E. congruence. }
    rewrite M, (eig_applications N res n U iter theta psi i OFF EIG Hi) by (unfold base; rewrite write_length; exact L).
    replace (zq 2 ^ i * 1 * theta)%Qc with (zq 2 ^ i * theta)%Qc by ring. ring.
  - rewrite E by exact L. unfold spread. replace (zq 2 ^ i * 0 * theta)%Qc with 0%Qc by ring. rewrite e_0. ring.
Qed.
Lemma stages : forall l F chi x, (forall i, In i l -> i < n) -> length x = N -> (forall y, length y = N -> chi y = spread F y) ->
  run (flat_map (fun i => control_on (nth i res 0) (applications U iter i)) l) chi x = rmul (rmul (F (read x res)) (expi (qsum (map (fun i => zq 2 ^ i * b2q (nth i (read x res) false))%Qc l) * theta)%Qc)) (psi (base x)).
Proof.
  induction l as [|i l IH]; intros F chi x HI L E.
  - cbn [flat_map map qsum fold_right]. replace (0 * theta)%Qc with 0%Qc by ring. rewrite e_0. cbn. rewrite E by exact L. unfold spread. ring.
  - cbn [flat_map map]. rewrite run_app. rewrite (IH (fun b => rmul (F b) (expi (zq 2 ^ i * b2q (nth i b false) * theta)%Qc))); [|intros j I; apply HI; right; exact I|exact L|].
    + rewrite qsum_cons. replace ((zq 2 ^ i * b2q (nth i (read x res) false) + qsum (map (fun i0 : nat => zq 2 ^ i0 * b2q (nth i0 (read x res) false)) l)) * theta)%Qc with (zq 2 ^ i * b2q (nth i (read x res) false) * theta + qsum (map (fun i0 : nat => zq 2 ^ i0 * b2q (nth i0 (read x res) false)) l) * theta)%Qc by ring.
      rewrite e_add. ring.
    + intros y Ly. unfold spread. apply stage; [apply HI; left; reflexivity|exact Ly|exact E].
Qed.
Lemma qpe_amplitude c x : qpe U iter res = Some c -> blank rO psi res -> length x = N ->
  run c psi x = rmul (rmul (power rt n) (power rt n)) (rmul (total (all_bits n) (fun b => expi (zq (number b) * theta + angle (- (number b * value x res)) n)%Qc)) (psi (base x))).
Proof.
  intros H B L. unfold qpe in H. destruct (QFT true res true true 1) as [w|] eqn:EW; [|discriminate]. injection H as <-. rewrite !run_app.
  unfold QFT in EW. destruct (qft_inner res true true 1) as [v|] eqn:EV; [|discriminate].
  rewrite (run_qft_inv rO rI radd rmul rsub ropp RT expi chalf shalf im EU res true true 1 v w) by (assumption || apply reg, L). cbn [xorb negb]. unfold FourierSpec.dft. fold n rt.
  transitivity (rmul (power rt n) (total (all_bits n) (fun b => rmul (rmul (power rt n) (psi (base x))) (expi (zq (number b) * theta + angle (- (number b * value x res)) n)%Qc)))).
  2: { rewrite (FourierProofs.total_scale rO rI radd rmul rsub ropp RT). ring. }
  apply f_equal. apply FourierProofs.total_ext. intros b Ib. apply FourierProofs.all_bits_length in Ib.
  rewrite (stages _ (fun _ => power rt n)); [|intros i I; apply in_seq in I; fold n in I; lia|rewrite write_length; exact L|].
  2: { intros y Ly. unfold spread. fold n. apply (run_hs rO rI radd rmul rsub ropp RT expi chalf shalf im EU); [apply reg, Ly|exact B]. }
  rewrite (read_write x res b (reg x L) Ib). fold n. replace (qsum (map _ (seq 0 n))) with (zq (number b)) by (rewrite <- Ib; symmetry; apply qsum_number). unfold base. rewrite write_write by (try exact ND; try exact Ib; apply zeros_length).
  unfold reading. fold (value x res). replace (- (1) * number b * value x res)%Z with (- (number b * value x res))%Z by ring. rewrite e_add. ring.
Qed.
Lemma qpe_exact c k x : theta = angle k n -> qpe U iter res = Some c -> blank rO psi res -> length x = N ->
  run c psi x = if (value x res =? k mod 2 ^ Z.of_nat n)%Z then psi (store x res 0) else rO.
Proof.
  intros T H B L. rewrite (qpe_amplitude c x H B L).
  replace (total (all_bits n) _) with (total (all_bits n) (fun b => expi (angle ((k - value x res) * number b) n))).
  2: { apply FourierProofs.total_ext. intros b _. apply f_equal. rewrite T, !angle_zq. rewrite !zq_mul, !zq_opp, !zq_mul, <- Z.add_opp_r, zq_add, zq_opp. ring. }
  rewrite (geometric rO rI radd rmul rsub ropp RT expi chalf shalf im EU).
  assert (V : (0 <= value x res < 2 ^ Z.of_nat n)%Z) by (unfold value, n; rewrite <- (read_length x res); apply number_range).
  assert (S0 : base x = store x res 0).
  { unfold base, store. f_equal. apply zeros_bits. }
  rewrite S0. destruct (Z.eqb_spec (value x res) (k mod 2 ^ Z.of_nat n)) as [E|E].
  - rewrite Zminus_mod, <- E, (Z.mod_small (value x res)) by exact V. rewrite Z.sub_diag. cbn [Z.eqb Z.modulo]. rewrite Zmod_0_l. cbn [Z.eqb].
    transitivity (rmul (rmul (rmul (power rt n) (power rt n)) (power (radd rI rI) n)) (psi (store x res 0))); [ring|]. rewrite (norm rO rI radd rmul rsub ropp RT expi chalf shalf im EU). ring.
  - destruct (Z.eqb_spec ((k - value x res) mod 2 ^ Z.of_nat n) 0) as [E2|_]; [|ring]. exfalso. apply E.
    assert (P : (0 < 2 ^ Z.of_nat n)%Z) by (apply Z.pow_pos_nonneg; lia). apply Z.mod_divide in E2; [|lia]. destruct E2 as [j E2].
    replace k with (value x res + j * 2 ^ Z.of_nat n)%Z by lia. rewrite Z.mod_add, Z.mod_small; lia.
Qed.
End main.
End ring.
