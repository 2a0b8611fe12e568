(** Amplitude amplification. *)
From Coq Require Import List ZArith Bool Lia Arith QArith Qcanon Field Ring Ring_theory.
Import ListNotations.
From Verif.Inverse Require Import InvModel InvSpec InvProofs.
From Verif.CtrlOps Require Import CtrlModel CtrlSpec CtrlProofs.
From Verif.Fourier Require Import FourierModel FourierSpec RegProofs FourierProofs FourierFinal AdderProofs.
From Verif.Qpe Require Import QpeModel QpeSpec QpeProofs QpeMain.
From Verif.Amplify Require Import AmpModel AmpSpec UnitaryProofs RefProofs.
Local Open Scope nat_scope.

Lemma within_inverse N qs c d : within N qs c -> wf_circuit N d -> invert_circuit c = Some d -> within N qs d.
Proof.
  intros [W O] Wd H. split; [exact Wd|]. apply circuit_shape in H. intros o l q I Iq. assert (J : In (o, l) (rev d)) by (apply in_rev in I; exact I).
  destruct (shape_In _ _ _ _ _ _ H J) as (o' & I' & _). exact (O o' l q I' Iq).
Qed.
Lemma within_app N qs c d : within N qs c -> within N qs d -> within N qs (c ++ d).
Proof. intros [W O] [W' O']. split; [apply wf_app; assumption|]. intros o l q I. apply in_app_or in I. destruct I; eauto. Qed.

Section ring.
Context {R : Type} (rO rI : R) (radd rmul rsub : R -> R -> R) (ropp : R -> R) (RT : ring_theory rO rI radd rmul rsub ropp eq).
Context (expi chalf shalf : Qc -> R) (im : R) (EU : euler rO rI radd rmul ropp expi chalf shalf im).
Context (conj : R -> R) (CJ : conjugation rI radd rmul ropp expi chalf shalf conj).
Add Ring rrA : RT.
Notation amp := (list bool -> R).
Notation run := (run_circuit Qcplus rO rI radd rmul ropp expi chalf shalf im).
Notation power := (power rI rmul).
Notation run_app := (FourierProofs.run_app rO rI radd rmul ropp expi chalf shalf im).
Notation e_1 := (CtrlProofs.e_1 rO rI radd rmul ropp expi chalf shalf im EU).
Notation run_ext := (AdderProofs.run_ext rO rI radd rmul ropp expi chalf shalf im).
Notation undo := (AdderProofs.undo rO rI radd rmul rsub ropp RT expi chalf shalf im EU).
Notation run_lin := (RefProofs.run_lin rO rI radd rmul rsub ropp RT expi chalf shalf im).
Notation branch_zero := (RefProofs.branch_zero rO rI radd rmul rsub ropp RT expi chalf shalf im).
Notation branch := (RefProofs.branch rO rI radd rmul rsub ropp RT expi chalf shalf im).
Notation inner := (inner rO radd rmul conj).
Notation basis := (basis rO rI).
Notation zero_part := (zero_part rO).
Notation tags := (tags rO rI radd rmul ropp expi chalf shalf im).
Notation run_iso := (UnitaryProofs.run_iso rO rI radd rmul rsub ropp RT expi chalf shalf im EU conj CJ).
Notation inner_ext := (UnitaryProofs.inner_ext rO radd rmul conj).
Notation cj_add := (UnitaryProofs.cj_add rI radd rmul ropp expi chalf shalf conj CJ).
Notation cj_mul := (UnitaryProofs.cj_mul rI radd rmul ropp expi chalf shalf conj CJ).
Notation cj_opp := (UnitaryProofs.cj_opp rO rI radd rmul rsub ropp RT expi chalf shalf conj CJ).
Notation cj_1 := (UnitaryProofs.cj_1 rI radd rmul ropp expi chalf shalf conj CJ).
Notation two := (radd rI rI).

Lemma inner_lin_r N a b phi psi chi rho : (forall x, length x = N -> rho x = radd (rmul a (psi x)) (rmul b (chi x))) -> inner N phi rho = radd (rmul a (inner N phi psi)) (rmul b (inner N phi chi)).
Proof.
  intros E. unfold AmpSpec.inner. rewrite <- !(FourierProofs.total_scale rO rI radd rmul rsub ropp RT), <- (FourierProofs.total_add rO rI radd rmul rsub ropp RT).
  apply (FourierProofs.total_ext rO radd). intros x I. apply all_bits_length in I. rewrite E by exact I. ring.
Qed.
Lemma inner_lin_l N a b phi psi chi rho : (forall x, length x = N -> rho x = radd (rmul a (psi x)) (rmul b (chi x))) -> inner N rho phi = radd (rmul (conj a) (inner N psi phi)) (rmul (conj b) (inner N chi phi)).
Proof.
  intros E. unfold AmpSpec.inner. rewrite <- !(FourierProofs.total_scale rO rI radd rmul rsub ropp RT), <- (FourierProofs.total_add rO rI radd rmul rsub ropp RT).
  apply (FourierProofs.total_ext rO radd). intros x I. apply all_bits_length in I. rewrite E, cj_add, !cj_mul by exact I. ring.
Qed.
Lemma half_exists : exists t, rmul t two = rI.
Proof. exists (rmul (FourierProofs.rt chalf) (FourierProofs.rt chalf)). etransitivity; [|exact (FourierProofs.rt_2 rO rI radd rmul rsub ropp RT expi chalf shalf im EU)]. ring. Qed.
Lemma cancel_two a b : rmul two a = rmul two b -> a = b.
Proof. destruct half_exists as [t T]. intros E. transitivity (rmul (rmul t two) a); [rewrite T; ring|]. transitivity (rmul t (rmul two a)); [ring|]. rewrite E. transitivity (rmul (rmul t two) b); [ring|rewrite T; ring]. Qed.
Lemma inner_1 N phi psi rho : (forall x, length x = N -> rho x = ropp (psi x)) -> inner N phi rho = ropp (inner N phi psi).
Proof. intros E. rewrite (inner_lin_r N (ropp rI) rO phi psi psi); [ring|]. intros x L. rewrite E by exact L. ring. Qed.
Lemma inner_1l N phi psi rho : (forall x, length x = N -> rho x = ropp (psi x)) -> inner N rho phi = ropp (inner N psi phi).
Proof. intros E. rewrite (inner_lin_l N (ropp rI) rO phi psi psi); [rewrite cj_opp, cj_1, (UnitaryProofs.cj_0 rO rI radd rmul rsub ropp RT expi chalf shalf conj CJ); ring|]. intros x L. rewrite E by exact L. ring. Qed.

Section amplify.
Context (N : nat) (a : list qarg) (u oracle r v : body) (ps : list nat) (z : list bool).
Let qs := chosen a None.
Context (HR : reflection a (Some u) 1%Qc None = Some r) (NE : a <> []) (HP : phase_qubits a = Some ps) (Hv : invert_circuit u = Some v).
Context (ND : NoDup qs) (B : forall q, In q qs -> q < N) (Wu : within N qs u) (Wo : within N qs oracle).
Context (Lz : length z = N) (Zz : zero_on qs z = true).
Let Psi := run u (basis z).
Let sg := power (ropp rI) (S (length ps)).
Lemma v_within : within N qs v.
Proof. apply (within_inverse N qs u); [exact Wu|apply (undo N u v (proj1 Wu) Hv)|exact Hv]. Qed.
Lemma z_store x : length x = N -> same_off qs z x = true -> store x qs 0 = z.
Proof. intros L S. symmetry. apply (zero_same N qs x z ND B L Lz); [rewrite same_sym; exact S|exact Zz]. Qed.
Lemma off_branch psi c x : within N qs c -> length x = N -> (forall y, length y = N -> same_off qs z y = false -> psi y = rO) -> same_off qs z x = false -> run c psi x = rO.
Proof.
  intros W L S F. apply (branch_zero N qs); [exact W|exact L|]. intros y Ly Sy. apply S; [exact Ly|]. apply not_true_iff_false. intros T. apply not_true_iff_false in F. apply F.
  apply (same_trans qs z y x T). rewrite same_sym. exact Sy.
Qed.
Lemma basis_off y : same_off qs z y = false -> basis z y = rO.
Proof. intros F. unfold AmpSpec.basis. destruct (bits_eqb y z) eqn:E; [|reflexivity]. apply bits_eqb_eq in E. subst y. rewrite same_off_refl in F. discriminate. Qed.
Lemma Psi_off x : length x = N -> same_off qs z x = false -> Psi x = rO.
Proof. intros L F. apply off_branch; auto. intros y _ G. apply basis_off, G. Qed.
(** the reflection, on a state that agrees with z on the other qubits *)
Lemma reflect psi x : length x = N -> (forall y, length y = N -> same_off qs z y = false -> psi y = rO) -> run r psi x = rmul sg (rsub (rmul (rmul two (inner N Psi psi)) (Psi x)) (psi x)).
Proof.
  intros L S. rewrite (reflection_operator rO rI radd rmul rsub ropp RT expi chalf shalf im EU N a u 1%Qc None r ps v HR NE HP Hv ND B (proj1 Wu) psi x L). fold qs.
  rewrite e_1. unfold sg. cbn [FourierSpec.power]. set (p := power (ropp rI) (length ps)).
  replace (run u (zero_part qs (run v psi)) x) with (rmul (inner N Psi psi) (Psi x)); [ring|]. destruct (same_off qs z x) eqn:F.
  - pose proof (projector rO rI radd rmul rsub ropp RT expi chalf shalf im EU conj CJ N qs u v psi x Wu Hv ND B L) as P. cbv zeta in P. rewrite (z_store x L F) in P. symmetry. exact P.
  - rewrite (Psi_off x L F). rewrite (off_branch (zero_part qs (run v psi)) u x Wu L); [ring| |exact F]. intros y Ly G. unfold AmpSpec.zero_part. destruct (zero_on qs y); [|reflexivity].
    apply (off_branch psi v y v_within Ly S G).
Qed.
Context (good bad : amp) (T : tags N oracle Psi good bad).
Lemma parts_off y : length y = N -> same_off qs z y = false -> good y = rO /\ bad y = rO.
Proof.
  intros L F. assert (E : run oracle Psi y = radd (rmul rI (run oracle good y)) (rmul rI (run oracle bad y))).
  { apply run_lin with (N := N); [apply Wo|exact L|]. intros w Lw. rewrite (proj1 (T w Lw)). ring. }
  rewrite (off_branch Psi oracle y Wo L Psi_off F) in E. destruct (T y L) as (S & G & H). rewrite G, H in E. rewrite (Psi_off y L F) in S.
  split; apply cancel_two.
  - transitivity (rsub (radd (good y) (bad y)) (radd (rmul rI (ropp (good y))) (rmul rI (bad y)))); [ring|]. rewrite <- S, <- E. ring.
  - transitivity (radd (radd (good y) (bad y)) (radd (rmul rI (ropp (good y))) (rmul rI (bad y)))); [ring|]. rewrite <- S, <- E. ring.
Qed.
Lemma Psi_norm : inner N Psi Psi = rI.
Proof.
  unfold Psi. rewrite run_iso by apply Wu. rewrite (inner_basis rO rI radd rmul rsub ropp RT expi chalf shalf conj CJ) by exact Lz. unfold AmpSpec.basis.
  assert (E : bits_eqb z z = true) by (apply bits_eqb_eq; reflexivity). rewrite E. reflexivity.
Qed.
Lemma orthogonal : inner N good bad = rO /\ inner N bad good = rO.
Proof.
  assert (O1 : forall x, length x = N -> run oracle good x = ropp (good x)) by (intros x L; apply (T x L)).
  assert (O2 : forall x, length x = N -> run oracle bad x = bad x) by (intros x L; apply (T x L)).
  split; apply cancel_two.
  - pose proof (run_iso N oracle (proj1 Wo) good bad) as I. rewrite (inner_1l N _ good _ O1) in I. rewrite (inner_ext N good good (run oracle bad) bad (fun x _ => eq_refl) O2) in I.
    transitivity (radd (inner N good bad) (inner N good bad)); [ring|]. rewrite <- I at 1. ring.
  - pose proof (run_iso N oracle (proj1 Wo) bad good) as I. rewrite (inner_1 N _ good _ O1) in I. rewrite (inner_ext N (run oracle bad) bad good good O2 (fun x _ => eq_refl)) in I.
    transitivity (radd (inner N bad good) (inner N bad good)); [ring|]. rewrite <- I at 1. ring.
Qed.
Let share := inner N good good.
Lemma Psi_sum x : length x = N -> Psi x = radd (rmul rI (good x)) (rmul rI (bad x)).
Proof. intros L. rewrite (proj1 (T x L)). ring. Qed.
Lemma Psi_good : inner N Psi good = share.
Proof. rewrite (inner_lin_l N rI rI good good bad Psi Psi_sum), cj_1, (proj2 orthogonal). unfold share. ring. Qed.
Lemma bad_bad : inner N bad bad = rsub rI share.
Proof.
  pose proof Psi_norm as P. rewrite (inner_lin_l N rI rI Psi good bad Psi Psi_sum), cj_1 in P. rewrite (inner_lin_r N rI rI good good bad Psi Psi_sum), (inner_lin_r N rI rI bad good bad Psi Psi_sum) in P.
  rewrite (proj1 orthogonal), (proj2 orthogonal) in P. fold share in P. rewrite <- P. ring.
Qed.
Lemma Psi_bad : inner N Psi bad = rsub rI share.
Proof. rewrite (inner_lin_l N rI rI bad good bad Psi Psi_sum), cj_1, (proj1 orthogonal), bad_bad. ring. Qed.
(** one iteration *)
Lemma step al be psi x : length x = N -> (forall y, length y = N -> psi y = radd (rmul al (good y)) (rmul be (bad y))) ->
  run (oracle ++ r) psi x = radd (rmul (rmul sg (radd (rmul (rsub rI (rmul two share)) al) (rmul (rmul two (rsub rI share)) be))) (good x))
                                 (rmul (rmul sg (rsub (rmul (rsub rI (rmul two share)) be) (rmul (rmul two share) al))) (bad x)).
Proof.
  intros L E. rewrite run_app.
  assert (EO : forall y, length y = N -> run oracle psi y = radd (rmul (ropp al) (good y)) (rmul be (bad y))).
  { intros y Ly. rewrite (run_lin N oracle al be good bad psi y (proj1 Wo) Ly E). destruct (T y Ly) as (_ & -> & ->). ring. }
  rewrite (reflect (run oracle psi) x L).
  - rewrite (inner_lin_r N (ropp al) be Psi good bad _ EO), Psi_good, Psi_bad, (EO x L), (proj1 (T x L)). ring.
  - intros y Ly F. rewrite (EO y Ly). destruct (parts_off y Ly F) as [-> ->]. ring.
Qed.
End amplify.
End ring.
