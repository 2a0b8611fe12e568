(** Circuits preserve inner products; inverse circuits are adjoint. *)
From Coq Require Import List ZArith Bool Lia Arith QArith Qcanon Field Ring Ring_theory.
Import ListNotations.
From Verif.Inverse Require Import InvModel InvSpec InvProofs.
From Verif.CtrlOps Require Import CtrlModel CtrlSpec CtrlProofs.
From Verif.Fourier Require Import FourierModel FourierSpec RegProofs FourierProofs.
From Verif.Qpe Require Import QpeModel QpeSpec QpeProofs.
From Verif.Amplify Require Import AmpSpec.
Local Open Scope nat_scope.

Section ring.
Context {R : Type} (rO rI : R) (radd rmul rsub : R -> R -> R) (ropp : R -> R) (RT : ring_theory rO rI radd rmul rsub ropp eq).
Context (expi chalf shalf : Qc -> R) (im : R) (EU : euler rO rI radd rmul ropp expi chalf shalf im).
Context (conj : R -> R) (CJ : conjugation rI radd rmul ropp expi chalf shalf conj).
Add Ring rrU : RT.
Notation amp := (list bool -> R).
Notation effect := (effect Qcplus rO rI radd rmul ropp expi chalf shalf im).
Notation run := (run_circuit Qcplus rO rI radd rmul ropp expi chalf shalf im).
Notation run_body := (run_body Qcplus rO rI radd rmul ropp expi chalf shalf im).
Notation total := (total rO radd).
Notation inner := (inner rO radd rmul conj).
Notation e_opp := (CtrlProofs.e_opp rO rI radd rmul ropp expi chalf shalf im EU).
Notation total_ext := (FourierProofs.total_ext rO radd).
Notation total_add := (FourierProofs.total_add rO rI radd rmul rsub ropp RT).
Notation total_zero := (FourierProofs.total_zero rO rI radd rmul rsub ropp RT).
Notation total_bits := (FourierProofs.total_bits rO rI radd rmul rsub ropp RT).

Lemma cj_add a b : conj (radd a b) = radd (conj a) (conj b). Proof. apply CJ. Qed.
Lemma cj_mul a b : conj (rmul a b) = rmul (conj a) (conj b). Proof. apply CJ. Qed.
Lemma cj_1 : conj rI = rI. Proof. apply CJ. Qed.
Lemma cj_e a : conj (expi a) = expi (- a)%Qc. Proof. apply CJ. Qed.
Lemma cj_c a : conj (chalf a) = chalf a. Proof. apply CJ. Qed.
Lemma cj_s a : conj (shalf a) = shalf a. Proof. apply CJ. Qed.
Lemma cj_0 : conj rO = rO.
Proof.
  assert (E : radd (conj rO) (conj rO) = conj rO) by (rewrite <- cj_add; f_equal; ring).
  transitivity (radd (radd (conj rO) (conj rO)) (ropp (conj rO))); [ring|]. rewrite E. ring.
Qed.
Lemma cj_opp a : conj (ropp a) = ropp (conj a).
Proof.
  assert (E : radd (conj (ropp a)) (conj a) = rO) by (rewrite <- cj_add, <- cj_0; f_equal; ring).
  transitivity (radd (radd (conj (ropp a)) (conj a)) (ropp (conj a))); [ring|]. rewrite E. ring.
Qed.
Lemma cj_im : conj im = ropp im.
Proof.
  assert (H : im = expi (1 / (1 + 1))%Qc) by (symmetry; apply EU). pose proof (e_opp (1 / (1 + 1))%Qc) as E. rewrite <- H in E.
  assert (I : rmul im im = ropp rI) by apply (CtrlProofs.im_im rO rI radd rmul ropp expi chalf shalf im EU).
  assert (C : conj im = expi (- (1 / (1 + 1)))%Qc) by (rewrite H; apply cj_e). rewrite C. set (z := expi (- (1 / (1 + 1)))%Qc) in *.
  transitivity (ropp (rmul (ropp rI) z)); [ring|]. rewrite <- I. transitivity (ropp (rmul im (rmul im z))); [ring|]. rewrite E. ring.
Qed.

(** ** sums in pairs *)
Lemma total_pairs N : forall q f, q < N -> total (all_bits N) f = total (all_bits N) (fun x => if getbit x q then rO else radd (f (setbit x q false)) (f (setbit x q true))).
Proof.
  induction N as [|N IH]; intros q f Hq; [lia|]. rewrite !total_bits. destruct q as [|q].
  - cbn [getbit nth setbit]. rewrite total_zero, total_add. ring.
  - cbn [setbit]. change (getbit (false :: ?b) (S q)) with (getbit b q). rewrite (IH q (fun b => f (false :: b))), (IH q (fun b => f (true :: b))) by lia. reflexivity.
Qed.
Section weight.
Context (N : nat).
Definition weighted (g : list bool -> R) (phi psi : amp) : R := total (all_bits N) (fun x => rmul (g x) (rmul (conj (phi x)) (psi x))).
Definition free (g : list bool -> R) (qs : list nat) : Prop := forall x q a, In q qs -> g (setbit x q a) = g x.
Lemma on_qubit_iso m q g phi psi : q < N -> free g [q] ->
  (forall a b, radd (rmul (conj (m false a)) (m false b)) (rmul (conj (m true a)) (m true b)) = if Bool.eqb a b then rI else rO) ->
  weighted g (on_qubit radd rmul m q phi) (on_qubit radd rmul m q psi) = weighted g phi psi.
Proof.
  intros Hq FG HM. unfold weighted. rewrite (total_pairs N q) by exact Hq. rewrite (total_pairs N q (fun x => rmul (g x) (rmul (conj (phi x)) (psi x)))) by exact Hq.
  apply total_ext. intros x Ix. apply all_bits_length in Ix. destruct (getbit x q); [reflexivity|].
  unfold on_qubit. rewrite !getbit_set_same, !setbit_twice by lia. rewrite !FG by (left; reflexivity).
  rewrite !cj_add, !cj_mul. set (a := phi (setbit x q false)). set (b := phi (setbit x q true)). set (c := psi (setbit x q false)). set (d := psi (setbit x q true)).
  pose proof (HM false false) as H1. pose proof (HM false true) as H2. pose proof (HM true false) as H3. pose proof (HM true true) as H4. cbn [Bool.eqb] in *.
  transitivity (rmul (g x) (radd (radd (rmul (radd (rmul (conj (m false false)) (m false false)) (rmul (conj (m true false)) (m true false))) (rmul (conj a) c)) (rmul (radd (rmul (conj (m false false)) (m false true)) (rmul (conj (m true false)) (m true true))) (rmul (conj a) d)))
    (radd (rmul (radd (rmul (conj (m false true)) (m false false)) (rmul (conj (m true true)) (m true false))) (rmul (conj b) c)) (rmul (radd (rmul (conj (m false true)) (m false true)) (rmul (conj (m true true)) (m true true))) (rmul (conj b) d))))); [ring|].
  rewrite H1, H2, H3, H4. ring.
Qed.
Lemma u3_iso t p l gp a b : let m := u3_matrix Qcplus rmul ropp expi chalf shalf t p l gp in
  radd (rmul (conj (m false a)) (m false b)) (rmul (conj (m true a)) (m true b)) = if Bool.eqb a b then rI else rO.
Proof.
  pose proof (e_opp p) as Ep. pose proof (e_opp l) as El. pose proof (e_opp gp) as Eg. pose proof (CtrlProofs.c_s rO rI radd rmul rsub ropp RT expi chalf shalf im EU t) as Et.
  assert (EA : forall a b, expi (a + b)%Qc = rmul (expi a) (expi b)) by apply EU.
  assert (Hs : rmul (shalf t) (shalf t) = rsub rI (rmul (chalf t) (chalf t))) by (rewrite <- Et; ring).
  unfold u3_matrix. destruct a, b; cbn [Bool.eqb]; rewrite ?EA, ?cj_mul, ?cj_opp, ?cj_mul, ?cj_e, ?cj_c, ?cj_s; clear Et;
    set (ep := expi p) in *; set (ep' := expi (- p)%Qc) in *; set (el := expi l) in *; set (el' := expi (- l)%Qc) in *; set (eg := expi gp) in *; set (eg' := expi (- gp)%Qc) in *;
    set (cc := chalf t) in *; set (ss := shalf t) in *; clearbody ep ep' el el' eg eg' cc ss; ring [Ep El Eg Hs].
Qed.
Lemma pauli_iso p a b : let m := pauli_matrix rO rI ropp im p in
  radd (rmul (conj (m false a)) (m false b)) (rmul (conj (m true a)) (m true b)) = if Bool.eqb a b then rI else rO.
Proof.
  assert (I : rmul im im = ropp rI) by apply (CtrlProofs.im_im rO rI radd rmul ropp expi chalf shalf im EU).
  unfold pauli_matrix. destruct p, a, b; cbn [Bool.eqb]; rewrite ?cj_opp, ?cj_0, ?cj_1, ?cj_im; ring [I].
Qed.
Lemma effect_iso : forall o, well_formed o -> forall qs g phi psi, NoDup qs -> length qs = arity o -> (forall q, In q qs -> q < N) -> free g qs ->
  weighted g (effect o qs phi) (effect o qs psi) = weighted g phi psi.
Proof.
  assert (B : forall qs b, Forall (fun i => well_formed (fst i) -> forall qs g phi psi, NoDup qs -> length qs = arity (fst i) -> (forall q, In q qs -> q < N) -> free g qs ->
      weighted g (effect (fst i) qs phi) (effect (fst i) qs psi) = weighted g phi psi) b ->
    NoDup qs -> (forall q, In q qs -> q < N) -> wf_body (length qs) b -> forall g phi psi, free g qs -> weighted g (run_body qs b phi) (run_body qs b psi) = weighted g phi psi).
  { intros qs b F ND HQ. induction F as [|[o loc] b P F IH]; intros W g phi psi FG; cbn [InvProofs.run_body]; [reflexivity|].
    inversion W as [|n0 o0 l0 r Wo Nl Len Bd Wr]; subst. rewrite IH by assumption. cbn [fst] in P. apply P; [exact Wo|apply globals_NoDup; assumption|unfold globals; rewrite map_length; exact Len| |].
    - intros q I. apply HQ. revert I. apply globals_incl, Bd.
    - intros x q a I. apply FG. revert I. apply globals_incl, Bd. }
  induction o as [n t p l gp ps|p|s b IH|s b body IH IHb|n nq ncl body ps IHb| | |n|n a b] using op_ind'; intros W qs g phi psi ND Len HQ FG; try reflexivity.
  - cbn [InvSpec.effect]. assert (I : In (nth 0 qs 0) qs) by (apply nth_In; rewrite Len; cbn; lia). apply on_qubit_iso; [apply HQ, I|intros x q a [<-|[]]; apply FG, I|]. intros a b. apply u3_iso.
  - cbn [InvSpec.effect]. assert (I : In (nth 0 qs 0) qs) by (apply nth_In; rewrite Len; cbn; lia). apply on_qubit_iso; [apply HQ, I|intros x q a [<-|[]]; apply FG, I|]. intros a b. apply pauli_iso.
  - inversion W; subst. set (k := length s) in *. set (mt := fun x => bits_eqb (map (getbit x) (firstn k qs)) s).
    set (gt := fun x => if mt x then g x else rO). set (gf := fun x => if mt x then rO else g x).
    assert (Sp : qs = firstn k qs ++ skipn k qs) by (symmetry; apply firstn_skipn).

    assert (Dis : forall q, In q (skipn k qs) -> ~ In q (firstn k qs)).
    { rewrite Sp in ND. intros q I1 I2. clear - ND I1 I2. induction (firstn k qs) as [|c cs IHc]; [destruct I2|]. cbn [app] in ND. inversion ND; subst. destruct I2 as [->|I2]; [apply H1, in_or_app; auto|]. apply IHc; assumption. }
    assert (ND2 : NoDup (skipn k qs)).
    { rewrite Sp in ND. clear - ND. induction (firstn k qs) as [|c cs IHc]; [exact ND|]. cbn [app] in ND. inversion ND; subst. auto. }
    assert (FT : free gt (skipn k qs)).
    { intros x q a I. unfold gt, mt. replace (map (getbit (setbit x q a)) (firstn k qs)) with (map (getbit x) (firstn k qs)).
      - rewrite (FG x q a); [reflexivity|]. rewrite Sp. apply in_or_app. auto.
      - apply map_ext_in. intros r Ir. symmetry. apply getbit_set_other. intros ->. exact (Dis q I Ir). }
    assert (SPL : forall a b, weighted g a b = radd (weighted gt a b) (weighted gf a b)).
    { intros a c. unfold weighted. rewrite <- total_add. apply total_ext. intros x _. unfold gt, gf. destruct (mt x); ring. }
    rewrite (SPL phi psi). rewrite <- (IH H0 (skipn k qs) gt phi psi ND2); [|rewrite skipn_length, Len; cbn; lia|intros q I; apply HQ; rewrite Sp; apply in_or_app; auto|exact FT].
    rewrite SPL. f_equal; unfold weighted; apply total_ext; intros x _; cbn [InvSpec.effect]; fold k; unfold gt, gf; fold (mt x); destruct (mt x); ring.
  - rewrite !effect_pt. inversion W; subst. cbn in Len. apply B; [exact IHb|exact ND|exact HQ|rewrite Len; assumption|exact FG].
  - rewrite !effect_comp. inversion W; subst. cbn in Len. apply B; [exact IHb|exact ND|exact HQ|rewrite Len; assumption|exact FG].
Qed.
Lemma inner_weighted phi psi : inner N phi psi = weighted (fun _ => rI) phi psi.
Proof. unfold AmpSpec.inner, weighted. apply total_ext. intros x _. ring. Qed.
Lemma run_iso c : wf_circuit N c -> forall phi psi, inner N (run c phi) (run c psi) = inner N phi psi.
Proof.
  intros W phi psi. rewrite !inner_weighted. revert phi psi. induction c as [|[o qs] c IH]; intros phi psi; [reflexivity|]. inversion W as [|n0 o0 l0 r Wo ND LQ BD Wr]; subst.
  rewrite !FourierProofs.run_cons, IH by exact Wr. apply effect_iso; [exact Wo|exact ND|exact LQ|exact BD|intros x q a _; reflexivity].
Qed.
Lemma inner_ext phi phi' psi psi' : (forall x, length x = N -> phi x = phi' x) -> (forall x, length x = N -> psi x = psi' x) -> inner N phi psi = inner N phi' psi'.
Proof. intros E F. unfold AmpSpec.inner. apply total_ext. intros x I. apply all_bits_length in I. rewrite E, F by exact I. reflexivity. Qed.
Lemma adjoint c d : wf_circuit N c -> inverse_circuit Qcopp Qcplus c = Some d -> forall phi psi, inner N phi (run d psi) = inner N (run c phi) psi.
Proof.
  intros W H phi psi. pose proof (circuit_undoes Qcopp Qcplus rO rI radd rmul rsub ropp RT expi chalf shalf im (CtrlProofs.angle_ok rO rI radd rmul rsub ropp RT expi chalf shalf im EU) N c d W H) as [Wd U].
  rewrite <- (run_iso c W). apply inner_ext; [reflexivity|]. intros x L. apply U, L.
Qed.
End weight.
End ring.
