(** Properties C71 (phase estimation) and C72 (iterative phase estimation). *)
From Coq Require Import List ZArith Bool QArith Qcanon Ring_theory Ring Lia.
Import ListNotations.
From Verif.Inverse Require Import InvModel InvSpec InvProofs.
From Verif.CtrlOps Require Import CtrlModel CtrlSpec CtrlProofs CtrlComplex.
From Verif.Fourier Require Import FourierModel FourierSpec RegProofs FourierProofs FourierFinal AdderProofs.
From Verif.Hybrid Require Import HybridSpec HybridFinal.
From Verif.Qpe Require Import QpeModel QpeSpec QpeProofs QpeMain IqpeProofs.
Local Open Scope nat_scope.
Local Notation value := FourierSpec.value.

Section numbers.
Context {R : Type} (rO rI : R) (radd rmul rsub : R -> R -> R) (ropp : R -> R) (RT : ring_theory rO rI radd rmul rsub ropp eq).
Context (expi chalf shalf : Qc -> R) (im : R) (EU : euler rO rI radd rmul ropp expi chalf shalf im).
Add Ring rr12 : RT.
Notation run := (run_circuit Qcplus rO rI radd rmul ropp expi chalf shalf im).
Notation total := (total rO radd).
Notation power := (power rI rmul).
Notation eigenstate := (eigenstate rO rI radd rmul ropp expi chalf shalf im).
Notation repeats := (repeats rO rI radd rmul ropp expi chalf shalf im).
Notation iqpe_run := (iqpe_run rO rI radd rmul ropp expi chalf shalf im).

(** ** C71 *)
(** QPE(args, U, target = res) on a state with res at 0 that U multiplies with exp(2 pi i k / 2^n), n being the size of res: the
    register res holds k modulo 2^n, all its other contents have amplitude 0, and the rest of the state is as before. U is any
    circuit that does not act on res; with iter_spec it is called once per qubit of res with iter = 2 ** i. *)
Theorem C71_exact : forall N res U iter_spec k psi c, qpe U iter_spec res = Some c ->
  NoDup res -> (forall q, In q res -> q < N) -> (forall a, acts_off N res (U a)) -> blank rO psi res ->
  repeats N (length res) U iter_spec (angle k (length res)) psi ->
  forall x, length x = N -> run c psi x = if (value x res =? k mod 2 ^ Z.of_nat (length res))%Z then psi (store x res 0) else rO.
Proof.
  intros N res U iter k psi c H ND LR OFF B EIG x L.
  exact (qpe_exact rO rI radd rmul rsub ropp RT expi chalf shalf im EU N res U iter (angle k (length res)) psi ND LR OFF EIG c k x eq_refl H B L).
Qed.
(** A superposition of such states with several phases: every part gets its own estimate. *)
Theorem C71_superposition : forall N res U iter_spec (parts : list (Z * (list bool -> R))) psi c, qpe U iter_spec res = Some c ->
  NoDup res -> (forall q, In q res -> q < N) -> (forall a, acts_off N res (U a)) ->
  (forall k phi, In (k, phi) parts -> blank rO phi res /\ repeats N (length res) U iter_spec (angle k (length res)) phi) ->
  (forall x, psi x = total parts (fun part => snd part x)) ->
  forall x, length x = N -> run c psi x = total parts (fun '(k, phi) => if (value x res =? k mod 2 ^ Z.of_nat (length res))%Z then phi (store x res 0) else rO).
Proof.
  intros N res U iter parts psi c H ND LR OFF HP E x L. rewrite (run_total rO rI radd rmul rsub ropp RT expi chalf shalf im c parts (fun part => snd part) psi x E).
  apply FourierProofs.total_ext. intros [k phi] I. cbn [snd]. destruct (HP k phi I) as [B EIG]. apply (C71_exact N res U iter k phi c); assumption.
Qed.
(** Any phase exp(i theta): the amplitude of the estimate y is the mean of exp(i j (theta - 2 pi y / 2^n)) over j < 2^n. *)
Theorem C71_amplitude : forall N res U iter_spec theta psi c, qpe U iter_spec res = Some c ->
  NoDup res -> (forall q, In q res -> q < N) -> (forall a, acts_off N res (U a)) -> blank rO psi res ->
  repeats N (length res) U iter_spec theta psi ->
  forall x, length x = N ->
  rmul (power (radd rI rI) (length res)) (run c psi x) =
  rmul (total (all_bits (length res)) (fun j => expi (zq (number j) * theta - angle (number j * value x res) (length res))%Qc)) (psi (store x res 0)).
Proof.
  intros N res U iter theta psi c H ND LR OFF B EIG x L.
  rewrite (qpe_amplitude rO rI radd rmul rsub ropp RT expi chalf shalf im EU N res U iter theta psi ND LR OFF EIG c x H B L).
  pose proof (norm rO rI radd rmul rsub ropp RT expi chalf shalf im EU (length res)) as NO. unfold base. rewrite zeros_bits. fold (store x res 0).
  replace (total (all_bits (length res)) (fun b => expi (zq (number b) * theta + angle (- (number b * value x res)) (length res))%Qc))
    with (total (all_bits (length res)) (fun j => expi (zq (number j) * theta - angle (number j * value x res) (length res))%Qc)).
  2: { apply FourierProofs.total_ext. intros b _. rewrite angle_opp. reflexivity. }
  set (s := FourierSpec.total _ _ _ _). set (p := psi _). transitivity (rmul (rmul (rmul (power (FourierProofs.rt chalf) (length res)) (power (FourierProofs.rt chalf) (length res))) (power (radd rI rI) (length res))) (rmul s p)); [ring|].
  rewrite NO. ring.
Qed.
(** It is always defined. *)
Theorem C71_defined : forall U iter_spec res, qpe U iter_spec res <> None.
Proof. intros U iter res H. unfold qpe in H. destruct (QFT true res true true 1) eqn:E; [discriminate|]. apply QFT_total in E. discriminate. Qed.

(** ** C72 *)
(** IQPE(args, U, precision = p) on a state that U multiplies with exp(2 pi i k / 2^(p + 1)), the measured qubit q being in state 0:
    some sequence of outcomes is possible, and with every possible sequence of outcomes the result is the fractional part of
    2 k / 2^(p + 1) -- twice the phase, modulo 1 -- and the state is left alone (up to a phase). *)
Theorem C72_doubled : forall N q U iter_spec p k psi, q < N -> (forall a, acts_off N [q] (U a)) -> blank rO psi [q] ->
  repeats N (S p) U iter_spec (angle k (S p)) psi ->
  ((exists x, length x = N /\ psi x <> rO) -> exists result psi', iqpe_run U iter_spec p N q 0 0%Qc psi result psi') /\
  (forall result psi', iqpe_run U iter_spec p N q 0 0%Qc psi result psi' ->
     result = fraction (k mod 2 ^ Z.of_nat p) p /\ exists s, forall x, length x = N -> psi' x = rmul (expi s) (psi x)).
Proof.
  intros N q U iter p k psi Hq OFF B EIG. rewrite <- (low_0 k). split.
  - intros NZ. apply (runs_from rO rI radd rmul rsub ropp RT expi chalf shalf im EU N q U iter p k Hq OFF p 0); auto.
  - intros result psi' H. rewrite <- low_fraction. apply (runs_to rO rI radd rmul rsub ropp RT expi chalf shalf im EU N q U iter p k Hq OFF 0 (low k 0)); auto; lia.
Qed.
(** So for phases with p bits, exp(2 pi i k / 2^p), it never returns the phase k / 2^p, unless the phase is 0. *)
Theorem C72_phase_refuted : forall N q U iter_spec p k psi, q < N -> (forall a, acts_off N [q] (U a)) -> blank rO psi [q] ->
  repeats N (S p) U iter_spec (angle k p) psi -> (0 < k < 2 ^ Z.of_nat p)%Z ->
  forall result psi', iqpe_run U iter_spec p N q 0 0%Qc psi result psi' -> result <> fraction k p.
Proof.
  intros N q U iter p k psi Hq OFF B EIG Hk result psi' H E. rewrite <- angle_S in EIG.
  destruct (C72_doubled N q U iter p (2 * k) psi Hq OFF B EIG) as [_ D]. destruct (D _ _ H) as [Er _]. rewrite Er in E. apply fraction_inj in E.
  assert (P : (0 < 2 ^ Z.of_nat p)%Z) by (apply Z.pow_pos_nonneg; lia).
  destruct (Z.lt_ge_cases (2 * k) (2 ^ Z.of_nat p)) as [C|C]; [rewrite Z.mod_small in E by lia; lia|].
  replace (2 * k)%Z with (2 * k - 2 ^ Z.of_nat p + 1 * 2 ^ Z.of_nat p)%Z in E by ring. rewrite Z.mod_add, Z.mod_small in E by lia. lia.
Qed.
End numbers.
Print Assumptions C71_exact.
Print Assumptions C71_superposition.
Print Assumptions C71_amplitude.
Print Assumptions C71_defined.
Print Assumptions C72_doubled.
Print Assumptions C72_phase_refuted.

(** ** examples *)
(** basis states, over the complex numbers *)
Definition at_state (b : list bool) : list bool -> cplx := fun x => if bits_eqb x b then c1 else c0.
Lemma at_blank b qs : (forall q, In q qs -> getbit b q = false) -> blank c0 (at_state b) qs.
Proof. intros H y q I G. unfold at_state. destruct (bits_eqb y b) eqn:E; [|reflexivity]. apply bits_eqb_eq in E. subst y. rewrite (H q I) in G. discriminate. Qed.
Lemma off_p N res a q c : acts_off N res c -> q < N -> ~ In q res -> acts_off N res (qP a q :: c).
Proof.
  intros [W O] Hq NI. split; [apply (wf_app N [qP a q] c); [apply wf_p, Hq|exact W]|]. intros o qs r [E|I] Ir; [|apply (O o qs r I Ir)].
  injection E as <- <-. destruct Ir as [<-|[]]. exact NI.
Qed.
Lemma off_nil N res : acts_off N res [].
Proof. split; [constructor|intros o qs q []]. Qed.
(** the example of the documentation: p(0.5 * 2 pi) and p(0.125 * 2 pi), here with the qubits 0 and 1 in state 1 *)
Definition demo_U (_ : option nat) : body := [qP (zq 1) 0; qP (zq 1 * half * half)%Qc 1].
Definition demo_in : list bool := [true; true; false; false; false].
Add Ring complex_numbers : complex_ring.
Example C71_hypotheses : (forall a, acts_off 5 [2; 3; 4] (demo_U a)) /\ blank c0 (at_state demo_in) [2; 3; 4] /\
  repeats c0 c1 cadd cmul copp cexpi ccos csin ci 5 3 demo_U false (angle 5 3) (at_state demo_in).
Proof.
  split; [intros a; unfold demo_U; apply off_p; [apply off_p; [apply off_nil|lia|cbn; lia]|lia|cbn; lia]|]. split.
  - apply at_blank. intros q [<-|[<-|[<-|[]]]]; reflexivity.
  - intros x L. unfold demo_U. change (run_circuit Qcplus c0 c1 cadd cmul copp cexpi ccos csin ci [qP (zq 1) 0; qP (zq 1 * half * half)%Qc 1] (at_state demo_in) x)
      with (InvSpec.effect Qcplus c0 c1 cadd cmul copp cexpi ccos csin ci (gP (zq 1 * half * half)%Qc) [1] (InvSpec.effect Qcplus c0 c1 cadd cmul copp cexpi ccos csin ci (gP (zq 1)) [0] (at_state demo_in)) x).
    rewrite !(FourierProofs.run_p c0 c1 cadd cmul csub copp complex_ring cexpi ccos csin ci complex_euler).
    unfold at_state. destruct (bits_eqb x demo_in) eqn:E.
    + apply bits_eqb_eq in E. subst x. cbn [getbit nth demo_in b2q].
      replace (angle 5 3) with (zq 1 * half * half * 1 + zq 1 * 1)%Qc by (apply Qc_is_canon; reflexivity).
      rewrite (CtrlProofs.e_add c0 c1 cadd cmul copp cexpi ccos csin ci complex_euler). ring.
    + assert (Z : forall z, cmul z c0 = c0) by (intros z; ring). rewrite !Z. reflexivity.
Qed.
(** 5 / 8 = 0.625 is found *)
Example C71_example : exists c, qpe demo_U false [2; 3; 4] = Some c /\
  run_circuit Qcplus c0 c1 cadd cmul copp cexpi ccos csin ci c (at_state demo_in) [true; true; true; false; true] = c1 /\
  run_circuit Qcplus c0 c1 cadd cmul copp cexpi ccos csin ci c (at_state demo_in) [true; true; true; true; true] = c0.
Proof.
  destruct (qpe demo_U false [2; 3; 4]) as [c|] eqn:E; [|exfalso; exact (C71_defined _ _ _ E)]. exists c. split; [reflexivity|].
  destruct C71_hypotheses as (OFF & B & EIG). assert (ND : NoDup [2; 3; 4]) by (repeat constructor; cbn; lia).
  assert (LR : forall q, In q [2; 3; 4] -> q < 5) by (intros q I; cbn in I; lia).
  pose proof (C71_exact c0 c1 cadd cmul csub copp complex_ring cexpi ccos csin ci complex_euler 5 [2; 3; 4] demo_U false 5 (at_state demo_in) c E ND LR OFF B EIG) as H.
  split; rewrite H by reflexivity; reflexivity.
Qed.
(** the gate Z (phase 1/2) on a qubit in state 1: IQPE with precision 3 returns 0, as for the phase 0 *)
Definition z_U (_ : option nat) : body := [qP (zq 1) 0].
Example C72_example : (forall a, acts_off 2 [1] (z_U a)) /\ blank c0 (at_state [true; false]) [1] /\
  repeats c0 c1 cadd cmul copp cexpi ccos csin ci 2 4 z_U false (angle 4 3) (at_state [true; false]) /\
  (exists result psi', iqpe_run c0 c1 cadd cmul copp cexpi ccos csin ci z_U false 3 2 1 0 0%Qc (at_state [true; false]) result psi') /\
  forall result psi', iqpe_run c0 c1 cadd cmul copp cexpi ccos csin ci z_U false 3 2 1 0 0%Qc (at_state [true; false]) result psi' -> result = 0%Qc.
Proof.
  assert (OFF : forall a, acts_off 2 [1] (z_U a)) by (intros a; unfold z_U; apply off_p; [apply off_nil|lia|cbn; lia]).
  assert (B : blank c0 (at_state [true; false]) [1]) by (apply at_blank; intros q [<-|[]]; reflexivity).
  assert (EIG : repeats c0 c1 cadd cmul copp cexpi ccos csin ci 2 4 z_U false (angle 4 3) (at_state [true; false])).
  { intros x L. unfold z_U. change (run_circuit Qcplus c0 c1 cadd cmul copp cexpi ccos csin ci [qP (zq 1) 0] (at_state [true; false]) x)
      with (InvSpec.effect Qcplus c0 c1 cadd cmul copp cexpi ccos csin ci (gP (zq 1)) [0] (at_state [true; false]) x).
    rewrite (FourierProofs.run_p c0 c1 cadd cmul csub copp complex_ring cexpi ccos csin ci complex_euler).
    unfold at_state. destruct (bits_eqb x [true; false]) eqn:E; [|ring]. apply bits_eqb_eq in E. subst x. cbn [getbit nth b2q].
    replace (angle 4 3) with (zq 1 * 1)%Qc by (apply Qc_is_canon; reflexivity). reflexivity. }
  split; [exact OFF|]. split; [exact B|]. split; [exact EIG|].
  assert (EIG' : repeats c0 c1 cadd cmul copp cexpi ccos csin ci 2 4 z_U false (angle 8 4) (at_state [true; false])) by (change 8%Z with (2 * 4)%Z; rewrite angle_S; exact EIG).
  assert (H1 : 1 < 2) by lia.
  destruct (C72_doubled c0 c1 cadd cmul csub copp complex_ring cexpi ccos csin ci complex_euler 2 1 z_U false 3 8 _ H1 OFF B EIG') as [H H']. split.
  - apply H. exists [true; false]. split; [reflexivity|]. unfold at_state. cbn. exact complex_nontrivial.
  - intros result psi' Hr. destruct (H' _ _ Hr) as [-> _]. apply Qc_is_canon. reflexivity.
Qed.
