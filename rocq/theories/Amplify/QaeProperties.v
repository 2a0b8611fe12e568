(** Property C75 (amplitude estimation). *)
From Coq Require Import Reals Lra List ZArith Bool Lia QArith Qreals Qcanon Ring_theory Ring.
Import ListNotations.
From Verif.Inverse Require Import InvModel InvSpec InvProofs.
From Verif.CtrlOps Require Import CtrlModel CtrlSpec CtrlProofs CtrlComplex.
From Verif.Fourier Require Import FourierModel FourierSpec RegProofs FourierProofs FourierFinal AdderProofs.
From Verif.Qpe Require Import QpeModel QpeSpec QpeProofs QpeMain.
From Verif.Amplify Require Import AmpModel AmpSpec UnitaryProofs RefProofs AmpProofs Conj AmpComplex QaeProofs.
Local Open Scope nat_scope.
Local Notation value := FourierSpec.value.
Add Ring complex_numbers : complex_ring.
(** (sin(pi y / 2^n))^2: the estimate that the outcome y of a register with n qubits stands for *)
Definition estimate_of (y : Z) (n : nat) : R := (sin (PI * IZR y / 2 ^ n) * sin (PI * IZR y / 2 ^ n))%R.

(** QAE(args, state_function, oracle_function), the estimate being written into the n qubits res: let good + bad be the state that
    state_function prepares from 0, the oracle multiplying good with -1 and leaving bad alone, and let the share of good,
    <good|good>, be (sin(pi k / 2^n))^2 for some integer k. Then a measurement of res has outcomes, and with every possible outcome y
    the estimate (sin(pi y / 2^n))^2 is the share. *)
Theorem C75_exact : forall N a u oracle res e z good bad k, let qs := chosen a None in
  qae a u oracle res = Some e -> a <> [] -> Nat.odd (length (first_entry a)) = true ->
  NoDup qs -> (forall q, In q qs -> q < N) -> within N qs u -> within N qs oracle ->
  NoDup res -> (forall q, In q res -> q < N) -> (forall q, In q qs -> ~ In q res) ->
  length z = N -> zero_on qs z = true -> zero_on res z = true ->
  ctags N oracle (crun u (cbasis z)) good bad -> cinner N good good = (estimate_of k (length res), 0%R) ->
  (exists x, length x = N /\ crun e (cbasis z) x <> c0) /\
  forall x, length x = N -> crun e (cbasis z) x <> c0 ->
    (value x res = k mod 2 ^ Z.of_nat (length res) \/ value x res = - k mod 2 ^ Z.of_nat (length res))%Z /\
    estimate_of (value x res) (length res) = estimate_of k (length res).
Proof.
  intros N a u oracle res e z good bad k qs H NE OD ND B Wu Wo NR BR DR Lz Zz Zr T HS.
  assert (HR : exists r, reflection a (Some u) 1%Qc None = Some r) by (unfold qae, amplitude_amplification in H; destruct (reflection a (Some u) 1%Qc None); [eauto|discriminate]).
  destruct HR as [r HR]. split; [apply (outcomes N a u oracle r z res HR NE ND B Wu Wo Lz NR BR DR e H)|]. intros x L NZ.
  assert (ZR : forall q, In q res -> getbit z q = false) by (intros q I; unfold zero_on in Zr; rewrite forallb_forall in Zr; apply negb_true_iff, Zr, I).
  destruct (estimate N a u oracle r z res HR NE ND B Wu Wo Lz Zz NR BR DR ZR good bad T k HS 0%Z) with (e := e) (x := x) as [V|V]; try assumption.
  - rewrite OD, cexpi_frac. unfold Rdiv. rewrite Rmult_0_r, Rmult_0_l, Rmult_0_r, cos_0, sin_0. reflexivity.
  - split; [left; exact V|]. rewrite V. unfold estimate_of. apply (sin2_mod (0 + k)%Z). left. reflexivity.
  - split; [right; exact V|]. rewrite V. unfold estimate_of. apply (sin2_mod (0 - k)%Z). right. reflexivity.
Qed.
(** If the first argument is a QuantumArray whose elements have an even number of qubits, the estimate is wrong: with every possible
    outcome it is 1 minus the share. *)
Theorem C75_array_refuted : forall N a u oracle res e z good bad k, let qs := chosen a None in
  qae a u oracle res = Some e -> a <> [] -> Nat.even (length (first_entry a)) = true -> res <> [] ->
  NoDup qs -> (forall q, In q qs -> q < N) -> within N qs u -> within N qs oracle ->
  NoDup res -> (forall q, In q res -> q < N) -> (forall q, In q qs -> ~ In q res) ->
  length z = N -> zero_on qs z = true -> zero_on res z = true ->
  ctags N oracle (crun u (cbasis z)) good bad -> cinner N good good = (estimate_of k (length res), 0%R) ->
  (exists x, length x = N /\ crun e (cbasis z) x <> c0) /\
  forall x, length x = N -> crun e (cbasis z) x <> c0 -> estimate_of (value x res) (length res) = (1 - estimate_of k (length res))%R.
Proof.
  intros N a u oracle res e z good bad k qs H NE EV RN ND B Wu Wo NR BR DR Lz Zz Zr T HS.
  assert (HR : exists r, reflection a (Some u) 1%Qc None = Some r) by (unfold qae, amplitude_amplification in H; destruct (reflection a (Some u) 1%Qc None); [eauto|discriminate]).
  destruct HR as [r HR]. split; [apply (outcomes N a u oracle r z res HR NE ND B Wu Wo Lz NR BR DR e H)|]. intros x L NZ.
  assert (ZR : forall q, In q res -> getbit z q = false) by (intros q I; unfold zero_on in Zr; rewrite forallb_forall in Zr; apply negb_true_iff, Zr, I).
  set (n := length res) in *. assert (En : exists m, n = S m) by (unfold n; destruct res; [congruence|eexists; reflexivity]). destruct En as [m En].
  set (d := (2 ^ Z.of_nat m)%Z). assert (HD : (PI * IZR d / 2 ^ n = PI / 2)%R) by (unfold d; rewrite En, <- pow_IZR; cbn [pow]; field; apply pow_nonzero; lra).
  destruct (estimate N a u oracle r z res HR NE ND B Wu Wo Lz Zz NR BR DR ZR good bad T k HS d) with (e := e) (x := x) as [V|V]; try assumption.
  - rewrite <- Nat.negb_even, EV. cbn [negb]. fold n. rewrite cexpi_frac, HD. replace (2 * (PI / 2))%R with PI by field. rewrite cos_PI, sin_PI. reflexivity.
  - rewrite V. unfold estimate_of. fold n. rewrite sin2_value. rewrite plus_IZR, Rmult_plus_distr_l. unfold Rdiv at 1 2. rewrite Rmult_plus_distr_r. fold (PI * IZR d / 2 ^ n)%R (PI * IZR k / 2 ^ n)%R. rewrite HD.
    rewrite sin_plus, sin_PI2, cos_PI2. set (t := (PI * IZR k / 2 ^ n)%R). pose proof (sin2_cos2 t) as SC. unfold Rsqr in SC. lra.
  - rewrite V. unfold estimate_of. fold n. rewrite sin2_value. rewrite minus_IZR, Rmult_minus_distr_l. unfold Rdiv at 1 2. rewrite Rmult_minus_distr_r. fold (PI * IZR d / 2 ^ n)%R (PI * IZR k / 2 ^ n)%R. rewrite HD.
    rewrite sin_minus, sin_PI2, cos_PI2. set (t := (PI * IZR k / 2 ^ n)%R). pose proof (sin2_cos2 t) as SC. unfold Rsqr in SC. lra.
Qed.
Print Assumptions C75_exact.
Print Assumptions C75_array_refuted.

(** ** example: ry(pi / 4) on a qubit, the oracle is z (documentation of QAE) *)
Definition demo_state : body := [(gRY q_quarter, [0])].
Definition demo_oracle : body := [(Pauli PZ, [0])].
Definition part (b : bool) (psi : list bool -> cplx) : list bool -> cplx := fun x => if Bool.eqb (getbit x 0) b then psi x else c0.
Lemma oracle_tags N psi : ctags N demo_oracle psi (part true psi) (part false psi).
Proof.
  intros x L. unfold demo_oracle. rewrite !(FourierProofs.run_cons c0 c1 cadd cmul copp cexpi ccos csin ci). unfold run_circuit. cbn [fold_left].
  rewrite !(RefProofs.run_z c0 c1 cadd cmul csub copp complex_ring cexpi ccos csin ci). unfold part. destruct (getbit x 0); cbn [Bool.eqb]; (split; [ring|split; ring]).
Qed.
Lemma demo_run z x : crun demo_state (cbasis z) x = cadd (cmul (u3_matrix Qcplus cmul copp cexpi ccos csin q_quarter 0%Qc 0%Qc 0%Qc (getbit x 0) false) (cbasis z (setbit x 0 false)))
  (cmul (u3_matrix Qcplus cmul copp cexpi ccos csin q_quarter 0%Qc 0%Qc 0%Qc (getbit x 0) true) (cbasis z (setbit x 0 true))).
Proof. reflexivity. Qed.
Lemma cexpi_0 : cexpi 0%Qc = c1. Proof. apply (CtrlProofs.e_0 c0 c1 cadd cmul copp cexpi ccos csin ci complex_euler). Qed.
Lemma eighth : csin q_quarter = (sin (PI / 8), 0%R).
Proof. unfold csin, CtrlComplex.angle, q_quarter, Q2R. cbn. f_equal. f_equal. field. Qed.
Example C75_hypotheses : (exists e, qae [Variable_ [0]] demo_state demo_oracle [1; 2; 3] = Some e) /\ within 4 [0] demo_state /\ within 4 [0] demo_oracle /\
  ctags 4 demo_oracle (crun demo_state (cbasis [false; false; false; false])) (part true (crun demo_state (cbasis [false; false; false; false]))) (part false (crun demo_state (cbasis [false; false; false; false]))) /\
  cinner 4 (part true (crun demo_state (cbasis [false; false; false; false]))) (part true (crun demo_state (cbasis [false; false; false; false]))) = (estimate_of 1 3, 0%R).
Proof.
  split; [eexists; reflexivity|]. split; [apply within_1; [constructor|repeat constructor; intros []|reflexivity|intros q [<-|[]]; lia|apply incl_refl]|].
  split; [apply within_1; [constructor|repeat constructor; intros []|reflexivity|intros q [<-|[]]; lia|apply incl_refl]|]. split; [apply oracle_tags|].
  unfold inner. cbn [all_bits map app total fold_right]. unfold part. cbn [getbit nth Bool.eqb]. rewrite !demo_run. cbn [getbit nth setbit]. unfold basis. cbn [bits_eqb Bool.eqb andb]. unfold u3_matrix. rewrite cexpi_0, eighth.
  unfold estimate_of. replace (PI * 1 / 2 ^ 3)%R with (PI / 8)%R by (cbn; field). apply cplx_eq; cbn; ring.
Qed.
(** the outcomes are 1 and 7, that is 0.125 and 0.875 *)
Example C75_example : forall e x, qae [Variable_ [0]] demo_state demo_oracle [1; 2; 3] = Some e -> length x = 4 ->
  crun e (cbasis [false; false; false; false]) x <> c0 -> (value x [1; 2; 3] = 1%Z \/ value x [1; 2; 3] = 7%Z).
Proof.
  intros e x H L NZ. destruct C75_hypotheses as (_ & Wu & Wo & T & HS).
  destruct (C75_exact 4 [Variable_ [0]] demo_state demo_oracle [1; 2; 3] e [false; false; false; false] _ _ 1%Z H ltac:(discriminate) eq_refl
    ltac:(repeat constructor; cbn; lia) ltac:(intros q I; cbn in I; lia) Wu Wo ltac:(repeat constructor; cbn; lia) ltac:(intros q I; cbn in I; lia)
    ltac:(intros q I J; cbn in I, J; lia) eq_refl eq_refl eq_refl T HS) as [_ X]. exact (proj1 (X x L NZ)).
Qed.
(** an array with one element of two qubits; every state is good, but the estimate is 0 *)
Example C75_array_example : exists e, qae [Array_ [[0; 1]]] [qX 0] demo_oracle [2] = Some e /\ estimate_of 1 1 = 1%R /\
  cinner 3 (part true (crun [qX 0] (cbasis [false; false; false]))) (part true (crun [qX 0] (cbasis [false; false; false]))) = (estimate_of 1 1, 0%R) /\
  (exists x, length x = 3 /\ crun e (cbasis [false; false; false]) x <> c0) /\
  forall x, length x = 3 -> crun e (cbasis [false; false; false]) x <> c0 -> estimate_of (value x [2]) 1 = 0%R.
Proof.
  assert (E1 : estimate_of 1 1 = 1%R) by (unfold estimate_of; replace (PI * 1 / 2 ^ 1)%R with (PI / 2)%R by (cbn; field); rewrite sin_PI2; ring).
  assert (HS : cinner 3 (part true (crun [qX 0] (cbasis [false; false; false]))) (part true (crun [qX 0] (cbasis [false; false; false]))) = (estimate_of 1 1, 0%R)).
  { rewrite E1. unfold inner. cbn [all_bits map app total fold_right]. unfold part. cbn [getbit nth Bool.eqb]. unfold qX. rewrite !(FourierProofs.run_cons c0 c1 cadd cmul copp cexpi ccos csin ci). unfold run_circuit. cbn [fold_left].
    rewrite !(RefProofs.run_x c0 c1 cadd cmul csub copp complex_ring cexpi ccos csin ci). cbn [getbit nth setbit negb]. unfold basis. cbn [bits_eqb Bool.eqb andb]. apply cplx_eq; cbn; ring. }
  eexists. split; [reflexivity|]. split; [exact E1|]. split; [exact HS|]. rewrite <- (Rminus_diag_eq 1 (estimate_of 1 1) (eq_sym E1)).
  apply (C75_array_refuted 3 [Array_ [[0; 1]]] [qX 0] demo_oracle [2] _ [false; false; false] (part true (crun [qX 0] (cbasis [false; false; false]))) (part false (crun [qX 0] (cbasis [false; false; false]))) 1%Z eq_refl); try reflexivity; try discriminate; try exact HS.
  - repeat constructor; cbn; lia.
  - intros q I. cbn in I. lia.
  - apply within_1; [constructor|repeat constructor; intros []|reflexivity|intros q [<-|[]]; lia|intros q [<-|[]]; left; reflexivity].
  - apply within_1; [constructor|repeat constructor; intros []|reflexivity|intros q [<-|[]]; lia|intros q [<-|[]]; left; reflexivity].
  - repeat constructor; cbn; lia.
  - intros q I. cbn in I. lia.
  - intros q I J. cbn in I, J. lia.
  - apply oracle_tags.
Qed.
