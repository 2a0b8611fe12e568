(** C95: iterative amplitude estimation. *)
From Coq Require Import Reals Lra Lia List Arith ZArith Psatz QArith Qcanon.
Import ListNotations.
From Verif.Inverse Require Import InvModel InvSpec InvProofs.
From Verif.CtrlOps Require Import CtrlModel CtrlSpec CtrlComplex.
From Verif.Fourier Require Import FourierModel FourierSpec RegProofs.
From Verif.Amplify Require Import AmpModel AmpSpec UnitaryProofs RefProofs Conj AmpComplex AmpProperties.
From Verif.Estimate Require Import EstModel EstSpec EstProofs EstCircuit.
Local Open Scope R_scope.

(** If every measured share is within the tolerance of the algorithm, the result is not further than eps from the probability of the good states *)
Theorem C95_estimate a measure alpha eps fuel r cs : 0 <= a <= 1 -> shares measure -> accurate E a measure -> iqae measure alpha eps fuel = Some (r, cs) -> Rabs (r - a) <= eps.
Proof.
  intros HA SH AC H. unfold iqae in H. destruct (loop measure alpha eps fuel (start eps)) as [s|] eqn:L; [|discriminate]. injection H as <- _.
  destruct (root_angle a HA) as [T1 T2]. set (t := asin (sqrt a)) in *.
  assert (H0 : holds eps t (start eps)) by (unfold holds, start; cbn [K_i m_i brk INR]; split; [reflexivity|]; split; [lra|left; lra]).
  destruct (hold_loop measure alpha eps SH t AC fuel _ _ H0 L) as [(_ & _ & Q) B]. destruct Q as [Q|[Q1 Q2]]; [lra|]. rewrite <- T2. eapply Rle_trans; [apply sq_lipschitz|]. rewrite Q1 in B. unfold Rabs in *. destruct (Rcase_abs _), (Rcase_abs _); lra.
Qed.
Print Assumptions C95_estimate.
(** It ends, whatever is measured: after the first n + 1 passes if pi <= 4 eps 3^(n + 1) *)
Theorem C95_terminates measure alpha eps n : shares measure -> PI <= 4 * eps * 3 ^ S n -> exists r cs, iqae measure alpha eps (S n) = Some (r, cs) /\ (length cs <= S n)%nat.
Proof.
  intros SH H. unfold iqae. cbn [loop]. destruct (Rlt_dec (2 * eps) (brk (start eps))) as [B|B]; [|cbn in B; lra]. pose proof (grow_start eps) as G0. destruct (grow measure alpha eps SH _ G0) as [G L].
  destruct (loop_ends measure alpha eps SH n _ G) as (t & -> & LT).
  - intros Q. rewrite Q in L. discriminate.
  - destruct G as (_ & _ & G3 & _). rewrite L in G3. change (length (calls (start eps))) with 0%nat in G3. cbn [pow] in *. assert (0 < 3 ^ n) by (apply pow_lt; lra). assert (EP : 0 < eps) by (pose proof PI_RGT_0; destruct (Rlt_or_le 0 eps); [assumption|exfalso; nra]). assert (0 < eps * 3 ^ n) by nra. nra.
  - eexists. eexists. split; [reflexivity|]. rewrite L in LT. cbn in LT. lia.
Qed.
Print Assumptions C95_terminates.
(** more fuel does not change the result *)
Theorem C95_result measure alpha eps f f' r r' : iqae measure alpha eps f = Some r -> iqae measure alpha eps f' = Some r' -> r = r'.
Proof.
  unfold iqae. assert (D : forall f f' s u v, loop measure alpha eps f s = Some u -> loop measure alpha eps f' s = Some v -> u = v).
  { clear. induction f as [|f IH]; intros f' s u v; destruct f' as [|f']; cbn [loop]; destruct (Rlt_dec (2 * eps) (brk s)); try discriminate; try congruence. apply IH. }
  intros H H'. destruct (loop measure alpha eps f (start eps)) as [u|] eqn:U; [|discriminate]. destruct (loop measure alpha eps f' (start eps)) as [v|] eqn:V; [|discriminate]. rewrite (D _ _ _ _ _ U V) in H. congruence.
Qed.
Print Assumptions C95_result.
(** The confidence: Hoeffding's bounds for the calls, with the shots that they get, add up to at most alpha, whatever is measured *)
Theorem C95_confidence measure alpha eps fuel r cs : shares measure -> 0 < alpha -> 0 < eps <= 1 / 2 -> iqae measure alpha eps fuel = Some (r, cs) -> rsum (map (fun c => hoeffding E (snd c)) cs) <= alpha.
Proof.
  intros SH HA EP H. unfold iqae in H. destruct (loop measure alpha eps fuel (start eps)) as [s|] eqn:L; [|discriminate]. injection H as _ <-.
  assert (S0 : small alpha eps (start eps)) by (split; [apply grow_start|split; [left; reflexivity|intros k N []]]). destruct (small_loop measure alpha eps SH fuel _ _ EP (fun _ => eq_refl) S0 L) as (_ & Su & Sm).
  pose proof F_pos as FP. pose proof PI_RGT_0 as PP. assert (CP : 0 < C) by (unfold C; apply Rdiv_lt_0_compat; lra).
  assert (Q : rsum (map (fun c => hoeffding E (snd c)) (calls s)) <= C * alpha * eps * Ksum (calls s)).
  { clear Su L. induction (calls s) as [|[k N] l IH]; [unfold Ksum; cbn; lra|]. specialize (IH (fun k' N' I => Sm k' N' (or_intror I))). destruct (Sm k N (or_introl eq_refl)) as [-> _]. pose proof (shots_enough alpha eps (2 * k + 1) HA ltac:(lra) ltac:(lia)) as W. rewrite plus_INR, mult_INR in W. cbn [INR] in W. unfold Ksum in *. cbn [map rsum fst snd]. lra. }
  eapply Rle_trans; [exact Q|]. destruct Su as [->|Su]; [unfold Ksum; cbn; lra|]. assert (CV : C * ((6 * F + PI) / 4) = 1) by (unfold C; field; lra). replace (C * alpha * eps * Ksum (calls s)) with (C * (eps * Ksum (calls s)) * alpha) by ring. rewrite <- (Rmult_1_l alpha) at 2. apply Rmult_le_compat_r; [lra|]. rewrite <- CV. apply Rmult_le_compat_l; lra.
Qed.
Print Assumptions C95_confidence.
(** Every call has at least one shot *)
Theorem C95_shots measure alpha eps fuel r cs k N : shares measure -> 0 < alpha < 2 -> 0 < eps <= 1 / 2 -> iqae measure alpha eps fuel = Some (r, cs) -> In (k, N) cs -> (0 < N)%Z.
Proof.
  intros SH HA EP H I. pose proof (C95_confidence measure alpha eps fuel r cs SH (proj1 HA) EP H) as Q. assert (P : hoeffding E N < 2).
  { eapply Rle_lt_trans; [|exact (proj2 HA)]. eapply Rle_trans; [|exact Q]. clear - I. induction cs as [|c l IH]; [destruct I|]. assert (Z : 0 <= rsum (map (fun c => hoeffding E (snd c)) l)) by (clear; induction l as [|c l IH]; cbn [map rsum]; [lra|]; unfold hoeffding at 1; pose proof (exp_pos (- 2 * IZR (snd c) * E ^ 2)); lra). cbn [map rsum].
    destruct I as [->|I]; [cbn [snd]; lra|]. specialize (IH I). unfold hoeffding at 2. pose proof (exp_pos (- 2 * IZR (snd c) * E ^ 2)). lra. }
  unfold hoeffding in P. assert (X : exp (- 2 * IZR N * E ^ 2) < exp 0) by (rewrite exp_0; lra). apply exp_lt_inv in X. pose proof E_pos as EP'. assert (0 < E ^ 2) by (apply pow_lt; lra). apply lt_IZR. nra.
Qed.
Print Assumptions C95_shots.
(** The effort: a call with k > 0 amplification steps has (2 k + 1) 4 eps < pi *)
Theorem C95_effort measure alpha eps fuel r cs k N : shares measure -> 0 < eps <= 1 / 2 -> iqae measure alpha eps fuel = Some (r, cs) -> In (k, N) cs -> k = 0%nat \/ (2 * INR k + 1) * (4 * eps) < PI.
Proof.
  intros SH EP H I. unfold iqae in H. destruct (loop measure alpha eps fuel (start eps)) as [s|] eqn:L; [|discriminate]. injection H as _ <-.
  assert (S0 : small alpha eps (start eps)) by (split; [apply grow_start|split; [left; reflexivity|intros k' N' []]]). destruct (small_loop measure alpha eps SH fuel _ _ EP (fun _ => eq_refl) S0 L) as (_ & _ & Sm). apply (Sm k N I).
Qed.
Print Assumptions C95_effort.

(** ** The hypotheses can be met: shares that are the probabilities themselves, a precision of 1/100 *)
Example exact_shares a : shares (fun _ k => amplified a k) /\ accurate E a (fun _ k => amplified a k).
Proof.
  split; intros i k; [unfold amplified; match goal with |- context [sin ?x] => pose proof (sin2_cos2 x) as P end; unfold Rsqr in P; nra|]. rewrite Rminus_diag_eq, Rabs_R0 by reflexivity. pose proof E_pos. lra.
Qed.
Example estimate_of_a_third : exists r cs, iqae (fun _ k => amplified (1 / 3) k) (1 / 20) (1 / 100) 5 = Some (r, cs) /\ Rabs (r - 1 / 3) <= 1 / 100 /\ rsum (map (fun c => hoeffding E (snd c)) cs) <= 1 / 20.
Proof.
  destruct (exact_shares (1 / 3)) as [SH AC]. destruct (C95_terminates (fun _ k => amplified (1 / 3) k) (1 / 20) (1 / 100) 4 SH) as (r & cs & H & _); [pose proof PI_4; lra|]. exists r, cs. split; [exact H|]. split.
  - apply (C95_estimate (1 / 3) (fun _ k => amplified (1 / 3) k) (1 / 20) _ 5 r cs); try assumption. lra.
  - apply (C95_confidence (fun _ k => amplified (1 / 3) k) (1 / 20) (1 / 100) 5 r cs); try assumption; lra.
Qed.

(** ** The quantum part: the circuit with k amplification steps gives a one with the probability that is assumed above *)
Lemma z_run q psi x : crun [z_gate q] psi x = if getbit x q then copp (psi x) else psi x.
Proof.
  change (crun [z_gate q] psi x) with (InvSpec.effect Qcplus c0 c1 cadd cmul copp cexpi ccos csin ci (Pauli PZ) [q] psi x). cbn [InvSpec.effect]. unfold on_qubit. cbn [nth pauli_matrix]. destruct (getbit x q) eqn:G.
  - rewrite <- G, InvProofs.setbit_get. apply cplx_eq; cbn; ring.
  - rewrite <- G, InvProofs.setbit_get. apply cplx_eq; cbn; ring.
Qed.
Definition ones (tar : nat) (psi : list bool -> cplx) (x : list bool) : cplx := if getbit x tar then psi x else c0.
Definition zeros (tar : nat) (psi : list bool -> cplx) (x : list bool) : cplx := if getbit x tar then c0 else psi x.
Lemma z_tags N tar psi : ctags N [z_gate tar] psi (ones tar psi) (zeros tar psi).
Proof. intros x _. rewrite !z_run. unfold ones, zeros. destruct (getbit x tar); repeat split; apply cplx_eq; cbn; ring. Qed.
Lemma ones_probability N tar psi : cinner N (ones tar psi) (ones tar psi) = (probability_of_one N tar psi, 0%R).
Proof.
  unfold inner, probability_of_one. induction (all_bits N) as [|x l IH]; [reflexivity|]. cbn [total fold_right]. unfold total in IH. rewrite IH. unfold ones. destruct (getbit x tar); apply cplx_eq; cbn; ring.
Qed.
Theorem C95_amplified N a u k tar c z : let qs := chosen a None in
  state_prep a u k tar = Some c -> a <> [] -> Nat.odd (length (first_entry a)) = true -> NoDup qs -> (forall q, In q qs -> (q < N)%nat) -> within N qs u -> In tar qs -> length z = N -> zero_on qs z = true ->
  let p := probability_of_one N tar (crun u (cbasis z)) in 0 <= p <= 1 /\ probability_of_one N tar (crun c (cbasis z)) = amplified p k.
Proof.
  intros qs H NE OD ND B Wu IT Lz Zz p. unfold state_prep in H. destruct (amplitude_amplification a u [z_gate tar] k None) as [d|] eqn:D; [|discriminate]. injection H as <-.
  assert (Wo : within N qs [z_gate tar]) by (split; [apply FourierFinal.wf_1; [constructor|reflexivity|apply B, IT]|intros o l q [Q|[]] I; injection Q as <- <-; destruct I as [<-|[]]; exact IT]).
  destruct (C74_angle N a u [z_gate tar] z _ _ Wu Wo Lz (z_tags N tar _)) as (theta & TH & Q). pose proof (C74_probability N a u [z_gate tar] k d z theta _ _ _ _ D NE OD ND B Wu Wo Lz Zz (z_tags N tar _) Q (z_tags N tar _)) as P.
  rewrite ones_probability in P, Q. apply (f_equal fst) in Q. apply (f_equal fst) in P. cbn [fst] in P, Q. fold p in Q. pose proof (sin2_cos2 theta) as S2. unfold Rsqr in S2. assert (R01 : 0 <= p <= 1) by nra. split; [exact R01|]. rewrite P. unfold amplified. destruct (root_angle p R01) as [T1 T2].
  assert (T : asin (sqrt p) = theta) by (apply Rle_antisym; apply root_order; try lra; rewrite ?T2, Q; lra). rewrite T, plus_INR, mult_INR. cbn [INR]. replace (1 + 1) with 2 by ring. ring.
Qed.
Print Assumptions C95_amplified.
(** The result for the circuits: if the measured shares are within the tolerance of the probabilities of a one in the circuits that are measured, the result is within eps of the probability of a one in the state that state_function prepares *)
Theorem C95_circuits N a u tar z measure alpha eps fuel r cs : let qs := chosen a None in
  a <> [] -> Nat.odd (length (first_entry a)) = true -> NoDup qs -> (forall q, In q qs -> (q < N)%nat) -> within N qs u -> In tar qs -> length z = N -> zero_on qs z = true -> shares measure ->
  (forall i k, exists c, state_prep a u k tar = Some c /\ Rabs (measure i k - probability_of_one N tar (crun c (cbasis z))) <= E) ->
  iqae measure alpha eps fuel = Some (r, cs) -> Rabs (r - probability_of_one N tar (crun u (cbasis z))) <= eps.
Proof.
  intros qs NE OD ND B Wu IT Lz Zz SH AC H. destruct (AC 0%nat 0%nat) as (c & Hc & _). destruct (C95_amplified N a u 0 tar c z Hc NE OD ND B Wu IT Lz Zz) as [R01 _]. apply (C95_estimate _ measure alpha eps fuel r cs R01 SH); [|exact H].
  intros i k. destruct (AC i k) as (d & Hd & Q). rewrite (proj2 (C95_amplified N a u k tar d z Hd NE OD ND B Wu IT Lz Zz)) in Q. exact Q.
Qed.
Print Assumptions C95_circuits.
(** a case: two qubits with Hadamard gates, the probabilities themselves as shares *)
Example two_hadamards : exists measure r cs, iqae measure (1 / 20) (1 / 100) 5 = Some (r, cs) /\ Rabs (r - probability_of_one 2 1 (crun [qH 0; qH 1] (cbasis [false; false]))) <= 1 / 100.
Proof.
  set (a := [Variable_ [0]; Variable_ [1]]%nat). set (u := [qH 0; qH 1]).
  assert (D : forall k, exists c, state_prep a u k 1 = Some c) by (intros [|k]; eexists; reflexivity).
  assert (Wu : within 2 [0; 1]%nat u) by (split; [apply (FourierFinal.wf_app 2 [qH 0] [qH 1]); apply FourierFinal.wf_h; lia|intros o l q [Q|[Q|[]]] I; injection Q as <- <-; cbn in *; lia]).
  assert (ND : NoDup [0; 1]%nat) by (repeat constructor; cbn; lia). assert (B : forall q, In q [0; 1]%nat -> (q < 2)%nat) by (intros q I; cbn in I; lia).
  set (p := probability_of_one 2 1 (crun u (cbasis [false; false]))). destruct (exact_shares p) as [SH AC]. destruct (C95_terminates (fun _ k => amplified p k) (1 / 20) (1 / 100) 4 SH) as (r & cs & H & _); [pose proof PI_4; lra|]. exists (fun _ k => amplified p k), r, cs. split; [exact H|].
  apply (C95_circuits 2 a u 1 [false; false] (fun _ k => amplified p k) (1 / 20) (1 / 100) 5 r cs); try assumption; try reflexivity; try discriminate; [right; left; reflexivity|].
  intros i k. destruct (D k) as [c Hc]. exists c. split; [exact Hc|]. destruct (C95_amplified 2 a u k 1 c [false; false] Hc) as [_ Q]; try assumption; try reflexivity; try discriminate; [right; left; reflexivity|]. fold p in Q. rewrite Q, Rminus_diag_eq, Rabs_R0 by reflexivity. pose proof E_pos. lra.
Qed.
