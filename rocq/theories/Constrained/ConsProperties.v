(** C94: mixers that are made from an oracle. *)
From Coq Require Import Reals Lra List ZArith Bool Lia QArith Qcanon Ring_theory Ring.
Import ListNotations.
From Verif.Inverse Require Import InvModel InvSpec InvProofs.
From Verif.CtrlOps Require Import CtrlModel CtrlSpec CtrlComplex.
From Verif.Fourier Require Import FourierModel FourierSpec RegProofs FourierProofs.
From Verif.Amplify Require Import AmpModel AmpSpec UnitaryProofs RefProofs Conj AmpComplex ReflectProperties.
From Verif.Grover Require Import GroverModel GroverSpec GroverProofs GroverExact.
From Verif.Constrained Require Import ConsModel ConsSpec ConsProofs.
Local Open Scope nat_scope.
Add Ring complex_numbers_q : complex_ring.

(** The mixer exists: everything in it can be inverted *)
Theorem C94_defined m k phi beta : constrained_mixer m k phi beta <> None.
Proof.
  unfold constrained_mixer. destruct (steps_invertible (prep_psi m k phi) (prep_invertible m k phi)) as (v & -> & V). destruct (steps_invertible v V) as (u & -> & _). discriminate.
Qed.
Print Assumptions C94_defined.
(** Whatever number of winners is given: the mixer multiplies the state that the search prepares with exp(i beta) and leaves all states alone that are orthogonal to it *)
Theorem C94_any_amount m w k phi beta c psi x : constrained_mixer m k phi beta = Some c -> length x = m -> let g := ideal_grover m w phi k in
  acts m w c psi x = cadd (psi x) (cmul (cmul (csub (cis beta) c1) (cinner m g psi)) (g x)).
Proof.
  intros H L g. unfold constrained_mixer in H. destruct (invert_steps (prep_psi m k phi)) as [v|] eqn:V; [|discriminate]. destruct (invert_steps v) as [u|] eqn:U; [|discriminate]. injection H as <-.
  change (v ++ Zero_phase beta :: u) with (v ++ [Zero_phase beta] ++ u).
  rewrite (conjugated m w (prep_psi m k phi) v u beta psi x (prep_wf m k phi) V U L). rewrite (prep_state m w k phi x L). f_equal. f_equal. f_equal. apply (UnitaryProofs.inner_ext c0 cadd cmul cconj); [intros y Ly; apply prep_state, Ly|reflexivity].
Qed.
Print Assumptions C94_any_amount.
(** With the right number of allowed states: forbidden states keep their amplitudes, and the mean of the amplitudes of the allowed states is multiplied with exp(i beta) *)
Theorem C94_mixer m w k beta c psi x : let M := length (allowed m w) in 0 < M -> exact_iterations (2 ^ m) M k ->
  constrained_mixer m k (exact_phi (2 ^ m) M k) beta = Some c -> length x = m -> acts m w c psi x = mixed m w beta psi x.
Proof.
  intros M HM HK H L. rewrite (C94_any_amount m w k _ beta c psi x H L). unfold mixed. set (phi := exact_phi (2 ^ m) M k). set (g := ideal_grover m w phi k).
  assert (Z : forall y, length y = m -> w y = false -> g y = c0) by (intros y Ly W; apply exact_losers; assumption). destruct (w x) eqn:W; [|rewrite (Z x L W); ring].
  assert (N : norm2 (g x) = (/ INR M)%R) by (apply exact_winners; assumption).
  assert (K : forall y, length y = m -> w y = true -> g y = g x) by (intros y Ly Wy; unfold g; rewrite !ideal_pair, W, Wy by assumption; reflexivity).
  assert (I : cinner m g psi = cmul (cconj (g x)) (csum (allowed m w) psi)).
  { unfold inner, allowed. rewrite <- total_allowed. apply total_ext. intros y Iy. apply all_bits_length in Iy. destruct (w y) eqn:Wy; [rewrite (K y Iy Wy); reflexivity|rewrite (Z y Iy Wy)]. apply cplx_eq; cbn; ring. }
  rewrite I. unfold mean. fold M. assert (E : cmul (cconj (g x)) (g x) = ((/ INR M)%R, 0%R)) by (rewrite conj_self; unfold re; f_equal; exact N). rewrite <- E. ring.
Qed.
Print Assumptions C94_mixer.
(** Circuits of layers: only allowed states are measured, at all angles, if the phase operator in between is any multiplication of amplitudes *)
Theorem C94_keeps m w (layers : list ((list bool -> cplx) * nat * R * list step)) psi : let M := length (allowed m w) in 0 < M ->
  (forall f k beta c, In (f, k, beta, c) layers -> exact_iterations (2 ^ m) M k /\ constrained_mixer m k (exact_phi (2 ^ m) M k) beta = Some c) ->
  (forall x, length x = m -> w x = false -> psi x = c0) ->
  forall x, length x = m -> w x = false -> fold_left (fun phi '(f, k, beta, c) => acts m w c (fun y => cmul (f y) (phi y))) layers psi x = c0.
Proof.
  intros M HM. revert psi. induction layers as [|[[[f k] beta] c] l IH]; intros psi H P x L W; [apply P; assumption|]. cbn [fold_left]. apply IH; [intros f' k' b' c' I; apply (H f' k' b' c'); right; exact I| |exact L|exact W].
  intros y Ly Wy. destruct (H f k beta c (or_introl eq_refl)) as [HK HC]. rewrite (C94_mixer m w k beta c _ y HM HK HC Ly). unfold mixed. rewrite Wy, P by assumption. ring.
Qed.
Print Assumptions C94_keeps.
(** Between any two allowed states there is an amplitude, unless the mixer does nothing *)
Theorem C94_reaches m w k beta c x y : let M := length (allowed m w) in exact_iterations (2 ^ m) M k -> constrained_mixer m k (exact_phi (2 ^ m) M k) beta = Some c ->
  length x = m -> length y = m -> w x = true -> w y = true -> x <> y -> cis beta <> c1 -> acts m w c (cbasis y) x <> c0.
Proof.
  intros M HK H Lx Ly Wx Wy D B. assert (I : In y (allowed m w)) by (apply filter_In; split; [apply all_bits_in, Ly|exact Wy]). assert (HM : 0 < M) by (unfold M; destruct (allowed m w); [destruct I|cbn; lia]).
  rewrite (C94_mixer m w k beta c _ x HM HK H Lx). unfold mixed. rewrite Wx. assert (Q : cbasis y x = c0) by (unfold basis; destruct (bits_eqb x y) eqn:E; [apply bits_eqb_eq in E; contradiction|reflexivity]). rewrite Q.
  assert (Su : csum (allowed m w) (cbasis y) = c1).
  { unfold allowed. pose proof (inner_basis c0 c1 cadd cmul csub copp complex_ring cexpi ccos csin cconj complex_conjugation m y (fun z => if w z then c1 else c0) Ly) as E. cbv beta in E. rewrite Wy in E. etransitivity; [|exact E]. clear E. unfold inner, csum. clear. induction (all_bits m) as [|z l IH]; [reflexivity|].
    cbn [filter total fold_right]. unfold total in IH. rewrite <- IH. clear IH. destruct (w z); cbn [fold_right]; destruct (fold_right (fun x s => cadd (cbasis y x) s) c0 (filter w l)) as [p q]; unfold basis; destruct (bits_eqb z y); apply cplx_eq; cbn; ring. }
  unfold mean. fold M. rewrite Su. intros E. apply B. assert (MP : (0 < INR M)%R) by (apply lt_0_INR, HM). destruct (cis beta) as [p q]. unfold cadd, csub, cmul, c0, c1 in E. cbn in E. injection E as E1 E2. unfold c1.
  assert (0 < / INR M)%R by (apply Rinv_0_lt_compat, MP). f_equal; nra.
Qed.
Print Assumptions C94_reaches.
(** grover_mixer: the mean of all amplitudes and the deviations from it, up to the sign of the deviations *)
Theorem C94_grover_mixer m beta c psi x : grover_mixer (seq 0 m) beta = Some c -> length x = m ->
  crun c psi x = copp (cadd (csub (psi x) (mean (all_bits m) psi)) (cmul (cexpi beta) (mean (all_bits m) psi))).
Proof.
  intros H L. assert (Q : chosen [Variable_ (seq 0 m)] None = seq 0 m) by (cbn; rewrite app_nil_r; reflexivity). destruct m as [|n]; [discriminate H|]. set (m := S n) in *.
  assert (B : forall q, In q (seq 0 m) -> q < m) by (intros q I; apply in_seq in I; lia).
  pose proof (C73_state c0 c1 cadd cmul csub copp complex_ring cexpi ccos csin ci complex_euler cconj complex_conjugation m [Variable_ (seq 0 m)] (h_all [Variable_ (seq 0 m)]) beta None c H ltac:(discriminate) eq_refl) as E.
  rewrite Q in E. specialize (E ltac:(rewrite h_all_eq, Q; apply h_within, B) (seq_NoDup _ _) B psi x L). cbv zeta in E. rewrite E, (store_all m x L), (h_start m x L).
  rewrite (UnitaryProofs.inner_ext c0 cadd cmul cconj m _ (uniform_state m) psi psi (h_start m) (fun _ _ => eq_refl)).
  assert (I : cmul (cinner m (uniform_state m) psi) (uniform_state m x) = mean (all_bits m) psi).
  { unfold inner, mean. rewrite (total_ext c0 cadd _ _ (fun y => cmul (if (fun _ : list bool => true) y then cconj (uniform_state m x) else c0) (psi y))) by reflexivity. rewrite (total_allowed (all_bits m) (fun _ => true)), filter_all, bits_count.
    transitivity (cmul (cmul (cconj (uniform_state m x)) (uniform_state m x)) (csum (all_bits m) psi)); [ring|]. f_equal. change (uniform_state m x) with (re (/ sqrt (INR (2 ^ m)))). rewrite conj_re, <- re_mul. unfold re. f_equal. rewrite <- Rinv_mult, sqrt_sqrt; [reflexivity|]. apply Rlt_le, inr_pos. }
  rewrite I. ring.
Qed.
Print Assumptions C94_grover_mixer.

(** ** The hypotheses can be met: two qubits of which exactly one is 1 (the example of the documentation, with two qubits): two of four states, one iteration *)
Definition differ (x : list bool) : bool := xorb (getbit x 0) (getbit x 1).
Example differ_amount : length (allowed 2 differ) = 2. Proof. reflexivity. Qed.
Example differ_iterations : exact_iterations (2 ^ 2) 2 1.
Proof.
  unfold exact_iterations. assert (T : exact_theta (2 ^ 2) 2 = (PI / 4)%R).
  { unfold exact_theta. replace (INR 2 / INR (2 ^ 2))%R with (Rsqr (/ sqrt 2)) by (unfold Rsqr; rewrite <- Rinv_mult, sqrt_sqrt by lra; cbn; field). rewrite sqrt_Rsqr by (apply Rlt_le, Rinv_0_lt_compat, sqrt_lt_R0; lra).
    rewrite <- (Rmult_1_l (/ sqrt 2)). change (1 * / sqrt 2)%R with (1 / sqrt 2)%R. rewrite <- sin_PI4. apply asin_sin. pose proof PI_RGT_0. split; lra. }
  rewrite T. pose proof PI_RGT_0. replace (PI / (4 * (PI / 4)))%R with 1%R by (field; lra). cbn [INR]. lra.
Qed.
Example differ_reached beta c : constrained_mixer 2 1 (exact_phi (2 ^ 2) 2 1) beta = Some c -> cis beta <> c1 -> acts 2 differ c (cbasis [true; false]) [false; true] <> c0.
Proof. intros H B. apply (C94_reaches 2 differ 1 beta c); try reflexivity; try assumption; try discriminate. exact differ_iterations. Qed.
Example differ_kept beta c : constrained_mixer 2 1 (exact_phi (2 ^ 2) 2 1) beta = Some c -> acts 2 differ c (cbasis [true; true]) [true; true] = c1.
Proof. intros H. rewrite (C94_mixer 2 differ 1 beta c); [reflexivity|cbn; lia|exact differ_iterations|exact H|reflexivity]. Qed.
