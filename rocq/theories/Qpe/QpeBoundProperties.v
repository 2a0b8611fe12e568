(** Property C71, the probability of the best estimate (over the complex numbers, built from the standard library's reals). *)
From Coq Require Import Reals Lra List ZArith Bool Lia QArith Qreals Qcanon.
Import ListNotations.
From Verif.Inverse Require Import InvModel InvSpec InvProofs.
From Verif.CtrlOps Require Import CtrlModel CtrlSpec CtrlProofs CtrlComplex.
From Verif.Fourier Require Import FourierModel FourierSpec RegProofs FourierProofs FourierFinal AdderProofs.
From Verif.Hybrid Require Import HybridSpec HybridFinal.
From Verif.Qpe Require Import QpeModel QpeSpec QpeProofs QpeMain QpeBound BoundProofs QpeProperties.
Local Notation value := FourierSpec.value.
Local Open Scope R_scope.
Notation crun := (run_circuit Qcplus c0 c1 cadd cmul copp cexpi ccos csin ci).

Lemma norm_power n : norm_sq (power c1 cmul (cadd c1 c1) n) = 2 ^ n * 2 ^ n.
Proof. induction n as [|n IH]; [unfold norm_sq; cbn; ring|]. cbn [power pow]. rewrite norm_mul, IH. unfold norm_sq, cadd, c1. cbn. ring. Qed.

(** QPE on a state psi with the target at 0 that U multiplies with exp(i pi theta), theta being any rational number: if
    2 pi y / 2^n is a best approximation of the phase (it is off by at most half a step, pi / 2^n, modulo 2 pi), the
    estimate y has at least 4 / pi^2 of the probability of every basis state of psi. *)
Theorem C71_nearest : forall N res U iter_spec theta psi c y m, qpe U iter_spec res = Some c ->
  NoDup res -> (forall q, In q res -> (q < N)%nat) -> (forall a, acts_off N res (U a)) -> blank c0 psi res ->
  repeats c0 c1 cadd cmul copp cexpi ccos csin ci N (length res) U iter_spec theta psi ->
  (- half ^ length res <= theta - angle y (length res) - zq (2 * m))%Qc -> (theta - angle y (length res) - zq (2 * m) <= half ^ length res)%Qc ->
  forall x, length x = N -> value x res = y ->
  4 / (PI * PI) * norm_sq (psi (store x res 0)) <= norm_sq (crun c psi x).
Proof.
  intros N res U iter theta psi c y m H ND LR OFF B EIG D1 D2 x L V. set (n := length res) in *. set (d := (theta - angle y n - zq (2 * m))%Qc) in *.
  pose proof (C71_amplitude c0 c1 cadd cmul csub copp complex_ring cexpi ccos csin ci complex_euler N res U iter theta psi c H ND LR OFF B EIG x L) as A. fold n in A.
  apply (f_equal norm_sq) in A. rewrite !norm_mul, norm_power, V in A.
  replace (FourierSpec.total c0 cadd (all_bits n) (fun j => cexpi (zq (number j) * theta - angle (number j * y) n)%Qc))
    with (FourierSpec.total c0 cadd (all_bits n) (fun b => cexpi (zq (number b) * d)%Qc)) in A.
  2: { apply FourierProofs.total_ext. intros b _. transitivity (cexpi (zq (number b) * d + zq (2 * (number b * m)))%Qc).
       - rewrite (CtrlProofs.e_add c0 c1 cadd cmul copp cexpi ccos csin ci complex_euler), (FourierProofs.e_even c0 c1 cadd cmul csub copp complex_ring cexpi ccos csin ci complex_euler). symmetry. unfold cmul, c1. destruct (cexpi _). cbn. f_equal; ring.
       - f_equal. unfold d. rewrite !angle_zq, !zq_mul. ring. }
  pose proof (sum_bound n d D1 D2) as K. set (s := norm_sq (FourierSpec.total _ _ _ _)) in *. set (p := norm_sq (psi (store x res 0))) in *. set (r := norm_sq (crun c psi x)) in *.
  assert (P0 : 0 < 2 ^ n * 2 ^ n) by (apply Rmult_lt_0_compat; apply pow_lt; lra). pose proof PI_RGT_0 as PP. assert (P2 : 0 < PI * PI) by nra.
  assert (Hp : 0 <= p) by (unfold p, norm_sq; nra).
  apply Rmult_le_reg_l with (PI * PI * (2 ^ n * 2 ^ n)); [nra|].
  replace (PI * PI * (2 ^ n * 2 ^ n) * (4 / (PI * PI) * p)) with (4 * (2 ^ n * 2 ^ n) * p) by (field; lra).
  replace (PI * PI * (2 ^ n * 2 ^ n) * r) with (PI * PI * s * p) by (rewrite (Rmult_assoc (PI * PI) (2 ^ n * 2 ^ n)), A; ring).
  apply Rmult_le_compat_r; assumption.
Qed.
Print Assumptions C71_nearest.

(** the phase 1/3 (of 2 pi) with two qubits: 1/4 is the best estimate, and its probability is at least 4 / pi^2 *)
Definition third_U (_ : option nat) : body := [qP (Q2Qc (2 # 3)) 0].
Example C71_nearest_example : exists c, qpe third_U false [1; 2]%nat = Some c /\
  4 / (PI * PI) <= norm_sq (crun c (at_state [true; false; false]) [true; true; false]).
Proof.
  destruct (qpe third_U false [1; 2]%nat) as [c|] eqn:E; [|exfalso; exact (C71_defined _ _ _ E)]. exists c. split; [reflexivity|].
  assert (K : norm_sq (at_state [true; false; false] (store [true; true; false] [1; 2]%nat 0)) = 1) by (unfold norm_sq; cbn; ring).
  rewrite <- (Rmult_1_r (4 / (PI * PI))), <- K. eapply (C71_nearest 3 [1; 2]%nat third_U false (Q2Qc (2 # 3)) _ c 1 0); try eassumption; try reflexivity.
  - repeat constructor; cbn; lia.
  - intros q I. cbn in I. lia.
  - intros a. unfold third_U. apply off_p; [apply off_nil|lia|cbn; lia].
  - apply at_blank. intros q [<-|[<-|[]]]; reflexivity.
  - intros x L. unfold third_U. change (crun [qP (Q2Qc (2 # 3)) 0] (at_state [true; false; false]) x)
      with (InvSpec.effect Qcplus c0 c1 cadd cmul copp cexpi ccos csin ci (gP (Q2Qc (2 # 3))) [0%nat] (at_state [true; false; false]) x).
    rewrite (FourierProofs.run_p c0 c1 cadd cmul csub copp complex_ring cexpi ccos csin ci complex_euler).
    unfold at_state. destruct (bits_eqb x [true; false; false]) eqn:Eb.
    + apply bits_eqb_eq in Eb. subst x. cbn [getbit nth b2q]. rewrite Qcmult_1_r. reflexivity.
    + unfold cmul, c0. cbn. f_equal; ring.
  - intros H. vm_compute in H. discriminate.
  - intros H. vm_compute in H. discriminate.
Qed.
