(** Properties C65 (quantum Fourier transform) and C66 (Fourier adder). *)
From Coq Require Import List ZArith Bool QArith Qcanon Ring_theory Lia.
Import ListNotations.
From Verif.Inverse Require Import InvModel InvSpec InvProofs.
From Verif.CtrlOps Require Import CtrlModel CtrlSpec CtrlComplex.
From Verif.Fourier Require Import FourierModel FourierSpec RegProofs FourierProofs FourierFinal AdderProofs.
Local Open Scope nat_scope.

Section numbers.
Context {R : Type} (rO rI : R) (radd rmul rsub : R -> R -> R) (ropp : R -> R) (RT : ring_theory rO rI radd rmul rsub ropp eq).
Context (expi chalf shalf : Qc -> R) (im : R) (EU : euler rO rI radd rmul ropp expi chalf shalf im).
Notation run := (run_circuit Qcplus rO rI radd rmul ropp expi chalf shalf im).
Notation dft := (dft rO rI radd rmul expi chalf).

(** QFT(qv, exec_swap, qiskit_endian, inplace_mult = m) on a register of any size within any state: the amplitudes of the values of
    the register become their discrete Fourier transform with exp(2 pi i m k y / 2^n), for every combination of the flags. With the
    default flags both k and y read the register lowest qubit first. *)
Theorem C65_transform : forall qv exec_swap endian m c, QFT false qv exec_swap endian m = Some c ->
  forall psi x, register qv x -> run c psi x = dft m (negb endian) (xorb endian exec_swap) qv psi x.
Proof.
  intros qv sw en m c H psi x Rg. unfold QFT in H. destruct (qft_inner qv sw en m) as [d|] eqn:E; [|discriminate]. injection H as <-.
  exact (run_qft rO rI radd rmul rsub ropp RT expi chalf shalf im EU qv sw en m d psi x E Rg).
Qed.

(** QFT(inv = True): the transform with the other sign, input and output reading exchanged. *)
Theorem C65_inverse : forall qv exec_swap endian m c, QFT true qv exec_swap endian m = Some c ->
  forall psi x, register qv x -> run c psi x = dft (- m) (xorb endian exec_swap) (negb endian) qv psi x.
Proof.
  intros qv sw en m c H psi x Rg. unfold QFT in H. destruct (qft_inner qv sw en m) as [d|] eqn:E; [|discriminate].
  exact (run_qft_inv rO rI radd rmul rsub ropp RT expi chalf shalf im EU qv sw en m d c psi x E H Rg).
Qed.

(** The two undo each other. *)
Theorem C65_undo : forall qv exec_swap endian m c d, QFT false qv exec_swap endian m = Some c -> QFT true qv exec_swap endian m = Some d ->
  forall psi x, register qv x -> run d (run c psi) x = psi x /\ run c (run d psi) x = psi x.
Proof.
  intros qv sw en m c d H K psi x Rg. unfold QFT in H, K. destruct (qft_inner qv sw en m) as [e|] eqn:E; [|discriminate]. injection H as <-.
  apply (undo rO rI radd rmul rsub ropp RT expi chalf shalf im EU (length x) e d); auto. apply (wf_qft _ _ _ _ _ _ E); apply Rg.
Qed.

(** A transform is refused for even factors only. *)
Theorem C65_defined : forall inv qv exec_swap endian m, QFT inv qv exec_swap endian m = None <-> Z.odd m = false.
Proof. exact QFT_total. Qed.

(** The version for traced programs. *)
Theorem C65_jasp : forall qv exec_swap psi x, register qv x -> run (jasp_qft qv exec_swap) psi x = dft 1 false (negb exec_swap) qv psi x.
Proof. exact (run_jasp rO rI radd rmul rsub ropp RT expi chalf shalf im EU). Qed.

(** fourier_adder(k, b) for an integer k: the amplitude of every basis state x is found at the state where the register b holds
    b + k modulo 2^n and all other qubits are as in x. *)
Theorem C66_integer : forall k b c, fourier_adder (inl k) b true = Some c ->
  forall psi x, register b x -> run c psi (store x b (value x b + k)) = psi x.
Proof. intros k b c H psi x Rg. exact (adder_int rO rI radd rmul rsub ropp RT expi chalf shalf im EU k b c psi x H Rg). Qed.

(** fourier_adder(a, b) for a register a: b becomes b + a modulo 2^n, a and all other qubits keep their values. *)
Theorem C66_register : forall a b c, fourier_adder (inr a) b true = Some c ->
  forall psi x, register (a ++ b) x -> run c psi (store x b (value x b + value x a)) = psi x.
Proof. intros a b c H psi x Rg. exact (adder_quantum rO rI radd rmul rsub ropp RT expi chalf shalf im EU a b c psi x H Rg). Qed.

(** Without the transforms (perform_QFT = False) it applies phases only: exp(2 pi i a y / 2^n), y being b read highest qubit first. *)
Theorem C66_phases : forall a b c, fourier_adder a b false = Some c -> forall psi x,
  register (match a with inl _ => b | inr a => a ++ b end) x ->
  run c psi x = rmul (expi (angle ((match a with inl k => k | inr a => value x a end) * reading true (read x b)) (length b))) (psi x).
Proof.
  intros [k|a] b c H psi x Rg; unfold fourier_adder in H.
  - injection H as <-. rewrite (diag_int rO rI radd rmul rsub ropp RT expi chalf shalf im EU (length x) k (rev b) psi x eq_refl), rev_length, read_rev. reflexivity.
  - destruct (length b <? length a); [discriminate|]. injection H as <-. destruct Rg as [ND F].
    rewrite (diag_quantum rO rI radd rmul rsub ropp RT expi chalf shalf im EU (length x) a (rev b)); [rewrite rev_length, read_rev; reflexivity|..|reflexivity].
    + apply (Permutation.Permutation_NoDup (l := a ++ b)); [apply Permutation.Permutation_app_head, Permutation.Permutation_rev|exact ND].
    + intros q I. apply F, in_app_iff. left. exact I.
Qed.

(** It is refused for a register with more qubits than the target only. *)
Theorem C66_defined : forall a b perform_QFT, fourier_adder a b perform_QFT = None <-> exists r, a = inr r /\ length b < length r.
Proof.
  intros a b pq. assert (D : forall p, (if pq then match QFT false b false true 1 with Some v => conjugate v p | None => None end else Some p) <> None).
  { intros p. destruct pq; [|discriminate]. destruct (QFT false b false true 1) as [v|] eqn:E; [|apply C65_defined in E; discriminate].
    unfold QFT in E. destruct (qft_inner b false true 1) as [v'|] eqn:E'; [|discriminate]. injection E as ->. destruct (invert_some v (invertible_qft _ _ _ _ _ E')) as [w W]. unfold conjugate. rewrite W. discriminate. }
  unfold fourier_adder. destruct a as [k|r].
  - split; [intros H; exfalso; exact (D _ H)|]. intros (r & E & _). discriminate E.
  - destruct (Nat.ltb_spec (length b) (length r)) as [L|L]; split.
    + intros _. exists r. auto.
    + reflexivity.
    + intros H. exfalso. exact (D _ H).
    + intros (r' & E & L'). injection E as <-. lia.
Qed.
End numbers.
Print Assumptions C65_transform.
Print Assumptions C65_inverse.
Print Assumptions C65_undo.
Print Assumptions C65_defined.
Print Assumptions C65_jasp.
Print Assumptions C66_integer.
Print Assumptions C66_register.
Print Assumptions C66_phases.
Print Assumptions C66_defined.

(** ** examples *)
Lemma reg_of qs x : NoDup qs -> forallb (fun q => q <? length x) qs = true -> register qs x.
Proof. intros N F. split; [exact N|]. intros q I. rewrite forallb_forall in F. apply Nat.ltb_lt, F, I. Qed.
Ltac nodup := repeat (constructor; [cbn; lia|]); constructor.
Definition demo : list bool := [true; false; true; true; false; true].
Example demo_register : register [4; 0; 3] demo. Proof. apply reg_of; [nodup|reflexivity]. Qed.
Example demo_registers : register ([1; 5] ++ [4; 0; 3]) demo. Proof. apply reg_of; [nodup|reflexivity]. Qed.
(** factor 3, highest qubit first, no swaps; over the complex numbers *)
Example C65_example : exists c, QFT false [4; 0; 3] false false 3 = Some c /\ forall psi,
  run_circuit Qcplus c0 c1 cadd cmul copp cexpi ccos csin ci c psi demo = dft c0 c1 cadd cmul cexpi ccos 3 true false [4; 0; 3] psi demo.
Proof.
  destruct (QFT false [4; 0; 3] false false 3) as [c|] eqn:E; [|apply C65_defined in E; discriminate]. exists c. split; [reflexivity|]. intros psi.
  exact (C65_transform c0 c1 cadd cmul csub copp complex_ring cexpi ccos csin ci complex_euler _ _ _ _ _ E psi demo demo_register).
Qed.
(** 6 (011 on the qubits 4, 0, 3) + 2 (01 on the qubits 1, 5) = 0 modulo 8 *)
Example C66_example : exists c, fourier_adder (inr [1; 5]) [4; 0; 3] true = Some c /\ forall psi : list bool -> cplx,
  run_circuit Qcplus c0 c1 cadd cmul copp cexpi ccos csin ci c psi [false; false; true; false; false; true] = psi demo.
Proof.
  destruct (fourier_adder (inr [1; 5]) [4; 0; 3] true) as [c|] eqn:E; [|apply C66_defined in E as (r & E & L); injection E as <-; cbn in L; lia]. exists c. split; [reflexivity|]. intros psi.
  exact (C66_register c0 c1 cadd cmul csub copp complex_ring cexpi ccos csin ci complex_euler _ _ _ E psi demo demo_registers).
Qed.
