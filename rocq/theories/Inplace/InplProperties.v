(** Property C68: in-place multiplication of QuantumFloats by numbers, bit shifts on the quantum device. *)
From Coq Require Import List ZArith Bool Lia Arith QArith Qround Qcanon Ring_theory.
Import ListNotations.
From Verif.Iterables Require Import IterModel.
From Verif.Inverse Require Import InvModel InvSpec.
From Verif.CtrlOps Require Import CtrlModel CtrlSpec CtrlComplex.
From Verif.QFloat Require Import QFModel QFSpec QFProofs.
From Verif.Fourier Require Import FourierModel FourierSpec RegProofs FourierProperties.
From Verif.Sbp Require Import SbpSpec CircProofs.
From Verif.Inplace Require Import InplModel InplSpec MultProofs SwapProofs BitShiftProofs FactorProofs InplProofs InplFinal.
Local Open Scope nat_scope.
Local Notation value := FourierSpec.value.

Section numbers.
Context {R : Type} (rO rI : R) (radd rmul rsub : R -> R -> R) (ropp : R -> R) (RT : ring_theory rO rI radd rmul rsub ropp eq).
Context (expi chalf shalf : Qc -> R) (im : R) (EU : euler rO rI radd rmul ropp expi chalf shalf im).
Notation run := (run_circuit Qcplus rO rI radd rmul ropp expi chalf shalf im).
Notation amp := (list bool -> R).

(** QFT_inpl_mult multiplies a register of any size by any odd integer, modulo 2^size; other qubits keep their values, no phases. *)
Theorem C68_mult : forall q m c x, QFT_inpl_mult q m = Some c -> register q x -> forall psi : amp, run c psi (store x q (m * value x q)) = psi x.
Proof.
  intros q m c x H Rg psi. unfold QFT_inpl_mult in H. destruct (Z.odd m) eqn:O; [|discriminate]. injection H as <-.
  pose proof (mult_run rO rI radd rmul rsub ropp RT expi chalf shalf im EU m O (rev q) psi x (register_rev _ _ Rg)) as M. rewrite rev_involutive in M. exact M.
Qed.
(** It is refused for even factors and only for them. *)
Theorem C68_mult_defined : forall q m, QFT_inpl_mult q m = None <-> Z.even m = true.
Proof. intros q m. unfold QFT_inpl_mult. rewrite <- Z.negb_odd. destruct (Z.odd m); cbn; split; congruence. Qed.
(** quantum_bit_shift by a classical number: the register grows by |s| fresh qubits and holds 2^s times its value. For signed
    QuantumFloats only s >= 0. *)
Theorem C68_shift_partial : forall f q s fresh f' q' c rest x, quantum_bit_shift f q s true fresh = Some (f', q', c, rest) -> length q = size f -> supply q fresh x ->
  (signed f = true -> (0 <= s)%Z) ->
  exists y, (forall psi : amp, run c psi y = psi x) /\ agree_outside q' x y /\ grown q q' fresh /\ length q' = size f' /\ (holds f' y q' == holds f x q * pw s)%Q.
Proof.
  intros f q s fresh f' q' c rest x H Lq SU SG. destruct (shift_value rO rI radd rmul rsub ropp RT expi chalf shalf im f q s fresh f' q' c rest x Lq H SU SG) as (y & A & B & C & _ & D & E & _). exists y. auto.
Qed.
(** A signed QuantumFloat(3) holding -2, shifted by -1, holds -5 afterwards. *)
Theorem C68_shift_refuted : exists f q fresh f' q' c rest x y, quantum_bit_shift f q (-1) true fresh = Some (f', q', c, rest) /\ length q = size f /\ supply q fresh x /\
  (holds f x q == -2)%Q /\ (holds f' y q' == -5)%Q /\ agree_outside q' x y /\ forall psi : amp, run c psi y = psi x.
Proof.
  set (x := [false; true; true; true; false]).
  destruct (cyclic_shift [4; 0; 1; 2] (-1)) as [sw|] eqn:CS; [|vm_compute in CS; discriminate CS].
  exists (mk 3 0 true), [0; 1; 2; 3], [4], (mk 4 (-1) true), [4; 0; 1; 2; 3], (swap_gates sw), [], x, (swapped sw x).
  assert (W : within [4; 0; 1; 2] sw) by exact (cyclic_within _ _ _ CS).
  split. { change (match cyclic_shift [4; 0; 1; 2] (-1) with Some sw => Some (mk 4 (-1) true, [4; 0; 1; 2; 3], swap_gates sw, @nil nat) | None => None end = Some (mk 4 (-1) true, [4; 0; 1; 2; 3], swap_gates sw, [])). rewrite CS. reflexivity. }
  split; [reflexivity|]. split; [split; [apply reg_of; [nodup|reflexivity]|]; intros p [<-|[]]; reflexivity|]. split; [reflexivity|].
  pose proof CS as CS2. vm_compute in CS2. injection CS2 as E. split; [rewrite <- E; vm_compute; reflexivity|]. split.
  - split; [apply swapped_length|]. intros p I. rewrite (swapped_get [4; 0; 1; 2] sw W) by (cbn; intros; lia). rewrite <- E. clear - I. unfold run_swaps, swap. cbn [fold_left fst snd].
    do 5 (destruct p as [|p]; [exfalso; apply I; cbn; tauto|]). reflexivity.
  - apply (moves_swaps rO rI radd rmul rsub ropp RT expi chalf shalf im [4; 0; 1; 2] sw W). cbn. intros; lia.
Qed.
(** quantum_bit_shift by an unsigned integer QuantumFloat g: 2 to the power of the number held by g. *)
Theorem C68_shift_quantum : forall f q g sh fresh f' q' c rest x z, quantum_quantum_bit_shift f q g sh fresh = Some (f', q', c, rest) -> length q = size f -> supply (q ++ sh) fresh x ->
  (0 <= expo g)%Z -> (holds g x sh == inject_Z z)%Q ->
  exists y, (forall psi : amp, run c psi y = psi x) /\ agree_outside q' x y /\ grown q q' fresh /\ length q' = size f' /\ (holds f' y q' == holds f x q * pw z)%Q.
Proof.
  intros f q g sh fresh f' q' c rest x z H Lq SU EG HZ. unfold quantum_quantum_bit_shift in H. destruct (signed g) eqn:SG; [discriminate|]. destruct (signed f) eqn:SF; [discriminate|]. cbn [orb] in H.
  destruct (qshift_loop rO rI radd rmul rsub ropp RT expi chalf shalf im sh f q (expo g) fresh f' q' c rest x Lq SF SU EG H) as (y & A & B & C & D & E). exists y. split; [exact A|]. split; [exact B|]. split; [exact C|]. split; [exact D|].
  replace z with (2 ^ expo g * value x sh)%Z; [exact E|]. apply inj_eq. rewrite <- HZ. unfold holds, QFSpec.value. rewrite mant_unsigned by exact SG. rewrite pw_Z by exact EG. rewrite inject_Z_mult. ring.
Qed.
(** a *= mult, signed, for every factor that is accepted: the register grows and holds mult times its value, except when the smallest
    value is multiplied by minus a power of two. *)
Theorem C68_inplace_mult : forall fuel f q mult fresh f' q' c x, inpl_mult fuel f q mult true fresh = Some (f', q', c) -> length q = size f -> signed f = true -> supply q fresh x ->
  (forall s, (mult == - pw s)%Q -> ~ (holds f x q == - pw (Z.of_nat (msize f) + expo f))%Q) ->
  exists y, (forall psi : amp, run c psi y = psi x) /\ agree_outside q' x y /\ grown q q' fresh /\ length q' = size f' /\ (holds f' y q' == mult * holds f x q)%Q.
Proof.
  intros fuel f q mult fresh f' q' c x H Lq S SU N. apply (inpl_value rO rI radd rmul rsub ropp RT expi chalf shalf im EU fuel f q mult fresh f' q' c x Lq); auto; [unfold size; rewrite S; lia|congruence].
Qed.
(** In the exceptional case the product does not fit and the sign is lost: QuantumFloat(2, signed = True) holding -4, times -1. *)
Theorem C68_inplace_mult_refuted : exists f q c x, inpl_mult 1 f q (-1) true [] = Some (f, q, c) /\ length q = size f /\ signed f = true /\ supply q [] x /\
  (holds f x q == -4)%Q /\ forall psi : amp, run c psi x = psi x.
Proof.
  set (x := [false; false; true]). exists (mk 2 0 true), [0; 1; 2], (forward (-1) [2; 1; 0] ++ backward [2; 1; 0]), x.
  split; [reflexivity|]. split; [reflexivity|]. split; [reflexivity|]. split; [split; [apply reg_of; [nodup|reflexivity]|intros p []]|]. split; [reflexivity|].
  exact (C68_mult [0; 1; 2] (-1) _ x eq_refl ltac:(apply reg_of; [nodup|reflexivity])).
Qed.
(** Unsigned: the same if the factor is a power of two, or if the highest qubit of the register is 0. *)
Theorem C68_inplace_mult_unsigned_partial : forall fuel f q mult fresh f' q' c x, inpl_mult fuel f q mult true fresh = Some (f', q', c) -> length q = size f -> signed f = false -> 0 < msize f -> supply q fresh x ->
  (exists s, mult == pw s)%Q \/ (holds f x q < pw (Z.of_nat (msize f) - 1 + expo f))%Q ->
  exists y, (forall psi : amp, run c psi y = psi x) /\ agree_outside q' x y /\ grown q q' fresh /\ length q' = size f' /\ (holds f' y q' == mult * holds f x q)%Q.
Proof.
  intros fuel f q mult fresh f' q' c x H Lq S P SU N. apply (inpl_value rO rI radd rmul rsub ropp RT expi chalf shalf im EU fuel f q mult fresh f' q' c x Lq); auto; [unfold size; rewrite S; lia|congruence].
Qed.
(** Otherwise it is wrong: the new qubits are put below the highest qubit. QuantumFloat(3) holding 4, times 3, holds 16. *)
Theorem C68_inplace_mult_unsigned_refuted : exists f q fresh f' q' c x y, inpl_mult 1 f q 3 true fresh = Some (f', q', c) /\ length q = size f /\ signed f = false /\ supply q fresh x /\
  (holds f x q == 4)%Q /\ (holds f' y q' == 16)%Q /\ agree_outside q' x y /\ forall psi : amp, run c psi y = psi x.
Proof.
  set (x := [false; false; true; false; false]). set (q' := [0; 1; 3; 4; 2]).
  exists (mk 3 0 false), [0; 1; 2], [3; 4], (mk 5 0 false), q', (forward 3 (rev q') ++ backward (rev q')), x, (store x q' (3 * value x q')).
  split; [reflexivity|]. split; [reflexivity|]. split; [reflexivity|]. split; [split; [apply reg_of; [nodup|reflexivity]|intros p [<-|[<-|[]]]; reflexivity]|]. split; [reflexivity|]. split; [reflexivity|].
  split; [split; [apply store_length|intros p I; apply store_other; exact I]|]. exact (C68_mult q' 3 _ x eq_refl ltac:(apply reg_of; [nodup|reflexivity])).
Qed.
(** Without overflow treatment and with an odd factor: the code of the register is multiplied modulo 2^size, its shape is kept. *)
Theorem C68_inplace_mult_wrap : forall fuel f q m fresh f' q' c x, inpl_mult fuel f q (inject_Z m) false fresh = Some (f', q', c) -> Z.odd m = true -> length q = size f -> register q x ->
  f' = f /\ q' = q /\ forall psi : amp, run c psi (store x q (m * value x q)) = psi x.
Proof.
  intros fuel f q m fresh f' q' c x H O Lq Rg. unfold inpl_mult in H. destruct (ltq _ _ && _); [discriminate|]. destruct (split_factor fuel (inject_Z m)) as [[m' s]|] eqn:SF; [|discriminate].
  destruct (split_ok _ _ _ _ SF) as (O' & _ & E). destruct (odd_unique m 0 m' s O O') as [<- <-]; [rewrite <- E; change (pw 0) with 1%Q; ring|].
  assert (C0 : forall ids sw, cyclic_shift ids 0 = Some sw -> sw = []) by (intros [|i ids] sw X; [discriminate|]; cbn [cyclic_shift] in X; rewrite Zmod_0_l in X; cbn [Z.eqb] in X; injection X as <-; reflexivity).
  unfold odd_mult in H. destruct (Z.eqb_spec m 1) as [->|N].
  - unfold quantum_bit_shift, shift_register in H. destruct (cyclic_shift _ 0) as [sw|] eqn:CS; [|discriminate]. apply C0 in CS as ->. injection H as <- <- <-. split; [reflexivity|]. split; [reflexivity|]. intros psi. rewrite Z.mul_1_l. cbn [app swap_gates flat_map andb]. unfold store, value. rewrite <- (read_length x q), bits_number, write_read by apply Rg. reflexivity.
  - cbn [firstn skipn Nat.ltb Nat.leb] in H. destruct (QFT_inpl_mult q m) as [c1|] eqn:Q; [|discriminate]. unfold quantum_bit_shift, shift_register in H. cbn [signed] in H. destruct (cyclic_shift _ 0) as [sw|] eqn:CS; [|discriminate]. apply C0 in CS as ->. injection H as <- <- <-.
    rewrite Nat.add_0_r. split; [destruct f; reflexivity|]. split; [reflexivity|]. cbn [andb swap_gates flat_map app map]. rewrite app_nil_r. replace (if signed f then [] else []) with (@nil (op Qc * list nat)) by (destruct (signed f); reflexivity). exact (C68_mult q m c1 x Q Rg).
Qed.
End numbers.
(** The factors that are accepted, with enough fresh qubits: odd integer times 2^s with s >= -31, negative only for signed
    QuantumFloats. A factor of 0 is never finished. *)
Theorem C68_inplace_mult_defined : forall f q mult, length q = size f -> 0 < msize f ->
  (exists fuel n, forall fresh, n <= length fresh -> inpl_mult fuel f q mult true fresh <> None) <->
  (exists m s, Z.odd m = true /\ (-31 <= s)%Z /\ (mult == inject_Z m * pw s)%Q) /\ ((mult < 0)%Q -> signed f = true).
Proof.
  intros f q mult Lq P. split.
  - intros (fuel & n & H). specialize (H (repeat 0 n)). rewrite repeat_length in H. specialize (H (le_n _)). unfold inpl_mult in H. destruct (ltq mult 0 && negb (signed f)) eqn:NG; [congruence|].
    destruct (split_factor fuel mult) as [[m s]|] eqn:SF; [|congruence]. split; [exists m, s; exact (split_ok _ _ _ _ SF)|]. intros L. apply ltq_spec in L. rewrite L in NG. destruct (signed f); [reflexivity|discriminate].
  - intros [(m & s & O & L & E) SG]. destruct (split_total mult m s O L E) as [fuel SF]. exists fuel, (Z.to_nat (Z.log2_up (Z.abs m)) + Z.to_nat (Z.abs s)). intros fresh LF. unfold inpl_mult. rewrite SF.
    assert (NG : ltq mult 0 && negb (signed f) = false). { destruct (ltq mult 0) eqn:X; [|reflexivity]. apply ltq_spec in X. rewrite (SG X). reflexivity. } rewrite NG.
    assert (OD : exists f1 q1 c1 rest, odd_mult f q m true fresh = Some (f1, q1, c1, rest) /\ length q1 = size f1 /\ 0 < msize f1 /\ Z.to_nat (Z.abs s) <= length rest).
    { unfold odd_mult. destruct (m =? 1)%Z; [exists f, q, [], fresh; repeat split; auto; lia|]. set (k := Z.to_nat (Z.log2_up (Z.abs m))) in *. destruct (Nat.ltb_spec (length fresh) k) as [|_]; [lia|]. unfold QFT_inpl_mult. rewrite O.
      eexists _, _, _, _. split; [reflexivity|]. cbn [msize]. split; [|split; [lia|rewrite skipn_length; lia]]. unfold extend, size in *. cbn [msize signed] in *. rewrite !app_length, !firstn_length, skipn_length. destruct (signed f); lia. }
    destruct OD as (f1 & q1 & c1 & rest & OD & L1 & P1 & LR). rewrite OD. destruct (shift_defined f1 q1 s rest L1 P1 LR) as (f2 & q2 & c2 & QS). rewrite QS. discriminate.
Qed.
Theorem C68_inplace_mult_zero : forall fuel f q treat_overflow fresh, inpl_mult fuel f q 0 treat_overflow fresh = None.
Proof. intros. unfold inpl_mult. destruct (ltq 0 0 && negb (signed f)); [reflexivity|]. unfold split_factor. change (Qeq_bool (inject_Z (qtrunc 0)) 0) with true. change (qtrunc 0) with 0%Z. rewrite odd_part_zero. reflexivity. Qed.
Print Assumptions C68_mult.
Print Assumptions C68_mult_defined.
Print Assumptions C68_shift_partial.
Print Assumptions C68_shift_refuted.
Print Assumptions C68_shift_quantum.
Print Assumptions C68_inplace_mult.
Print Assumptions C68_inplace_mult_refuted.
Print Assumptions C68_inplace_mult_unsigned_partial.
Print Assumptions C68_inplace_mult_unsigned_refuted.
Print Assumptions C68_inplace_mult_wrap.
Print Assumptions C68_inplace_mult_defined.
Print Assumptions C68_inplace_mult_zero.

(** ** examples *)
(** QuantumFloat(2, signed = True) holding -3, times -5/2 *)
Example C68_ex_mult : exists f' q' c y, inpl_mult 1 (mk 2 0 true) [0; 1; 2] (-5 # 2) true [3; 4; 5; 6] = Some (f', q', c) /\ agree_outside q' [true; false; true; false; false; false; false] y /\
  (holds f' y q' == 15 # 2)%Q /\ forall psi : list bool -> cplx, run_circuit Qcplus c0 c1 cadd cmul copp cexpi ccos csin ci c psi y = psi [true; false; true; false; false; false; false].
Proof.
  destruct (inpl_mult 1 (mk 2 0 true) [0; 1; 2] (-5 # 2) true [3; 4; 5; 6]) as [[[f' q'] c]|] eqn:E; [|vm_compute in E; discriminate E].
  destruct (C68_inplace_mult c0 c1 cadd cmul csub copp complex_ring cexpi ccos csin ci complex_euler _ _ _ _ _ _ _ _ [true; false; true; false; false; false; false] E eq_refl eq_refl) as (y & A & B & _ & _ & V).
  - split; [apply reg_of; [nodup|reflexivity]|]. intros p [<-|[<-|[<-|[<-|[]]]]]; reflexivity.
  - intros s _ H. vm_compute in H. discriminate H.
  - exists f', q', c, y. split; [reflexivity|]. split; [exact B|]. split; [rewrite V; vm_compute; reflexivity|exact A].
Qed.
(** QuantumFloat(2) holding 3, shifted by a QuantumFloat(2) holding 2: 12 *)
Example C68_ex_shift : exists f' q' c rest y, quantum_quantum_bit_shift (mk 2 0 false) [0; 1] (mk 2 0 false) [2; 3] [4; 5; 6] = Some (f', q', c, rest) /\
  (holds f' y q' == 12)%Q /\ forall psi : list bool -> cplx, run_circuit Qcplus c0 c1 cadd cmul copp cexpi ccos csin ci c psi y = psi [true; true; false; true; false; false; false].
Proof.
  destruct (quantum_quantum_bit_shift (mk 2 0 false) [0; 1] (mk 2 0 false) [2; 3] [4; 5; 6]) as [[[[f' q'] c] rest]|] eqn:E; [|vm_compute in E; discriminate E].
  destruct (C68_shift_quantum c0 c1 cadd cmul csub copp complex_ring cexpi ccos csin ci _ _ _ _ _ _ _ _ _ [true; true; false; true; false; false; false] 2 E eq_refl) as (y & A & _ & _ & _ & V).
  - split; [apply reg_of; [nodup|reflexivity]|]. intros p [<-|[<-|[<-|[]]]]; reflexivity.
  - discriminate.
  - reflexivity.
  - exists f', q', c, rest, y. split; [reflexivity|]. split; [rewrite V; vm_compute; reflexivity|exact A].
Qed.
(** QuantumFloat(3) holding 6, shifted by -2: 3/2; QuantumFloat(3) holding 3, times 5: 15 *)
Example C68_ex_down : exists f' q' c rest y, quantum_bit_shift (mk 3 0 false) [0; 1; 2] (-2) true [3; 4] = Some (f', q', c, rest) /\
  (holds f' y q' == 3 # 2)%Q /\ forall psi : list bool -> cplx, run_circuit Qcplus c0 c1 cadd cmul copp cexpi ccos csin ci c psi y = psi [false; true; true; false; false].
Proof.
  destruct (quantum_bit_shift (mk 3 0 false) [0; 1; 2] (-2) true [3; 4]) as [[[[f' q'] c] rest]|] eqn:E; [|vm_compute in E; discriminate E].
  destruct (C68_shift_partial c0 c1 cadd cmul csub copp complex_ring cexpi ccos csin ci _ _ _ _ _ _ _ _ [false; true; true; false; false] E eq_refl) as (y & A & _ & _ & _ & V); [|discriminate|].
  - split; [apply reg_of; [nodup|reflexivity]|]. intros p [<-|[<-|[]]]; reflexivity.
  - exists f', q', c, rest, y. split; [reflexivity|]. split; [rewrite V; vm_compute; reflexivity|exact A].
Qed.
Example C68_ex_unsigned : exists f' q' c y, inpl_mult 1 (mk 3 0 false) [0; 1; 2] 5 true [3; 4; 5] = Some (f', q', c) /\
  (holds f' y q' == 15)%Q /\ forall psi : list bool -> cplx, run_circuit Qcplus c0 c1 cadd cmul copp cexpi ccos csin ci c psi y = psi [true; true; false; false; false; false].
Proof.
  destruct (inpl_mult 1 (mk 3 0 false) [0; 1; 2] 5 true [3; 4; 5]) as [[[f' q'] c]|] eqn:E; [|vm_compute in E; discriminate E].
  destruct (C68_inplace_mult_unsigned_partial c0 c1 cadd cmul csub copp complex_ring cexpi ccos csin ci complex_euler _ _ _ _ _ _ _ _ [true; true; false; false; false; false] E eq_refl eq_refl) as (y & A & _ & _ & _ & V); [cbn; lia| |right; reflexivity|].
  - split; [apply reg_of; [nodup|reflexivity]|]. intros p [<-|[<-|[<-|[]]]]; reflexivity.
  - exists f', q', c, y. split; [reflexivity|]. split; [rewrite V; vm_compute; reflexivity|exact A].
Qed.
