(** Property C70: multiplication of QuantumFloats in the Fourier domain. *)
From Coq Require Import List ZArith Bool Lia Arith QArith Qcanon Ring_theory Ring.
Import ListNotations.
From Verif.Inverse Require Import InvModel InvSpec.
From Verif.CtrlOps Require Import CtrlModel CtrlSpec CtrlComplex.
From Verif.QFloat Require Import QFModel QFSpec QFProofs SbpProofs.
From Verif.Fourier Require Import FourierModel FourierSpec RegProofs FourierFinal AdderProofs.
From Verif.Sbp Require Import SbpModel SbpSpec NumProofs CircProofs.
From Verif.Hybrid Require Import HybridModel HybridSpec CoreProofs HybridFinal HybridRun HybridAll.
Local Open Scope nat_scope.

Section mult.
Context {R : Type} (rO rI : R) (radd rmul rsub : R -> R -> R) (ropp : R -> R) (RT : ring_theory rO rI radd rmul rsub ropp eq).
Context (expi chalf shalf : Qc -> R) (im : R) (EU : euler rO rI radd rmul ropp expi chalf shalf im).
Notation run := (run_circuit Qcplus rO rI radd rmul ropp expi chalf shalf im).
Notation amp := (list bool -> R).
Notation float := QFSpec.value.
Notation dft := (dft rO rI radd rmul expi chalf).

(** The product of two QuantumFloats of any shapes: the new register holds exactly the product, the factors and the other qubits are as
    before, and no phase appears; the state is determined: every other content of the register has amplitude 0. *)
Theorem C70_mult : forall N a b qa qb out anc h o c, hybrid_mult a b qa qb out 1 anc h = Some (o, c) -> layout N a b o qa qb out anc h ->
  forall x, length x = N -> value x out = 0%Z -> exists z, basis o z /\ (float o z == holds a x qa * holds b x qb)%Q /\
  forall (psi : amp) w, blank rO psi out -> basis o w -> run c psi (store x out w) = if (w =? z)%Z then psi x else rO.
Proof.
  intros N a b qa qb out anc h o c H L x Lx V. unfold hybrid_mult in H. set (o' := if size b <? size a then out_shape Mul false b a else out_shape Mul false a b) in *.
  destruct (hybrid_mult_into _ _ _ _ _ _ _ _ _ _ _ _) as [c'|] eqn:E; [|discriminate]. assert (o' = o) by congruence. assert (c' = c) by congruence. subst c'. clear H.
  assert (La : length qa = size a) by apply L. assert (Lb : length qb = size b) by apply L.
  assert (Z : exists z, basis o z /\ (float o z == holds a x qa * holds b x qb)%Q).
  { subst o. unfold o'. destruct (size b <? size a).
    - pose proof (sbp_mul_ok b a (value x qb) (value x qa) (value_basis _ _ _ Lb) (value_basis _ _ _ La)) as K. cbn in K. destruct K as [B K]. eexists. split; [exact B|]. etransitivity; [exact K|]. unfold holds. ring.
    - pose proof (sbp_mul_ok a b (value x qa) (value x qb) (value_basis _ _ _ La) (value_basis _ _ _ Lb)) as K. cbn in K. destruct K as [B K]. eexists. split; [exact B|exact K]. }
  destruct Z as (z & Bz & Ez). exists z. split; [exact Bz|]. split; [exact Ez|]. subst o. apply (into_fits rO rI radd rmul rsub ropp RT expi chalf shalf im EU N a b _ qa qb out 1 anc h c E L x z Lx V Bz). rewrite Ez. change (inject_Z 1) with 1%Q. ring.
Qed.
(** With a given output and an integer factor cl_factor: the same whenever the output can hold the result. *)
Theorem C70_factor : forall N a b o qa qb out cl anc h c, hybrid_mult_into a b o qa qb out InitH true false cl anc h = Some c -> layout N a b o qa qb out anc h ->
  forall x z, length x = N -> value x out = 0%Z -> basis o z -> (float o z == inject_Z cl * holds a x qa * holds b x qb)%Q ->
  forall (psi : amp) w, blank rO psi out -> basis o w -> run c psi (store x out w) = if (w =? z)%Z then psi x else rO.
Proof. exact (into_fits rO rI radd rmul rsub ropp RT expi chalf shalf im EU). Qed.
(** In general the result P (in units of the output) is reduced modulo 2^size. phase_tolerant leaves the phase 2 pi P / 2^(size + 1); otherwise
    it is corrected as if the register held P. *)
Theorem C70_wrap : forall N a b o qa qb out tolerant cl anc h c, hybrid_mult_into a b o qa qb out InitH true tolerant cl anc h = Some c -> layout N a b o qa qb out anc h ->
  forall x P, length x = N -> value x out = 0%Z -> (inject_Z P * pw (expo o) == inject_Z cl * holds a x qa * holds b x qb)%Q ->
  forall (psi : amp) w, blank rO psi out -> run c psi (store x out w) =
    if ((w - P) mod 2 ^ Z.of_nat (size o) =? 0)%Z then rmul (expi (angle (if tolerant then P else P - mantissa o (P mod 2 ^ Z.of_nat (size o))) (S (size o)))) (psi x) else rO.
Proof. exact (into_blank rO rI radd rmul rsub ropp RT expi chalf shalf im EU). Qed.
(** Inside a Fourier transform (init_op = None, terminal_op = None): multiplication by the character of the product; [h] is 0 before. *)
Theorem C70_fourier : forall N a b o qa qb out tolerant cl anc h c, hybrid_mult_into a b o qa qb out InitNone false tolerant cl anc h = Some c -> layout N a b o qa qb out anc h ->
  forall x P, length x = N -> getbit x h = false -> (inject_Z P * pw (expo o) == inject_Z cl * holds a x qa * holds b x qb)%Q ->
  forall psi : amp, run c psi x = rmul (expi (angle (P * reading true (read x out)) (size o) + if tolerant then angle P (S (size o)) else 0)%Qc) (psi x).
Proof.
  intros N a b o qa qb out t cl anc h c H L x P Lx H0 E psi. destruct (into_run N _ _ _ _ _ _ _ _ _ _ _ _ _ H L) as (f & g & qf & qg & L' & HR & HP).
  pose proof (run_plain rO rI radd rmul rsub ropp RT expi chalf shalf im EU N f g o qf qg out anc h L' InitNone t cl c psi x HR Lx H0 I) as K. rewrite (HP x P E) in K. replace (size o) with (length out) by apply L. exact K.
Qed.
(** With the transform before (init_op = "qft", terminal_op = None) *)
Theorem C70_begin : forall N a b o qa qb out tolerant cl anc h c, hybrid_mult_into a b o qa qb out InitQFT false tolerant cl anc h = Some c -> layout N a b o qa qb out anc h ->
  forall x P, length x = N -> getbit x h = false -> (inject_Z P * pw (expo o) == inject_Z cl * holds a x qa * holds b x qb)%Q ->
  forall psi : amp, blank rO psi [anc] -> run c psi x = rmul (expi (angle (P * reading true (read x out)) (size o) + if tolerant then angle P (S (size o)) else 0)%Qc) (dft 1 false true out psi x).
Proof.
  intros N a b o qa qb out t cl anc h c H L x P Lx H0 E psi B. destruct (into_run N _ _ _ _ _ _ _ _ _ _ _ _ _ H L) as (f & g & qf & qg & L' & HR & HP).
  pose proof (run_plain rO rI radd rmul rsub ropp RT expi chalf shalf im EU N f g o qf qg out anc h L' InitQFT t cl c psi x HR Lx H0 B) as K. rewrite (HP x P E) in K. replace (size o) with (length out) by apply L. exact K.
Qed.
(** With the transform after (init_op = None, terminal_op = "qft") on the transform of a state phi, or with both (init_op = "qft",
    terminal_op = "qft") on phi itself: the product is added to the register. The phase is right if the register held 0 before. *)
Theorem C70_accumulate : forall N a b o qa qb out init tolerant cl anc h c, hybrid_mult_into a b o qa qb out init true tolerant cl anc h = Some c -> layout N a b o qa qb out anc h ->
  forall psi phi : amp, match init with InitNone => forall w, length w = N -> psi w = dft 1 false true out phi w | InitQFT => psi = phi /\ blank rO psi [anc] | InitH => False end ->
  forall x P, length x = N -> (inject_Z P * pw (expo o) == inject_Z cl * holds a x qa * holds b x qb)%Q ->
  run c psi (store x out (value x out + P)) = rmul (expi (angle (if tolerant then P else P - mantissa o ((value x out + P) mod 2 ^ Z.of_nat (size o))) (S (size o)))) (phi x).
Proof.
  intros N a b o qa qb out init t cl anc h c H L psi phi B x P Lx E. destruct (into_run N _ _ _ _ _ _ _ _ _ _ _ _ _ H L) as (f & g & qf & qg & L' & HR & HP).
  pose proof (run_qft rO rI radd rmul rsub ropp RT expi chalf shalf im EU N f g o qf qg out anc h L' init t cl c psi phi x HR Lx) as K. rewrite (HP x P E) in K.
  assert (K' : init_ok rO init anc out psi /\ forall w, length w = N -> start rO rI radd rmul expi chalf init out psi w = dft 1 false true out phi w).
  { destruct init; cbn [init_ok start]; [destruct B|destruct B as [-> B]; split; [exact B|reflexivity]|split; [exact I|exact B]]. }
  rewrite (K (proj1 K') (proj2 K')). assert (SO : length out = size o) by apply L. rewrite SO. apply (f_equal2 rmul); [|reflexivity]. apply f_equal. destruct t; [apply Qcplus_0_r|]. rewrite <- angle_add. reflexivity.
Qed.
(** a product added to a register that does not hold 0 (init_op = "qft"), without phase_tolerant: a phase appears that depends on the sum *)
Theorem C70_accumulate_refuted : rI <> ropp rI -> exists a b o qa qb out anc h c x, hybrid_mult_into a b o qa qb out InitQFT true false 1 anc h = Some c /\ layout (length x) a b o qa qb out anc h /\
  exists (psi : amp) P, blank rO psi [anc] /\ (inject_Z P * pw (expo o) == inject_Z 1 * holds a x qa * holds b x qb)%Q /\ in_range o (value x out + P) /\ run c psi (store x out (value x out + P)) <> psi x.
Proof.
  intros NE. set (o := mk 2 0 false). set (x := [false; false; false; true; false; false]).
  destruct (hybrid_mult_into (mk 1 0 false) (mk 1 0 false) o [0] [1] [2; 3] InitQFT true false 1 4 5) as [c|] eqn:H; [|vm_compute in H; discriminate].
  assert (L : layout 6 (mk 1 0 false) (mk 1 0 false) o [0] [1] [2; 3] 4 5) by (repeat split; try (repeat constructor; cbn; intuition lia); cbn; intuition lia).
  exists (mk 1 0 false), (mk 1 0 false), o, [0], [1], [2; 3], 4, 5, c, x. split; [exact H|]. split; [exact L|]. exists (fun y => if getbit y 4 then rO else rI), 0%Z.
  assert (B : blank rO (fun y => if getbit y 4 then rO else rI) [4]) by (intros y q [<-|[]] G; rewrite G; reflexivity).
  split; [exact B|]. split; [vm_compute; reflexivity|]. split; [unfold in_range; cbn; lia|].
  rewrite (C70_accumulate 6 _ _ _ _ _ _ InitQFT false 1 4 5 c H L (fun y => if getbit y 4 then rO else rI) (fun y => if getbit y 4 then rO else rI) (conj eq_refl B) x 0%Z eq_refl) by (vm_compute; reflexivity). cbn [getbit nth x].
  intros K. assert (E : expi (angle (-2) 3) = rI).
  { transitivity (rmul (expi (angle (-2) 3)) rI); [symmetry; rewrite (Rmul_comm RT); apply (Rmul_1_l RT)|]. exact K. }
  apply NE. pose proof (CtrlProofs.e_add rO rI radd rmul ropp expi chalf shalf im EU) as EA. transitivity (expi (angle (-2) 3 + angle (-2) 3 + zq 2)%Qc).
  - rewrite !EA, E. pose proof (FourierProofs.e_even rO rI radd rmul rsub ropp RT expi chalf shalf im EU 1) as EV. change (zq (2 * 1)) with (zq 2) in EV. rewrite EV. rewrite !(Rmul_1_l RT). reflexivity.
  - rewrite <- (CtrlProofs.e_1 rO rI radd rmul ropp expi chalf shalf im EU). apply f_equal. apply Qc_is_canon. vm_compute. reflexivity.
Qed.
(** -3/2 times -2, signed factors of different exponents *)
Definition demo_a := mk 2 (-1) true.
Definition demo_b := mk 2 0 true.
Definition demo_x : list bool := [true; false; true] ++ [false; true; true] ++ repeat false 8.
Lemma demo_layout : layout 14 demo_a demo_b (mk 5 (-1) true) [0; 1; 2] [3; 4; 5] [6; 7; 8; 9; 10; 11] 12 13.
Proof. repeat split; try (repeat constructor; cbn; intuition lia). cbn. intuition lia. Qed.
Example C70_ex_mult : (holds demo_a demo_x [0; 1; 2]%nat == -3 # 2)%Q /\ (holds demo_b demo_x [3; 4; 5]%nat == -2)%Q /\
  exists c, hybrid_mult demo_a demo_b [0; 1; 2] [3; 4; 5] [6; 7; 8; 9; 10; 11] 1 12 13 = Some (mk 5 (-1) true, c) /\
  forall psi : amp, blank rO psi [6; 7; 8; 9; 10; 11] -> run c psi ([true; false; true] ++ [false; true; true] ++ [false; true; true; false; false; false] ++ [false; false]) = psi demo_x.
Proof.
  split; [vm_compute; reflexivity|]. split; [vm_compute; reflexivity|]. destruct (hybrid_mult demo_a demo_b [0; 1; 2] [3; 4; 5] [6; 7; 8; 9; 10; 11] 1 12 13) as [[o c]|] eqn:H; [|vm_compute in H; discriminate].
  assert (o = mk 5 (-1) true) as -> by (unfold hybrid_mult in H; destruct (hybrid_mult_into _ _ _ _ _ _ _ _ _ _ _ _); [injection H as <- _; reflexivity|discriminate]).
  exists c. split; [reflexivity|]. intros psi B. destruct (C70_mult 14 demo_a demo_b _ _ _ _ _ _ c H demo_layout demo_x eq_refl eq_refl) as (z & Bz & E & K).
  assert (z = 6%Z) as ->.
  { apply (mantissa_inj (mk 5 (-1) true)); [exact Bz|unfold basis; cbn; lia|]. apply (pw_cancel _ _ (-1)). etransitivity; [exact E|]. vm_compute. reflexivity. }
  exact (K psi 6%Z B ltac:(unfold basis; cbn; lia)).
Qed.
End mult.
(** The only exception: the factor that takes the second role has no mantissa. *)
Theorem C70_defined : forall a b qa qb out cl anc h, (exists r, hybrid_mult a b qa qb out cl anc h = Some r) <-> 0 < msize (if size b <? size a then b else a).
Proof.
  intros a b qa qb out cl anc h. unfold hybrid_mult, hybrid_mult_into, hybrid_run. cbn [initial]. destruct (QFT true out false true 1) as [w|] eqn:W; [|exfalso; apply QFT_total in W; discriminate].
  destruct (size b <? size a); cbn [expo out_shape].
  - rewrite (Z.add_comm (expo b)), Z.leb_refl, andb_true_r. destruct (Nat.ltb_spec 0 (msize b)); [split; [intros _; assumption|intros _; eexists; reflexivity]|split; [intros (r & E); discriminate|lia]].
  - rewrite (Z.add_comm (expo b)), Z.leb_refl, andb_true_r. destruct (Nat.ltb_spec 0 (msize a)); [split; [intros _; assumption|intros _; eexists; reflexivity]|split; [intros (r & E); discriminate|lia]].
Qed.
(** q_mult with a target does not write the product into it. *)
Theorem C70_target_refuted : exists a b qa qb target fresh anc h o c, q_mult a b qa qb (Some target) fresh anc h = Some (o, c) /\ length target = size o /\
  forall p t, In p c -> In t (snd p) -> ~ In t target.
Proof.
  exists (mk 1 0 false), (mk 1 0 false), [0], [1], [2; 3], [4; 5], 6, 7. eexists. eexists. split; [vm_compute; reflexivity|]. split; [reflexivity|].
  intros p t I J [K|[K|[]]]; subst t; repeat (destruct I as [<-|I]; [cbn in J; intuition discriminate|]); destruct I.
Qed.
(** complex amplitudes meet the hypotheses *)
Example C70_ex_complex : exists c, hybrid_mult demo_a demo_b [0; 1; 2] [3; 4; 5] [6; 7; 8; 9; 10; 11] 1 12 13 = Some (mk 5 (-1) true, c) /\
  forall psi, blank c0 psi [6; 7; 8; 9; 10; 11] -> run_circuit Qcplus c0 c1 cadd cmul copp cexpi ccos csin ci c psi ([true; false; true] ++ [false; true; true] ++ [false; true; true; false; false; false] ++ [false; false]) = psi demo_x.
Proof. exact (proj2 (proj2 (C70_ex_mult c0 c1 cadd cmul csub copp complex_ring cexpi ccos csin ci complex_euler))). Qed.

Print Assumptions C70_mult.
Print Assumptions C70_factor.
Print Assumptions C70_wrap.
Print Assumptions C70_fourier.
Print Assumptions C70_begin.
Print Assumptions C70_accumulate.
Print Assumptions C70_accumulate_refuted.
Print Assumptions C70_defined.
Print Assumptions C70_target_refuted.
