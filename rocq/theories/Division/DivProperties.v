(** C86: in-place addition with the Thapliyal adder. C87: division of QuantumFloats. *)
From Coq Require Import List ZArith QArith Qround Qabs Bool Lia Lqa Arith.
Import ListNotations.
From Verif.QFloat Require Import QFModel QFSpec.
From Verif.Order Require Import OrderModel.
From Verif.Lib Require Rev CliffordT.
From Verif.Division Require Import ThapModel ThapProofs DivModel DivSpec DivProofs DivProofs2 DivProofs3.
Local Open Scope Z_scope.

(** * C86 *)
(** The TR gate is exactly the permutation |a, b, c> -> |a, a + b, c + ab> of three qubits: for every state f (a superposition, possibly entangled
    with other qubits) the amplitude of |a, b, c> afterwards is the amplitude of the preimage before, without any phase.
    The model leaves out [tscale] = 3 factors 1/sqrt 2, hence the factor 2 sqrt 2. *)
Theorem C86_tr_gate : tscale TR_gate = 3%nat /\
  forall f a b c, trun TR_gate f [a; xorb a b; xorb c (a && b)] = CliffordT.wscale 2 (wsqrt2 (f [a; b; c])).
Proof.
  split; [reflexivity|]. intros f a b c. rewrite tr_ok. f_equal. f_equal. f_equal. destruct a, b, c; reflexivity.
Qed.
Print Assumptions C86_tr_gate.
(** |1, 1, 0> becomes |1, 0, 1> *)
Example C86_tr_gate_ex : let f := fun b => match b with [true; true; false] => (1, 0, 0, 0) | _ => CliffordT.w0 end in
  trun TR_gate f [true; false; true] = wsqrt2 (2, 0, 0, 0) /\ trun TR_gate f [true; true; false] = CliffordT.w0.
Proof. split; reflexivity. Qed.

(** The adder: with two lists of n >= 2 qubits (registers 0 and 1) and an output qubit (5, 0) in any basis state, the second list becomes the sum modulo 2^n,
    the carry is added to the output qubit, the first list, every other qubit and the phase are as before. *)
Theorem C86_adder : forall n p (s : Rev.bstate), (2 <= n)%nat -> exists s' (c : bool),
  Rev.run (thapliyal n (fun i => (0, i)%nat) (fun i => (1, i)%nat) (5, 0)%nat) (p, s) = Some (p, s') /\
  Rev.regval s' 1 n + (if c then 2 ^ Z.of_nat n else 0) = Rev.regval s 0 n + Rev.regval s 1 n /\
  s' (5, 0)%nat = xorb (s (5, 0)%nat) c /\
  forall r i, (r, i) <> (5, 0)%nat -> (r <> 1%nat \/ (n <= i)%nat) -> s' (r, i) = s (r, i).
Proof.
  intros n p s N. set (a := fun i => s (0, i)%nat). set (b := fun i => s (1, i)%nat).
  pose proof (thapliyal_exec n s p a b (s (5, 0)%nat) N) as E.
  eapply Rev.exec_pre in E; [|intros q; symmetry; instantiate (1 := s); destruct q as [[|[|[|[|[|[|r]]]]]] i]; cbn; try reflexivity; destruct (i =? 0)%nat eqn:I; [apply Nat.eqb_eq in I; subst|]; reflexivity].
  apply Rev.exec_run in E. destruct E as (s' & R & Q). cbn [fst snd] in *. exists s', (Rev.carry a b false n). split; [exact R|]. split; [|split].
  - rewrite <- (Z.add_0_r (Rev.regval s 0 n + Rev.regval s 1 n)). change (Rev.regval s 0 n + Rev.regval s 1 n + 0) with (Rev.val n a + Rev.val n b + Rev.b2z false). rewrite <- Rev.adder_value. f_equal.
    + unfold Rev.regval. apply Rev.val_ext. intros i Hi. rewrite Q. unfold Done, St. replace (i <? n)%nat with true by (symmetry; apply Nat.ltb_lt; exact Hi). reflexivity.
    + destruct (Rev.carry a b false n); cbn [Rev.b2z]; lia.
  - rewrite Q. reflexivity.
  - intros r i H1 H2. rewrite Q. unfold Done, St. destruct r as [|[|[|[|[|[|r]]]]]]; try reflexivity.
    + destruct H2 as [H2|H2]; [congruence|]. replace (i <? n)%nat with false by (symmetry; apply Nat.ltb_ge; exact H2). reflexivity.
    + destruct (i =? 0)%nat eqn:I; [apply Nat.eqb_eq in I; subst; congruence|reflexivity].
Qed.
Print Assumptions C86_adder.
(** 3 + 2 on two qubits: 1 and a carry *)
Example C86_adder_ex : thapliyal_procedure [true; true] [false; true] false = Some ([true; true], [true; false], true).
Proof. vm_compute. reflexivity. Qed.

(** For lists of one qubit, which are accepted, the output qubit is wrong: 1 + 0 has a carry and 1 + 1 has none. *)
Theorem C86_adder_single_refuted : thapliyal_procedure [true] [false] false = Some ([true], [true], true) /\
  thapliyal_procedure [true] [true] false = Some ([true], [false], false).
Proof. split; vm_compute; reflexivity. Qed.
Print Assumptions C86_adder_single_refuted.

(** inpl_add(a, b) with a of shape f in the basis state c and b of shape g in the basis state d, where the significances of b do not exceed those of a and at least three qubits
    of a take part (see C86_narrow_refuted): a becomes a + b, rounded down to the precision of a and modulo 2^size; b is as before and
    the additional qubits are 0 when they are deleted. *)
Theorem C86_inpl_add : forall ignore_rounding ignore_overflow f c g d, basis f c -> basis g d ->
  (ignore_rounding = false -> expo f <= expo g) -> upto g <= upto f -> (signed g = true -> signed f = true) -> expo f <= upto g ->
  3 <= upto f - Z.max (expo f) (expo g) + (if signed f then 1 else 0) ->
  exists c' gone, inpl_add ignore_rounding ignore_overflow (qvar f c) (qvar g d) = Some (qvar f c', qvar g d, gone) /\ zeros gone /\
    c' = (c + Qfloor (value g d / pw (expo f))) mod 2 ^ Z.of_nat (size f) /\
    (expo f <= expo g -> representable f (value f c + value g d) -> (value f c' == value f c + value g d)%Q).
Proof.
  intros ir io f c g d B B' IR T S I W. destruct (add_qvar ir io f c g d B B' IR T S I W) as (gone & G & C). eexists. exists gone. split; [exact G|]. split; [exact C|]. split; [reflexivity|].
  intros E R. apply add_value; assumption.
Qed.
Print Assumptions C86_inpl_add.
(** 4 + 3 with 5 qubits each; -3.5 + (-2) with a finer, larger target *)
Example C86_inpl_add_ex : (let f := mk 5 0 false in inpl_add false false (qvar f 4) (qvar f 3) = Some (qvar f 7, qvar f 3, []) /\ (value f 4 == 4)%Q /\ representable f (value f 4 + value f 3)) /\
  (let f := mk 4 (-1) true in let g := mk 1 1 true in inpl_add false false (qvar f 25) (qvar g 3) = Some (qvar f 21, qvar g 3, []) /\ (value f 25 == - (7 # 2))%Q /\ (value g 3 == -2)%Q /\ (value f 21 == - (11 # 2))%Q).
Proof. split; cbv zeta. - split; [vm_compute; reflexivity|]. split; [reflexivity|]. exists 7. split; [vm_compute; split; congruence|reflexivity]. - repeat split; vm_compute; reflexivity. Qed.

(** inpl_add raises an exception when digits would be lost without the caller having allowed it, when the significances have nothing in common,
    and when a signed summand is added to an unsigned target. *)
Theorem C86_inpl_add_refuses : forall ignore_rounding ignore_overflow f c g d, basis f c -> basis g d ->
  (ignore_rounding = false /\ expo g < expo f) \/ (ignore_overflow = false /\ upto f < upto g) \/ upto f < expo g \/ upto g < expo f \/ (signed g = true /\ signed f = false) ->
  inpl_add ignore_rounding ignore_overflow (qvar f c) (qvar g d) = None.
Proof.
  intros ir io f c g d B B' H. unfold inpl_add. rewrite !qvar_top. cbn [ex sg qvar].
  destruct (negb ir && (expo g <? expo f)) eqn:E1; [reflexivity|]. destruct (negb io && (upto f <? upto g)) eqn:E2; [reflexivity|].
  destruct (Z.min (upto f) (upto g) <? Z.max (expo f) (expo g)) eqn:E3; [reflexivity|]. destruct (signed g && negb (signed f)) eqn:E4; [reflexivity|]. exfalso.
  destruct H as [[-> H]|[[-> H]|[H|[H|[H H']]]]].
  - cbn in E1. lia.
  - cbn in E2. lia.
  - lia.
  - lia.
  - rewrite H, H' in E4. discriminate E4.
Qed.
Print Assumptions C86_inpl_add_refuses.
Example C86_inpl_add_refuses_ex : (let f := mk 5 0 false in let g := mk 3 (-1) false in inpl_add false false (qvar f 4) (qvar g 3) = None /\ inpl_add true false (qvar f 4) (qvar g 3) <> None) /\
  inpl_add true true (qvar (mk 5 0 false) 4) (qvar (mk 4 0 true) 3) = None.
Proof. vm_compute. repeat split; discriminate. Qed.

(** If only two qubits take part the sum is wrong, although there is no exception: 0 + 1 = 3 with two qubits each; with one qubit there is an exception. *)
Theorem C86_narrow_refuted : (exists f c c', basis f c /\ basis f c' /\ representable f (value f c + value f c') /\ exists r gone, inpl_add false false (qvar f c) (qvar f c') = Some (qvar f r, qvar f c', gone) /\
    ~ (value f r == value f c + value f c')%Q) /\
  forall c c', inpl_add false false (qvar (mk 1 0 false) c) (qvar (mk 1 0 false) c') = None.
Proof.
  split.
  - exists (mk 2 0 false), 0, 1. split; [vm_compute; split; congruence|]. split; [vm_compute; split; congruence|]. split; [exists 1; split; [vm_compute; split; congruence|reflexivity]|].
    exists 3, []. split; [vm_compute; reflexivity|]. vm_compute. discriminate.
  - intros c c'. reflexivity.
Qed.
Print Assumptions C86_narrow_refuted.

(** * C87 *)
(** q_divmod(n, d, prec) for a non-zero divisor: quotient and remainder satisfy n = q d + r with 0 <= r < |d| 2^-prec, so the quotient is within 2^-prec of n / d; numerator and
    divisor are as before and all additional qubits are 0. The third-last hypothesis: shifted to a common exponent both operands are integers (else there is an exception);
    it holds for prec >= 0. The last: the divisor's precision is below the largest significance of the numerator (see C87_coarse_divisor_refuted). *)
Theorem C87_divmod : forall f c g d prec, basis f c -> basis g d -> (1 <= msize f)%nat -> (1 <= msize g)%nat -> ~ (value g d == 0)%Q ->
  Z.min (expo f) (expo g) - expo f <= prec -> expo g <= upto f + prec ->
  let fq := quotient_shape f g prec in let fr := remainder_shape f g prec in
  exists cq cr gone, q_divmod (qvar f c) (qvar g d) prec = Some (qvar fq cq, qvar fr cr, qvar f c, qvar g d, gone) /\ zeros gone /\ basis fq cq /\ basis fr cr /\
    let q := value fq cq in let r := value fr cr in
    (value f c == q * value g d + r)%Q /\ (0 <= r)%Q /\ (r < Qabs (value g d) * pw (- prec))%Q /\ (Qabs (q - value f c / value g d) < pw (- prec))%Q /\
    exists k, (q == inject_Z k * pw (- prec))%Q.
Proof.
  intros f c g d prec B B' M M' D P T fq fr. destruct (divmod_qvar f c g d prec B B' M M' D P T) as (cq & cr & gone & G & C & Bq & Br & V & R0 & R1).
  exists cq, cr, gone. split; [exact G|]. split; [exact C|]. split; [exact Bq|]. split; [exact Br|]. cbv zeta. split; [exact V|]. split; [exact R0|]. split; [exact R1|]. split.
  - apply (quotient_error _ _ _ (value fr cr)); assumption.
  - exists (mantissa fq cq). reflexivity.
Qed.
Print Assumptions C87_divmod.
(** 10 / 8 with precision 0 and 2 (the examples of the documentation) and -7 / -2 *)
Example C87_divmod_ex : (let f := mk 4 0 false in exists gone, q_divmod (qvar f 10) (qvar f 8) 0 = Some (qvar (mk 5 0 true) 1, qvar (mk 5 (-1) true) 4, qvar f 10, qvar f 8, gone) /\ (value (mk 5 (-1) true) 4 == 2)%Q) /\
  (let f := mk 4 0 false in exists gone, q_divmod (qvar f 10) (qvar f 8) 2 = Some (qvar (mk 7 (-2) true) 5, qvar (mk 5 (-3) true) 0, qvar f 10, qvar f 8, gone) /\ (value (mk 7 (-2) true) 5 == 5 # 4)%Q) /\
  (let f := mk 3 0 true in let g := mk 2 0 true in exists gone, q_divmod (qvar f 9) (qvar g 6) 0 = Some (qvar (mk 4 0 true) 4, qvar (mk 3 (-1) true) 2, qvar f 9, qvar g 6, gone) /\ (value f 9 == -7)%Q /\ (value g 6 == -2)%Q).
Proof. split; [|split]; cbv zeta; eexists; (split; [vm_compute; reflexivity|]); try split; reflexivity. Qed.

(** The bounds determine the results: for numbers of the form k 2^-prec the quotient is the only one. *)
Theorem C87_unique : forall n d q r q' r' p (k k' : Z), (0 < p)%Q -> (q == inject_Z k * p)%Q -> (q' == inject_Z k' * p)%Q ->
  (n == q * d + r)%Q -> (0 <= r)%Q -> (r < Qabs d * p)%Q -> (n == q' * d + r')%Q -> (0 <= r')%Q -> (r' < Qabs d * p)%Q -> (q == q' /\ r == r')%Q.
Proof.
  intros n d q r q' r' p k k' P K K' E R0 R1 E' R0' R1'.
  assert (D : ((q - q') * d == r' - r)%Q) by (rewrite E in E'; lra).
  assert (A : (Qabs (q - q') * Qabs d < Qabs d * p)%Q) by (rewrite <- Qabs_Qmult, D; apply Qabs_case; lra).
  assert (X : k = k').
  { assert (Pd : (0 < Qabs d)%Q). { assert (H : (0 < Qabs d * p)%Q) by lra. pose proof (Qabs_nonneg d) as N. destruct (Qlt_le_dec 0 (Qabs d)) as [L|L]; [exact L|]. assert (Z : (Qabs d == 0)%Q) by lra. rewrite Z in H. lra. }
    rewrite (Qmult_comm (Qabs d)) in A. apply Qmult_lt_r in A; [|exact Pd]. assert (F : (q - q' == inject_Z (k - k') * p)%Q) by (unfold Zminus; rewrite K, K', inject_Z_plus, inject_Z_opp; ring).
    rewrite F, Qabs_Qmult, (Qabs_pos p) in A by lra. assert (G : (Qabs (inject_Z (k - k')) * p < 1 * p)%Q) by lra. apply Qmult_lt_r in G; [|exact P].
    change (Qabs (inject_Z (k - k'))) with (inject_Z (Z.abs (k - k'))) in G. change 1%Q with (inject_Z 1) in G. rewrite <- Zlt_Qlt in G. lia. }
  assert (Q : (q == q')%Q) by (rewrite K, K', X; reflexivity). split; [exact Q|]. rewrite Q in D. assert (Z : ((q' - q') * d == 0)%Q) by ring. rewrite Z in D. lra.
Qed.
Print Assumptions C87_unique.
Example C87_unique_ex : (10 == (5 # 4) * 8 + 0)%Q /\ (5 # 4 == inject_Z 5 * pw (-2))%Q /\ (0 < Qabs 8 * pw (-2))%Q.
Proof. repeat split; vm_compute; reflexivity. Qed.

(** Without that bound on the divisor's exponent the result is wrong without an exception: 0 / 4 gives 1. *)
Theorem C87_coarse_divisor_refuted : exists f c g d, basis f c /\ basis g d /\ (1 <= msize f)%nat /\ (1 <= msize g)%nat /\ ~ (value g d == 0)%Q /\
  exists fq cq fr cr gone, q_divmod (qvar f c) (qvar g d) 0 = Some (qvar fq cq, qvar fr cr, qvar f c, qvar g d, gone) /\
    ~ (Qabs (value fq cq - value f c / value g d) < 1)%Q /\ ~ (value f c == value fq cq * value g d + value fr cr)%Q.
Proof.
  exists (mk 1 0 false), 0, (mk 1 2 false), 1. split; [vm_compute; split; congruence|]. split; [vm_compute; split; congruence|]. split; [cbn; lia|]. split; [cbn; lia|]. split; [vm_compute; discriminate|].
  exists (mk 1 0 true), 1, (mk 3 0 true), 2. eexists. split; [vm_compute; reflexivity|]. split; vm_compute; discriminate.
Qed.
Print Assumptions C87_coarse_divisor_refuted.
