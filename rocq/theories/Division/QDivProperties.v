(** C87 continued: q_div, the division operators and qf_inversion. *)
From Coq Require Import List ZArith QArith Qround Qabs Qcanon Bool Lia Lqa Arith Ring_theory.
Import ListNotations.
From Verif.Inverse Require Import InvModel InvSpec.
From Verif.CtrlOps Require Import CtrlModel CtrlSpec CtrlComplex.
From Verif.QFloat Require Import QFModel QFSpec.
From Verif.Fourier Require Import FourierModel FourierSpec RegProofs AdderProofs.
From Verif.Sbp Require Import SbpModel SbpSpec NumProofs CircProofs.
From Verif.Hybrid Require Import HybridModel HybridSpec HybridAll.
From Verif.Order Require Import OrderModel.
From Verif.Division Require Import DivModel DivSpec DivProofs3 DivProperties QDivModel QDivProofs.
Local Open Scope Z_scope.
Local Notation float := QFSpec.value.
Local Notation content := FourierSpec.value.

(** the precision that is used: by default the size of the divisor minus the exponent of the numerator *)
Definition precision (f g : shape) (prec : option Z) : Z := match prec with Some p => p | None => Z.of_nat (size g) - expo f end.
(** The formats for which C87_divmod holds *)
Definition divisible (f g : shape) (p : Z) : Prop := (1 <= msize f)%nat /\ (1 <= msize g)%nat /\ Z.min (expo f) (expo g) - expo f <= p /\ expo g <= upto f + p.
Lemma divide_qvar f c g d prec : q_div_divide (qvar f c) (qvar g d) prec = q_divmod (qvar f c) (qvar g d) (precision f g prec).
Proof. unfold q_div_divide, precision. destruct prec; [reflexivity|]. rewrite qvar_size. reflexivity. Qed.

(** q_div first divides as q_divmod does: the quotient is within 2^-prec of the true one. *)
Theorem C87_div_quotient : forall f c g d prec, basis f c -> basis g d -> divisible f g (precision f g prec) -> ~ (float g d == 0)%Q ->
  let p := precision f g prec in let fq := quotient_shape f g p in let fr := remainder_shape f g p in
  exists cq cr gone, q_div_divide (qvar f c) (qvar g d) prec = Some (qvar fq cq, qvar fr cr, qvar f c, qvar g d, gone) /\ zeros gone /\ basis fq cq /\ basis fr cr /\
    (float f c == float fq cq * float g d + float fr cr)%Q /\ (Qabs (float fq cq - float f c / float g d) < pw (- p))%Q.
Proof.
  intros f c g d prec B B' (M & M' & P1 & P2) D p fq fr. destruct (C87_divmod f c g d p B B' M M' D P1 P2) as (cq & cr & gone & G & C & Bq & Br & V & _ & _ & A & _).
  exists cq, cr, gone. split; [rewrite divide_qvar; exact G|]. split; [exact C|]. split; [exact Bq|]. split; [exact Br|]. split; [exact V|exact A].
Qed.
Print Assumptions C87_div_quotient.

(** the content of the four registers in the basis state y is a result of that division *)
Definition divided (f g : shape) (prec : option Z) (qq qg qr qf : list nat) (y : list bool) : Prop :=
  let p := precision f g prec in ~ (float g (content y qg) == 0)%Q /\
  exists gone, q_div_divide (qvar f (content y qf)) (qvar g (content y qg)) prec =
    Some (qvar (quotient_shape f g p) (content y qq), qvar (remainder_shape f g p) (content y qr), qvar f (content y qf), qvar g (content y qg), gone).

Section ring.
Context {R : Type} (rO rI : R) (radd rmul rsub : R -> R -> R) (ropp : R -> R) (RT : ring_theory rO rI radd rmul rsub ropp eq).
Context (expi chalf shalf : Qc -> R) (im : R) (EU : euler rO rI radd rmul ropp expi chalf shalf im).
Notation run := (run_circuit Qcplus rO rI radd rmul ropp expi chalf shalf im).
Notation amp := (list bool -> R).

(** Then the remainder is uncomputed: the circuit that follows maps every superposition of results of the division to the same superposition with remainder 0, without
    a phase, so the remainder can be deleted. [anc] and [h] are the qubits hybrid_mult allocates. *)
Theorem C87_div_remainder : forall f g prec N qq qg qr qf anc h, divisible f g (precision f g prec) ->
  let p := precision f g prec in let fq := quotient_shape f g p in let fr := remainder_shape f g p in
  layout N fq g fr qq qg qr anc h -> length qf = size f -> (forall q, In q qf -> (q < N)%nat /\ ~ In q qr) ->
  exists circuit, q_div_uncompute fq g fr f qq qg qr qf anc h = Some circuit /\
  forall psi : amp, blank rO psi [anc] -> (forall y, length y = N -> ~ divided f g prec qq qg qr qf y -> psi y = rO) ->
  forall x, length x = N -> getbit x h = false -> divided f g prec qq qg qr qf x ->
  forall w, basis fr w -> run circuit psi (store x qr w) = if w =? 0 then psi x else rO.
Proof.
  intros f g prec N qq qg qr qf anc h DV p fq fr L Lf Df.
  assert (Lq : length qq = size fq) by apply L. assert (Lg : length qg = size g) by apply L. assert (Lr : length qr = size fr) by apply L.
  assert (REL : forall y, divided f g prec qq qg qr qf y -> (holds f y qf == holds fq y qq * holds g y qg + holds fr y qr)%Q).
  { intros y (D0 & gone & G). destruct (C87_div_quotient f (content y qf) g (content y qg) prec (value_basis _ _ _ Lf) (value_basis _ _ _ Lg) DV D0) as (cq & cr & gone' & G' & _ & Bq & Br & V & _).
    rewrite G in G'. fold p fq fr in G'.
    assert (E1 : qvar fq (content y qq) = qvar fq cq) by congruence. assert (E2 : qvar fr (content y qr) = qvar fr cr) by congruence.
    assert (E1' : content y qq = cq) by (rewrite <- (qvar_code fq cq Bq), <- E1; symmetry; apply qvar_code, value_basis, Lq).
    assert (E2' : content y qr = cr) by (rewrite <- (qvar_code fr cr Br), <- E2; symmetry; apply qvar_code, value_basis, Lr).
    unfold holds. rewrite E1', E2'. exact V. }
  destruct DV as (M & M' & P1 & P2). fold p in P1, P2.
  assert (X : exists circuit, q_div_uncompute fq g fr f qq qg qr qf anc h = Some circuit).
  { unfold q_div_uncompute. replace (expo fr <=? expo f) with true by (symmetry; apply Z.leb_le; unfold fr; cbn; lia). unfold hybrid_mult_into, hybrid_run.
    assert (Y1 : (0 <? msize g)%nat = true) by (apply Nat.ltb_lt; lia). assert (Y2 : (0 <? msize fq)%nat = true) by (apply Nat.ltb_lt; unfold fq; cbn [msize quotient_shape]; lia).
    assert (Y3 : expo fr <= expo fq + expo g) by (unfold fr, fq; cbn; lia).
    cbn [initial]. destruct (QFT false (anc :: qr) false true 1) as [v|] eqn:W; [|unfold QFT, qft_inner in W; cbn in W; destruct (qft_rows _ _ _); discriminate].
    destruct (size g <? size fq)%nat.
    - rewrite Y1. replace (expo fr <=? expo fq + expo g) with true by (symmetry; apply Z.leb_le; exact Y3). eexists. reflexivity.
    - rewrite Y2. replace (expo fr <=? expo g + expo fq) with true by (symmetry; apply Z.leb_le; lia). eexists. reflexivity. }
  destruct X as (circuit & HC). exists circuit. split; [exact HC|]. intros psi B Sup x Lx H0 Dx w Bw.
  rewrite (uncompute_run rO rI radd rmul rsub ropp RT expi chalf shalf im EU N fq g fr f qq qg qr qf anc h circuit HC L Lf Df) with (z := content x qr).
  - replace (store x qr (content x qr)) with x; [reflexivity|]. unfold store, content. rewrite <- (read_length x qr), bits_number. symmetry. apply write_read. apply (layout_register _ _ _ _ _ _ _ _ _ x L Lx).
  - unfold fr. cbn [msize remainder_shape]. lia.
  - exact B.
  - intros y Ly NR. apply Sup; [exact Ly|]. intros Dy. apply NR, REL, Dy.
  - exact Lx.
  - exact H0.
  - apply value_basis, Lr.
  - exact (REL x Dx).
  - exact Bw.
Qed.
End ring.
Print Assumptions C87_div_remainder.

(** a // b for unsigned operands with non-negative exponents: the integer part of the quotient; otherwise an exception *)
Theorem C87_floor : forall f c g d, basis f c -> basis g d -> (1 <= msize f)%nat -> (1 <= msize g)%nat ->
  (floordiv (qvar f c) (qvar g d) <> None -> signed f = false /\ signed g = false /\ 0 <= expo f /\ 0 <= expo g) /\
  (signed f = false -> signed g = false -> 0 <= expo f -> 0 <= expo g -> expo g <= upto f -> ~ (float g d == 0)%Q ->
   exists fq cq fr cr gone, floordiv (qvar f c) (qvar g d) = Some (qvar fq cq, qvar fr cr, qvar f c, qvar g d, gone) /\ zeros gone /\ basis fq cq /\
     (float fq cq == inject_Z (Qfloor (float f c / float g d)))%Q).
Proof.
  intros f c g d B B' M M'. unfold floordiv. change (sg (qvar f c)) with (signed f). change (sg (qvar g d)) with (signed g). change (ex (qvar f c)) with (expo f). change (ex (qvar g d)) with (expo g). split.
  - destruct (signed f), (signed g); cbn [orb]; try congruence. destruct (Z.ltb_spec (expo f) 0), (Z.ltb_spec (expo g) 0); cbn [orb]; try congruence. intros _. repeat split; lia.
  - intros SF SG E1 E2 T D. rewrite SF, SG. cbn [orb]. destruct (Z.ltb_spec (expo f) 0), (Z.ltb_spec (expo g) 0); try lia. cbn [orb].
    destruct (C87_divmod f c g d 0 B B' M M' D ltac:(lia) ltac:(lia)) as (cq & cr & gone & G & C & Bq & Br & V & R0 & R1 & _ & k & K).
    exists (quotient_shape f g 0), cq, (remainder_shape f g 0), cr, gone. split; [exact G|]. split; [exact C|]. split; [exact Bq|]. set (q := float (quotient_shape f g 0) cq) in *. set (r := float (remainder_shape f g 0) cr) in *.
    change (pw (- 0)) with 1%Q in *. rewrite Qmult_1_r in K, R1.
    assert (DP : (0 < float g d)%Q).
    { assert (N : (0 <= float g d)%Q). { unfold QFSpec.value. apply Qmult_le_0_compat; [|pose proof (QFProofs.pw_pos (expo g)); lra]. change 0%Q with (inject_Z 0). rewrite <- Zle_Qle. unfold mantissa. rewrite SG. apply B'. }
      destruct (Qlt_le_dec 0 (float g d)) as [X|X]; [exact X|]. exfalso. apply D. lra. }
    rewrite (Qabs_pos (float g d)) in R1 by lra. rewrite K. rewrite (floor_unique (float f c / float g d) k); [reflexivity|split].
    + apply Qle_shift_div_l; [exact DP|]. rewrite V, K. lra.
    + apply Qlt_shift_div_r; [exact DP|]. rewrite V, K, inject_Z_plus. change (inject_Z 1) with 1%Q. lra.
Qed.
Print Assumptions C87_floor.
(** 11 // 4 = 2 *)
Example C87_floor_ex : let f := mk 4 0 false in let g := mk 1 2 false in exists fq cq fr cr gone, floordiv (qvar f 11) (qvar g 1) = Some (qvar fq cq, qvar fr cr, qvar f 11, qvar g 1, gone) /\ (float f 11 == 11)%Q /\ (float g 1 == 4)%Q /\ (float fq cq == 2)%Q.
Proof. exists (mk 3 0 true), 2, (mk 3 0 true), 3. eexists. split; [vm_compute; reflexivity|]. repeat split; reflexivity. Qed.

(** qf_inversion (and ** -1, with the default precision): within 2^-prec of the inverse; d keeps its value. The remainder is uncomputed as in C87_div_remainder, with the
    format mk 1 0 false of the numerator, which keeps its value 1 and is reset before it is deleted. *)
Theorem C87_inverse : forall g d prec, basis g d -> (1 <= msize g)%nat -> ~ (float g d == 0)%Q ->
  let p := match prec with Some p => p | None => Z.of_nat (size g) end in Z.min 0 (expo g) <= p -> expo g <= 1 + p ->
  exists fq cq fr cr gone, qf_inversion (qvar g d) prec = Some (qvar fq cq, qvar fr cr, qvar (mk 1 0 false) 1, qvar g d, gone) /\ zeros gone /\ basis fq cq /\
    (Qabs (float fq cq - 1 / float g d) < pw (- p))%Q.
Proof.
  intros g d prec B M D p P1 P2. destruct (C87_div_quotient (mk 1 0 false) 1 g d (Some p)) as (cq & cr & gone & G & C & Bq & _ & _ & A).
  - vm_compute. split; congruence.
  - exact B.
  - unfold divisible. cbn [precision msize expo]. unfold upto. cbn [expo msize]. split; [lia|]. split; [exact M|]. split; [lia|]. change (Z.of_nat 1) with 1. lia.
  - exact D.
  - exists (quotient_shape (mk 1 0 false) g p), cq, (remainder_shape (mk 1 0 false) g p), cr, gone. split; [|split; [exact C|split; [exact Bq|exact A]]]. unfold qf_inversion. rewrite qvar_size. exact G.
Qed.
Print Assumptions C87_inverse.
(** the inverse of 0.75 with precision 4 (the example of the documentation) *)
Example C87_inverse_ex : let g := mk 2 (-2) false in exists fq cq fr cr gone, qf_inversion (qvar g 3) (Some 4) = Some (qvar fq cq, qvar fr cr, qvar (mk 1 0 false) 1, qvar g 3, gone) /\ (float g 3 == 3 # 4)%Q /\ (float fq cq == 13125 # 10000)%Q.
Proof. exists (mk 8 (-4) true), 21, (mk 3 (-7) true), 2. eexists. split; [vm_compute; reflexivity|]. repeat split; reflexivity. Qed.

(** With the default precision / fails for a numerator with a large exponent *)
Theorem C87_truediv_refuted : forall c d, truediv (qvar (mk 1 4 false) c) (qvar (mk 2 4 false) d) = None.
Proof. intros c d. reflexivity. Qed.
Print Assumptions C87_truediv_refuted.

(** 10 / 8 with precision 0 on 22 qubits, complex amplitudes: the state after the division (quotient 1, remainder 2) is mapped to the state with remainder 0 *)
Definition demo_f : shape := mk 4 0 false.
Definition demo_q : list nat := seq 0 6. Definition demo_g : list nat := seq 6 4. Definition demo_r : list nat := seq 10 6. Definition demo_n : list nat := seq 16 4.
Definition demo_x : list bool := bits_of 6 1 ++ bits_of 4 8 ++ bits_of 6 4 ++ bits_of 4 10 ++ [false; false].
Example C87_div_ex : divided demo_f demo_f (Some 0) demo_q demo_g demo_r demo_n demo_x /\
  exists circuit, q_div_uncompute (mk 5 0 true) demo_f (mk 5 (-1) true) demo_f demo_q demo_g demo_r demo_n 20 21 = Some circuit /\
  forall psi, (forall y, y <> demo_x -> psi y = c0) -> run_circuit Qcplus c0 c1 cadd cmul copp cexpi ccos csin ci circuit psi (bits_of 6 1 ++ bits_of 4 8 ++ bits_of 6 0 ++ bits_of 4 10 ++ [false; false]) = psi demo_x.
Proof.
  assert (D : divided demo_f demo_f (Some 0) demo_q demo_g demo_r demo_n demo_x) by (split; [vm_compute; discriminate|eexists; vm_compute; reflexivity]).
  split; [exact D|].
  destruct (C87_div_remainder c0 c1 cadd cmul csub copp complex_ring cexpi ccos csin ci complex_euler demo_f demo_f (Some 0) 22 demo_q demo_g demo_r demo_n 20 21) as (circuit & HC & K).
  - unfold divisible. cbn. lia.
  - repeat split; try (repeat constructor; cbn; intuition lia). cbn. intuition lia.
  - reflexivity.
  - cbn. intuition lia.
  - exists circuit. split; [exact HC|]. intros psi S. apply (K psi) with (x := demo_x) (w := 0); try reflexivity.
    + intros y q [<-|[]] G. apply S. intros ->. discriminate G.
    + intros y _ ND. apply S. intros ->. exact (ND D).
    + exact D.
    + vm_compute. split; congruence.
Qed.
