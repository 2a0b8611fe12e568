(** Property C67: arithmetic on QuantumFloats with semi-boolean polynomials. *)
From Coq Require Import List ZArith Bool Lia Arith QArith Qround Qcanon Ring_theory.
Import ListNotations.
From Verif.Inverse Require Import InvModel InvSpec.
From Verif.CtrlOps Require Import CtrlModel CtrlSpec CtrlComplex.
From Verif.QFloat Require Import QFModel QFSpec QFProofs SbpProofs.
From Verif.Fourier Require Import FourierModel FourierSpec RegProofs FourierProperties.
From Verif.Sbp Require Import SbpModel SbpSpec EncProofs NumProofs CircProofs.
Local Open Scope nat_scope.

Section numbers.
Context {R : Type} (rO rI : R) (radd rmul rsub : R -> R -> R) (ropp : R -> R) (RT : ring_theory rO rI radd rmul rsub ropp eq).
Context (expi chalf shalf : Qc -> R) (im : R) (EU : euler rO rI radd rmul ropp expi chalf shalf im).
Notation run := (run_circuit Qcplus rO rI radd rmul ropp expi chalf shalf im).
Notation amp := (list bool -> R).
Notation float := QFSpec.value.

(** Encoding a polynomial in qubits, all coefficients multiples of 2^exponent: the register becomes m times its content plus the
    value of the polynomial; every other qubit, work qubits included, keeps its value, and no phase appears. *)
Theorem C67_encoder : forall inputs out work e m ms c, sb_polynomial_encoder out e m ms work = Some c ->
  (forall k qs, In (k, qs) ms -> (exists z, k == inject_Z z * pw e)%Q /\ incl qs inputs) -> length ms <= length work ->
  forall x z, setting inputs out work x -> (polynomial x ms == inject_Z z * pw e)%Q ->
  forall psi : amp, run c psi (store x out (m * value x out + z)) = psi x.
Proof.
  intros ins out work e m ms c H G L x z S P psi. rewrite <- (addends_grid e x ms work z L) with (3 := P).
  - apply (encoder_setting rO rI radd rmul rsub ropp RT expi chalf shalf im EU ins out work e m ms c x H S). intros [k qs] q I J. apply (G k qs I), J.
  - intros a I. apply S, I.
  - intros [k qs] I. apply (G k qs I).
Qed.
(** Coefficients off the grid are rounded to it one by one. *)
Theorem C67_rounding : forall inputs out work e m ms c, sb_polynomial_encoder out e m ms work = Some c ->
  (forall k qs, In (k, qs) ms -> incl qs inputs) -> length ms <= length work -> forall x, setting inputs out work x ->
  forall psi : amp, run c psi (store x out (m * value x out + fold_right Z.add 0%Z (map (fun t => if forallb (getbit x) (snd t) then qround (fst t / pw e) else 0%Z) ms))) = psi x.
Proof.
  intros ins out work e m ms c H G L x S psi. rewrite <- (addends_sum e x ms work L) by (intros a I; apply S, I).
  apply (encoder_setting rO rI radd rmul rsub ropp RT expi chalf shalf im EU ins out work e m ms c x H S). intros [k qs] q I J. apply (G k qs I), J.
Qed.
(** Only even factors are refused. *)
Theorem C67_defined : forall out work e m ms, sb_polynomial_encoder out e m ms work = None <-> Z.odd m = false.
Proof. intros. apply encoder_defined. Qed.

Lemma sbp_run o same a b qa qb qo work c : sbp_circuit o same a b qa qb qo work = Some c -> length qa = size a -> length qb = size b -> length qo = size (out_shape o same a b) ->
  length (sbp_monomials o a b qa qb (msize (out_shape o same a b))) <= length work -> forall x, setting (qa ++ qb) qo work x -> value x qo = 0%Z ->
  forall psi : amp, run c psi (store x qo (snd (sbp o same a b (value x qa) (value x qb)))) = psi x.
Proof.
  intros H La Lb Lo Lw x S V psi. rewrite sbp_read by assumption. rewrite <- V.
  apply (encoder_monomials rO rI radd rmul rsub ropp RT expi chalf shalf im EU (qa ++ qb) (out_shape o same a b) qo work _ c x Lo H S); [|exact Lw].
  intros t q It Iq. exact (sbp_qubits _ _ _ _ _ _ _ _ It Iq).
Qed.
(** a + b into a new register, for all shapes; a and b may share qubits. *)
Theorem C67_add : forall same a b qa qb qo work c, sbp_circuit Add same a b qa qb qo work = Some c -> let out := out_shape Add same a b in
  length qa = size a -> length qb = size b -> length qo = size out -> size a + size b <= length work ->
  forall x, setting (qa ++ qb) qo work x -> value x qo = 0%Z ->
  exists z, basis out z /\ (float out z == holds a x qa + holds b x qb)%Q /\ forall psi : amp, run c psi (store x qo z) = psi x.
Proof.
  intros same a b qa qb qo work c H out La Lb Lo Lw x S V. exists (snd (sbp Add same a b (value x qa) (value x qb))).
  pose proof (sbp_add_ok a b (value x qa) (value x qb) same (value_basis _ _ _ La) (value_basis _ _ _ Lb)) as K. cbn in K. destruct K as [B E].
  split; [exact B|]. split; [exact E|]. apply (sbp_run Add same a b qa qb qo work c H La Lb Lo); auto. cbn. rewrite app_length. unfold register_poly. rewrite !map_length, !combine_length. lia.
Qed.
Theorem C67_sub : forall same a b qa qb qo work c, sbp_circuit Sub same a b qa qb qo work = Some c -> let out := out_shape Sub same a b in
  length qa = size a -> length qb = size b -> length qo = size out -> size a + size b <= length work ->
  forall x, setting (qa ++ qb) qo work x -> value x qo = 0%Z ->
  exists z, basis out z /\ (float out z == holds a x qa - holds b x qb)%Q /\ forall psi : amp, run c psi (store x qo z) = psi x.
Proof.
  intros same a b qa qb qo work c H out La Lb Lo Lw x S V. exists (snd (sbp Sub same a b (value x qa) (value x qb))).
  pose proof (sbp_sub_ok a b (value x qa) (value x qb) same (value_basis _ _ _ La) (value_basis _ _ _ Lb)) as K. cbn in K. destruct K as [B E].
  split; [exact B|]. split; [exact E|]. apply (sbp_run Sub same a b qa qb qo work c H La Lb Lo); auto. cbn. rewrite app_length. unfold negate_poly. rewrite map_length. unfold register_poly. rewrite !map_length, !combine_length. lia.
Qed.
Lemma times_length a b : length (times_poly a b) = length a * length b.
Proof. unfold times_poly. induction a as [|[k qs] a IH]; [reflexivity|]. cbn [flat_map length]. etransitivity; [apply app_length|]. etransitivity; [apply (f_equal2 Nat.add); [apply map_length|exact IH]|]. reflexivity. Qed.
Lemma mul_work a b qa qb m (work : list nat) : length qa = size a -> length qb = size b -> size a * size b <= length work -> length (sbp_monomials Mul a b qa qb m) <= length work.
Proof. intros La Lb Lw. cbn. rewrite times_length. unfold register_poly. rewrite !map_length, !combine_length. etransitivity; [apply Nat.mul_le_mono; apply Nat.le_min_r|]. lia. Qed.
(** a * b for two variables *)
Theorem C67_mul : forall a b qa qb qo work c, sbp_circuit Mul false a b qa qb qo work = Some c -> let out := out_shape Mul false a b in
  length qa = size a -> length qb = size b -> length qo = size out -> size a * size b <= length work ->
  forall x, setting (qa ++ qb) qo work x -> value x qo = 0%Z ->
  exists z, basis out z /\ (float out z == holds a x qa * holds b x qb)%Q /\ forall psi : amp, run c psi (store x qo z) = psi x.
Proof.
  intros a b qa qb qo work c H out La Lb Lo Lw x S V. exists (snd (sbp Mul false a b (value x qa) (value x qb))).
  pose proof (sbp_mul_ok a b (value x qa) (value x qb) (value_basis _ _ _ La) (value_basis _ _ _ Lb)) as K. cbn in K. destruct K as [B E].
  split; [exact B|]. split; [exact E|]. apply (sbp_run Mul false a b qa qb qo work c H La Lb Lo); auto. apply mul_work; auto.
Qed.
(** a * a: the result is unsigned if a is signed *)
Theorem C67_square : forall a qa qo work c, sbp_circuit Mul true a a qa qa qo work = Some c -> let out := out_shape Mul true a a in
  length qa = size a -> length qo = size out -> size a * size a <= length work ->
  forall x, setting (qa ++ qa) qo work x -> value x qo = 0%Z ->
  exists z, basis out z /\ (float out z == holds a x qa * holds a x qa)%Q /\ forall psi : amp, run c psi (store x qo z) = psi x.
Proof.
  intros a qa qo work c H out La Lo Lw x S V. exists (snd (sbp Mul true a a (value x qa) (value x qa))).
  pose proof (sbp_square_ok a (value x qa) (value_basis _ _ _ La)) as K. cbn in K. destruct K as [B E].
  split; [exact B|]. split; [exact E|]. apply (sbp_run Mul true a a qa qa qo work c H La La Lo); auto. apply mul_work; auto.
Qed.
(** a * n for an integer n, with the exception of C20_mul_int_refuted *)
Theorem C67_mul_int : forall fuel f n qs qo work out c, mul_int_circuit fuel f n qs qo work = Some (out, c) ->
  length qs = size f -> length qo = size out -> length qs <= length work ->
  forall x, setting qs qo work x -> value x qo = 0%Z ->
  ~ (signed f = true /\ (holds f x qs == - inject_Z (2 ^ Z.of_nat (msize f)) * pw (expo f))%Q /\ exists s, (0 <= s /\ n = - 2 ^ s)%Z) ->
  exists z, basis out z /\ (float out z == inject_Z n * holds f x qs)%Q /\ forall psi : amp, run c psi (store x qo z) = psi x.
Proof.
  intros fuel f n qs qo work out c H Lq Lo Lw x S V N. unfold mul_int_circuit in H. destruct (odd_part fuel n 0) as [[o s]|] eqn:E; [|discriminate].
  set (out' := mk (msize f + Z.to_nat (Z.log2_up (Z.abs o))) (expo f) (signed f || (o <? 0)%Z)) in H.
  destruct (sb_polynomial_encoder qo (expo out') 1 (scale_poly (inject_Z o) (register_poly f (size out') qs)) work) as [c'|] eqn:K; [|discriminate]. injection H as <- <-.
  set (d := encode_monomials out' (map (fun '(k, bs) => ((inject_Z o * k)%Q, bs)) (poly_of f (size out') (value x qs))) 0). exists d.
  assert (M : mul_int fuel f n (value x qs) = Some (mk (msize out') (expo out' + s) (signed out'), d)) by (unfold mul_int; rewrite E; reflexivity).
  apply (mul_int_ok fuel f n (value x qs)) in M as [B VE]; [|apply value_basis, Lq|].
  2:{ intros (A & C & D). apply N. split; [exact A|]. split; [|exact D]. unfold holds, float. rewrite C, inject_Z_opp. reflexivity. }
  split; [exact B|]. split; [exact VE|]. intros psi. assert (Lo' : length qo = size out') by exact Lo.
  replace d with (encode_monomials out' (map (rd x) (scale_poly (inject_Z o) (register_poly f (size out') qs))) (value x qo)) by (rewrite V, scale_read, register_poly_read by exact Lq; reflexivity).
  apply (encoder_monomials rO rI radd rmul rsub ropp RT expi chalf shalf im EU qs out' qo work _ c' x Lo' K S).
  - intros t q It Iq. apply scale_qubits in It as (t' & It & Et). rewrite <- Et in Iq. exact (poly_qubits _ _ _ _ _ It Iq).
  - unfold scale_poly, register_poly. rewrite !map_length, combine_length. lia.
Qed.

(** a += b and a -= b for a QuantumFloat b with an exponent not below that of a: exact if the result is representable. *)
Theorem C67_inplace : forall (negative : bool) f g qf qg work c, inplace_register negative f g qf qg work = Some c ->
  length qf = size f -> length qg = size g -> length qg <= length work -> (expo f <= expo g)%Z ->
  forall x, setting qg qf work x -> let v := (if negative then holds f x qf - holds g x qg else holds f x qf + holds g x qg)%Q in representable f v ->
  exists z, basis f z /\ (float f z == v)%Q /\ forall psi : amp, run c psi (store x qf z) = psi x.
Proof.
  intros neg f g qf qg work c H Lf Lg Lw LE x S v Rp. unfold inplace_register in H. destruct (negb (signed f) && signed g); [discriminate|].
  set (v0 := (if neg then - float g (value x qg) else float g (value x qg))%Q). assert (Ev : (v == float f (value x qf) + v0)%Q) by (unfold v, v0, holds; destruct neg; [unfold Qminus|]; reflexivity).
  assert (Rp' : representable f (float f (value x qf) + v0)) by (destruct Rp as (k & I & W); exists k; split; [exact I|]; rewrite <- Ev; exact W).
  pose proof (inplace_value neg f g (value x qf) (value x qg) (value_basis _ _ _ Lf) (value_basis _ _ _ Lg) LE Rp') as [B E]. eexists. split; [exact B|]. split; [rewrite Ev; exact E|]. intros psi.
  replace (let p := poly_of g (size f) (value x qg) in if neg then map (fun '(k, bs) => ((- k)%Q, bs)) p else p) with (map (rd x) (if neg then negate_poly (register_poly g (size f) qg) else register_poly g (size f) qg))
    by (destruct neg; rewrite ?negate_read, register_poly_read by exact Lg; reflexivity).
  apply (encoder_monomials rO rI radd rmul rsub ropp RT expi chalf shalf im EU qg f qf work _ c x Lf H S).
  - intros t q It Iq. destruct neg; [apply negate_qubits in It as (t' & It & Et); rewrite <- Et in Iq|]; exact (poly_qubits _ _ _ _ _ It Iq).
  - destruct neg; unfold negate_poly, register_poly; rewrite ?map_length, combine_length; lia.
Qed.
(** Refused if a is unsigned and b signed, never otherwise. *)
Theorem C67_inplace_defined : forall negative f g qf qg work, inplace_register negative f g qf qg work = None <-> signed f = false /\ signed g = true.
Proof.
  intros. unfold inplace_register. destruct (signed f), (signed g); cbn [negb andb]; rewrite ?encoder_defined; split; try discriminate; intuition discriminate.
Qed.
(** a += b for an unsigned b with a smaller exponent: adds b rounded down to the grid of a, modulo 2^size. *)
Theorem C67_inplace_finer : forall f g qf qg work c, inplace_register false f g qf qg work = Some c ->
  length qf = size f -> length qg = size g -> length qg <= length work -> (expo g < expo f)%Z -> signed g = false ->
  forall x, setting qg qf work x -> forall psi : amp, run c psi (store x qf (value x qf + Qfloor (holds g x qg / pw (expo f)))) = psi x.
Proof.
  intros f g qf qg work c H Lf Lg Lw LE Sg x S psi. unfold inplace_register in H. rewrite Sg, andb_false_r in H. rewrite <- (addends_finer f g x qg work (size f) Lg Sg LE Lw) by (intros a I; apply S, I).
  rewrite <- (Z.mul_1_l (value x qf)). apply (encoder_setting rO rI radd rmul rsub ropp RT expi chalf shalf im EU qg qf work (expo f) 1 _ c x H S). intros t q. apply poly_qubits.
Qed.
(** For a signed b with a smaller exponent it may be wrong: a = QuantumFloat(3, signed = True) holding 0, b = QuantumFloat(4, -3, signed = True)
    holding -1. After a += b, a holds 3 instead of -1. *)
Theorem C67_inplace_finer_refuted : exists f g qf qg work c x, inplace_register false f g qf qg work = Some c /\ length qf = size f /\ length qg = size g /\ length qg <= length work /\
  setting qg qf work x /\ (holds f x qf == 0)%Q /\ (holds g x qg == - (1))%Q /\ representable f (holds f x qf + holds g x qg) /\
  (float f 3 == 3)%Q /\ forall psi : amp, run c psi (store x qf 3) = psi x.
Proof.
  exists (mk 3 0 true), (mk 4 (-3) true), [0; 1; 2; 3], [4; 5; 6; 7; 8], [9; 9; 9; 9; 9].
  destruct (inplace_register false (mk 3 0 true) (mk 4 (-3) true) [0; 1; 2; 3] [4; 5; 6; 7; 8] [9; 9; 9; 9; 9]) as [c|] eqn:E; [|apply C67_inplace_defined in E as [E _]; discriminate].
  exists c, [false; false; false; false; false; false; false; true; true; false]. split; [reflexivity|].
  set (x := [false; false; false; false; false; false; false; true; true; false]).
  assert (S : setting [4; 5; 6; 7; 8] [0; 1; 2; 3] [9; 9; 9; 9; 9] x).
  { split; [apply reg_of; [nodup|reflexivity]|]. split; [intros q I; cbn in *; lia|]. intros q I. assert (q = 9) as -> by (cbn in I; lia). cbn. repeat split; lia. }
  repeat (split; [first [exact S|reflexivity|cbn; lia]|]).
  split; [exists (-1)%Z; split; [vm_compute; split; [discriminate|reflexivity]|reflexivity]|]. split; [reflexivity|]. intros psi.
  change (inplace_register false (mk 3 0 true) (mk 4 (-3) true) [0; 1; 2; 3] [4; 5; 6; 7; 8] [9; 9; 9; 9; 9]) with (sb_polynomial_encoder [0; 1; 2; 3] 0 1 (register_poly (mk 4 (-3) true) 4 [4; 5; 6; 7; 8]) [9; 9; 9; 9; 9]) in E.
  apply (encoder_monomials rO rI radd rmul rsub ropp RT expi chalf shalf im EU [4; 5; 6; 7; 8] (mk 3 0 true) [0; 1; 2; 3] [9; 9; 9; 9; 9] _ c x eq_refl E S); [intros t q; apply poly_qubits|cbn; lia].
Qed.
(** a += k and a -= k for a number k: exact if the result is representable, refused if k is off the grid of a. *)
Theorem C67_inplace_number : forall (negative : bool) f k qf work x, length qf = size f -> setting [] qf work x -> 1 <= length work ->
  let v := (if negative then holds f x qf - k else holds f x qf + k)%Q in representable f v ->
  exists c z, inplace_number negative f k qf work = Some c /\ basis f z /\ (float f z == v)%Q /\ forall psi : amp, run c psi (store x qf z) = psi x.
Proof.
  intros neg f k qf work x Lf S Lw v Rp. set (k' := (if neg then - k else k)%Q). assert (Ev : (v == holds f x qf + k')%Q) by (unfold v, k'; destruct neg; [unfold Qminus|]; reflexivity).
  assert (Rp' : representable f (float f (value x qf) + k')) by (destruct Rp as (z & I & W); exists z; split; [exact I|]; rewrite <- Ev; exact W).
  destruct (add_num_ok f k' (value x qf) (value_basis _ _ _ Lf) Rp') as (d & A & B & E). unfold add_num in A. destruct (Qeq_bool (inject_Z (qtrunc (k' / pw (expo f)))) (k' / pw (expo f))) eqn:G; [|discriminate]. injection A as A.
  assert (G' : Qeq_bool (inject_Z (qtrunc (k / pw (expo f)))) (k / pw (expo f)) = true).
  { unfold k' in G. destruct neg; [|exact G]. apply Qeq_bool_iff in G. apply Qeq_bool_iff. set (t := qtrunc (- k / pw (expo f))) in G. pose proof (pw_nz (expo f)) as P.
    assert (K : (k / pw (expo f) == inject_Z (- t))%Q) by (rewrite inject_Z_opp, G; field; exact P). rewrite (qtrunc_eq _ _ K), qtrunc_Z. symmetry. exact K. }
  unfold inplace_number. rewrite G'. fold k'. destruct (sb_polynomial_encoder qf (expo f) 1 [(k', [])] work) as [c|] eqn:C; [|apply encoder_defined in C; discriminate].
  exists c, d. split; [reflexivity|]. split; [exact B|]. split; [rewrite Ev; exact E|]. intros psi. rewrite <- A.
  apply (encoder_monomials rO rI radd rmul rsub ropp RT expi chalf shalf im EU [] f qf work [(k', [])] c x Lf C S); [|cbn; lia]. intros t q [<-|[]] [].
Qed.
Theorem C67_inplace_number_grid : forall negative f k qf work, inplace_number negative f k qf work = None <-> forall z, ~ (k == inject_Z z * pw (expo f))%Q.
Proof.
  intros neg f k qf work. unfold inplace_number. destruct (Qeq_bool (inject_Z (qtrunc (k / pw (expo f)))) (k / pw (expo f))) eqn:G.
  - rewrite encoder_defined. split; [discriminate|]. intros H. exfalso. apply Qeq_bool_iff in G. apply (H (qtrunc (k / pw (expo f)))). rewrite G. field. apply pw_nz.
  - split; [|reflexivity]. intros _ z E. rewrite (qtrunc_eq _ (inject_Z z)) in G by (apply div_pw, E). rewrite qtrunc_Z in G. apply Qeq_bool_neq in G. apply G. symmetry. apply div_pw, E.
Qed.
(** a + k and a - k into a new register of the shape of a *)
Theorem C67_add_number : forall (negative : bool) f k qf qo work x, length qf = size f -> length qo = size f -> setting qf qo work x -> 1 <= length work -> value x qo = 0%Z ->
  let v := (if negative then holds f x qf - k else holds f x qf + k)%Q in representable f v ->
  exists c z, add_number_circuit negative f k qf qo work = Some c /\ basis f z /\ (float f z == v)%Q /\ forall psi : amp, run c psi (store x qo z) = psi x.
Proof.
  intros neg f k qf qo work x Lf Lo (Rg & D & W) Lw V v Rp. set (x1 := store x qo (value x qf)).
  assert (S1 : setting [] qo work x1). { apply setting_store. split; [exact Rg|]. split; [intros q []|]. intros q I. destruct (W q I) as (_ & A). split; [intros []|exact A]. }
  assert (V1 : value x1 qo = value x qf). { unfold x1. rewrite value_store by exact Rg. apply Z.mod_small. rewrite Lo. apply (value_basis f x qf Lf). }
  destruct (C67_inplace_number neg f k qo work x1 Lo S1 Lw) as (c & z & C & B & E & Rn); unfold holds in *; rewrite ?V1; [exact Rp|]. rewrite V1 in E.
  unfold add_number_circuit. rewrite C. do 2 eexists. split; [reflexivity|]. split; [exact B|]. split; [exact E|]. intros psi. rewrite FourierProofs.run_app.
  rewrite <- (run_copy_value rO rI radd rmul rsub ropp RT expi chalf shalf im qf qo psi x Rg D V) by lia. fold x1. rewrite <- Rn. f_equal. unfold x1. symmetry. apply store_store, Rg.
Qed.
(** k - a into a new signed register; [qo] has one more qubit if a is unsigned *)
Theorem C67_rsub : forall f k qf qo work x, let out := mk (msize f) (expo f) true in length qf = size f -> length qo = size out -> setting qf qo work x -> 1 <= length work -> value x qo = 0%Z ->
  representable out (k - holds f x qf) ->
  exists c z, rsub_circuit f k qf qo work = Some c /\ basis out z /\ (float out z == k - holds f x qf)%Q /\ forall psi : amp, run c psi (store x qo z) = psi x.
Proof.
  intros f k qf qo work x out Lf Lo (Rg & D & W) Lw V Rp. set (n := (2 ^ Z.of_nat (length qo))%Z). set (x1 := store x qo (value x qf)). set (x2 := store x1 qo (n - 1 - value x qf)%Z).
  assert (S1 : setting [] qo work x1). { apply setting_store. split; [exact Rg|]. split; [intros q []|]. intros q I. destruct (W q I) as (_ & A). split; [intros []|exact A]. }
  assert (S2 : setting [] qo work x2) by (apply setting_store, S1).
  pose proof (value_basis f x qf Lf) as Bf. assert (LE : size f <= size out) by (unfold out, size; cbn; destruct (signed f); lia).
  assert (PW : (2 ^ Z.of_nat (size f) <= n)%Z) by (unfold n; rewrite Lo; apply Z.pow_le_mono_r; lia). unfold basis in Bf.
  assert (V2 : value x2 qo = (n - 1 - value x qf)%Z). { unfold x2. rewrite value_store by apply S1. fold n. apply Z.mod_small. lia. }
  assert (En : n = (2 * 2 ^ Z.of_nat (msize f))%Z). { unfold n. rewrite Lo. unfold out, size. cbn [signed msize]. rewrite Nat2Z.inj_succ, Z.pow_succ_r by lia. reflexivity. }
  assert (M2 : mantissa out (value x2 qo) = (- mantissa f (value x qf) - 1)%Z).
  { rewrite V2. pose proof En as En2. unfold mantissa, size in *. cbn [signed msize out] in *. rewrite Nat2Z.inj_succ, Z.pow_succ_r by lia. destruct (signed f) eqn:Sf.
    - rewrite Nat2Z.inj_succ, Z.pow_succ_r in * by lia. destruct (Z.ltb_spec (value x qf) (2 ^ Z.of_nat (msize f))), (Z.ltb_spec (n - 1 - value x qf) (2 ^ Z.of_nat (msize f))); lia.
    - destruct (Z.ltb_spec (n - 1 - value x qf) (2 ^ Z.of_nat (msize f))); lia. }
  assert (H2 : (holds out x2 qo == - holds f x qf - pw (expo f))%Q). { unfold holds, float. rewrite M2. unfold Z.sub. rewrite inject_Z_plus, inject_Z_opp. cbn [out expo]. change (inject_Z (- (1))) with (-1)%Q. ring. }
  destruct (C67_inplace_number false out (k + pw (expo f))%Q qo work x2 Lo S2 Lw) as (c & z & C & B & E & Rn).
  { destruct Rp as (t & I & Wt). exists t. split; [exact I|]. rewrite H2, <- Wt. ring. }
  unfold rsub_circuit. fold out. rewrite C. do 2 eexists. split; [reflexivity|]. split; [exact B|]. split; [rewrite E, H2; ring|]. intros psi. rewrite !FourierProofs.run_app.
  rewrite <- (run_copy_value rO rI radd rmul rsub ropp RT expi chalf shalf im qf qo psi x Rg D V) by lia. fold x1.
  transitivity (run (map qX qo) (run (map (fun '(a, b) => qCX a b) (combine qf qo)) psi) x2).
  - rewrite <- Rn. f_equal. unfold x2, x1. rewrite !store_store by apply Rg. reflexivity.
  - unfold x2, n. rewrite (run_nots rO rI radd rmul rsub ropp RT expi chalf shalf im) by apply S1. f_equal. unfold x1. apply store_store, Rg.
Qed.
(** Wrong if the result does not fit into the shape of a: 5 - a for a = QuantumFloat(2) holding 0 gives -3. *)
Theorem C67_rsub_refuted : exists f k qf qo work x c, length qf = size f /\ length qo = size (mk (msize f) (expo f) true) /\ setting qf qo work x /\ 1 <= length work /\ value x qo = 0%Z /\
  (holds f x qf == 0)%Q /\ (k == 5)%Q /\ rsub_circuit f k qf qo work = Some c /\ (float (mk (msize f) (expo f) true) 5 == -3)%Q /\ forall psi : amp, run c psi (store x qo 5) = psi x.
Proof.
  set (x := [false; false; false; false; false; false]). set (x1 := store x [2; 3; 4] 0). set (x2 := store x1 [2; 3; 4] (2 ^ Z.of_nat 3 - 1 - 0)).
  destruct (rsub_circuit (mk 2 0 false) 5 [0; 1] [2; 3; 4] [5]) as [c|] eqn:E.
  2:{ unfold rsub_circuit in E. destruct (inplace_number false (mk (msize (mk 2 0 false)) (expo (mk 2 0 false)) true) (5 + pw (expo (mk 2 0 false))) [2; 3; 4] [5]) eqn:I; [discriminate|]. exfalso. apply (proj1 (C67_inplace_number_grid _ _ _ _ _) I 6%Z). reflexivity. }
  exists (mk 2 0 false), 5%Q, [0; 1], [2; 3; 4], [5], x, c.
  assert (S : setting [0; 1] [2; 3; 4] [5] x).
  { split; [apply reg_of; [nodup|reflexivity]|]. split; [intros q I; cbn in *; lia|]. intros q [<-|[]]. cbn. repeat split; lia. }
  repeat (split; [first [exact S|reflexivity|exact E|cbn; lia]|]). intros psi. unfold rsub_circuit in E.
  destruct (inplace_number false (mk (msize (mk 2 0 false)) (expo (mk 2 0 false)) true) (5 + pw (expo (mk 2 0 false))) [2; 3; 4] [5]) as [c'|] eqn:I; [|discriminate]. injection E as <-.
  unfold inplace_number in I. destruct (Qeq_bool _ _); [|discriminate].
  change (run _ psi (store x [2; 3; 4] 5)) with (run ([qCX 0 2; qCX 1 3] ++ map qX [2; 3; 4] ++ c') psi (store x [2; 3; 4] 5)). rewrite !FourierProofs.run_app.
  transitivity (run (map qX [2; 3; 4]) (run [qCX 0 2; qCX 1 3] psi) x2).
  - apply (encoder_monomials rO rI radd rmul rsub ropp RT expi chalf shalf im EU [] (mk 2 0 true) [2; 3; 4] [5] _ c' x2 eq_refl I); [|intros t q [<-|[]] []|cbn; lia].
    apply setting_store, setting_store. split; [apply S|]. split; [intros q []|]. intros q J. destruct S as (_ & _ & W). destruct (W q J) as (_ & A). split; [intros []|exact A].
  - unfold x2. rewrite (run_nots rO rI radd rmul rsub ropp RT expi chalf shalf im [2; 3; 4]) by (apply (setting_store _ _ _ x 0 S)). unfold x1.
    change (run [qCX 0 2; qCX 1 3] psi (store (store x [2; 3; 4] 0) [2; 3; 4] 0)) with (run (map (fun '(a, b) => qCX a b) (combine [0; 1] [2; 3; 4])) psi (store x [2; 3; 4] (value x [0; 1]))).
    apply (run_copy_value rO rI radd rmul rsub ropp RT expi chalf shalf im); try apply S; try reflexivity. cbn. lia.
Qed.
End numbers.
Print Assumptions C67_encoder.
Print Assumptions C67_rounding.
Print Assumptions C67_defined.
Print Assumptions C67_add.
Print Assumptions C67_sub.
Print Assumptions C67_mul.
Print Assumptions C67_square.
Print Assumptions C67_mul_int.
Print Assumptions C67_inplace.
Print Assumptions C67_inplace_defined.
Print Assumptions C67_inplace_finer.
Print Assumptions C67_inplace_finer_refuted.
Print Assumptions C67_inplace_number.
Print Assumptions C67_inplace_number_grid.
Print Assumptions C67_add_number.
Print Assumptions C67_rsub.
Print Assumptions C67_rsub_refuted.

(** ** examples *)
Notation run_complex := (run_circuit Qcplus c0 c1 cadd cmul copp cexpi ccos csin ci).
Definition demo_bits : list bool := [true; false; true; true; true] ++ repeat false 7.
Lemma demo_setting : setting ([0; 1; 2] ++ [3; 4]) [5; 6; 7; 8; 9] (repeat 10 6) demo_bits.
Proof.
  split; [apply reg_of; [nodup|reflexivity]|]. split; [intros q I; cbn in *; lia|]. intros q I. apply repeat_spec in I as ->. cbn. repeat split; lia.
Qed.
(** -1.5 (signed, exponent -1) times 3 *)
Example C67_ex_mul : exists c z, sbp_circuit Mul false (mk 2 (-1) true) (mk 2 0 false) [0; 1; 2] [3; 4] [5; 6; 7; 8; 9] (repeat 10 6) = Some c /\
  (QFSpec.value (mk 4 (-1) true) z == - (9 # 2))%Q /\ forall psi : list bool -> cplx, run_complex c psi (store demo_bits [5; 6; 7; 8; 9] z) = psi demo_bits.
Proof.
  destruct (sbp_circuit Mul false (mk 2 (-1) true) (mk 2 0 false) [0; 1; 2] [3; 4] [5; 6; 7; 8; 9] (repeat 10 6)) as [c|] eqn:E; [|apply encoder_defined in E; discriminate].
  destruct (C67_mul c0 c1 cadd cmul csub copp complex_ring cexpi ccos csin ci complex_euler _ _ _ _ _ _ _ E eq_refl eq_refl eq_refl (le_n _) demo_bits demo_setting eq_refl) as (z & B & V & Rn).
  exists c, z. split; [reflexivity|]. split; [exact V|exact Rn].
Qed.
(** -1.5 += 1, into exponent -1 *)
Example C67_ex_inplace : exists c z, inplace_register false (mk 2 (-1) true) (mk 1 0 false) [0; 1; 2] [3] [10] = Some c /\
  (QFSpec.value (mk 2 (-1) true) z == - (1 # 2))%Q /\ forall psi : list bool -> cplx, run_complex c psi (store demo_bits [0; 1; 2] z) = psi demo_bits.
Proof.
  destruct (inplace_register false (mk 2 (-1) true) (mk 1 0 false) [0; 1; 2] [3] [10]) as [c|] eqn:E; [|apply C67_inplace_defined in E as [? ?]; discriminate].
  assert (S : setting [3] [0; 1; 2] [10] demo_bits).
  { split; [apply reg_of; [nodup|reflexivity]|]. split; [intros q I; cbn in *; lia|]. intros q [<-|[]]. cbn. repeat split; lia. }
  destruct (C67_inplace c0 c1 cadd cmul csub copp complex_ring cexpi ccos csin ci complex_euler _ _ _ _ _ _ _ E eq_refl eq_refl (le_n _) ltac:(cbn; lia) demo_bits S) as (z & B & V & Rn).
  { exists (-1)%Z. split; [vm_compute; split; [discriminate|reflexivity]|reflexivity]. }
  exists c, z. split; [reflexivity|]. split; [exact V|exact Rn].
Qed.
(** 0 - (-1.5) *)
Example C67_ex_rsub : exists c z, rsub_circuit (mk 2 (-1) true) 0 [0; 1; 2] [5; 6; 7] [10] = Some c /\
  (QFSpec.value (mk 2 (-1) true) z == 3 # 2)%Q /\ forall psi : list bool -> cplx, run_complex c psi (store demo_bits [5; 6; 7] z) = psi demo_bits.
Proof.
  assert (S : setting [0; 1; 2] [5; 6; 7] [10] demo_bits).
  { split; [apply reg_of; [nodup|reflexivity]|]. split; [intros q I; cbn in *; lia|]. intros q [<-|[]]. cbn. repeat split; lia. }
  destruct (C67_rsub c0 c1 cadd cmul csub copp complex_ring cexpi ccos csin ci complex_euler (mk 2 (-1) true) 0%Q [0; 1; 2] [5; 6; 7] [10] demo_bits eq_refl eq_refl S (le_n _) eq_refl) as (c & z & E & B & V & Rn).
  { exists 3%Z. split; [vm_compute; split; [discriminate|reflexivity]|reflexivity]. }
  exists c, z. split; [exact E|]. split; [exact V|exact Rn].
Qed.
