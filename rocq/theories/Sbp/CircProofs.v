(** The arithmetic circuits on basis states. *)
From Coq Require Import List ZArith Bool Lia Arith QArith Qround Qcanon Ring Ring_theory.
Import ListNotations.
From Verif.Inverse Require Import InvModel InvSpec InvProofs.
From Verif.CtrlOps Require Import CtrlModel CtrlSpec CtrlProofs.
From Verif.QFloat Require Import QFModel QFSpec QFProofs SbpProofs.
From Verif.Fourier Require Import FourierModel FourierSpec RegProofs FourierProofs FourierFinal AdderProofs.
From Verif.Sbp Require Import SbpModel SbpSpec EncProofs NumProofs.
Local Open Scope nat_scope.

Lemma bits_pad n b : length b <= n -> bits_of n (number b) = b ++ repeat false (n - length b).
Proof.
  intros L. apply number_inj; [rewrite bits_of_length, app_length, repeat_length; lia|]. rewrite number_bits, number_app.
  replace (number (repeat false (n - length b))) with 0%Z by (generalize (n - length b) as k; induction k as [|k IH]; [reflexivity|cbn [repeat number]; rewrite <- IH; reflexivity]).
  rewrite Z.mul_0_r, Z.add_0_r. apply Z.mod_small. pose proof (number_range b). assert (2 ^ Z.of_nat (length b) <= 2 ^ Z.of_nat n)%Z by (apply Z.pow_le_mono_r; lia). lia.
Qed.
Lemma number_negb b : (number (map negb b) = 2 ^ Z.of_nat (length b) - 1 - number b)%Z.
Proof. induction b as [|a b IH]; [reflexivity|]. cbn [map number length]. rewrite IH, Nat2Z.inj_succ, Z.pow_succ_r by lia. destruct a; cbn [negb]; ring. Qed.
Lemma store_store x qs z z' : NoDup qs -> store (store x qs z) qs z' = store x qs z'.
Proof. intros N. unfold store. apply write_write; [exact N| |]; apply bits_of_length. Qed.
Lemma store_length x qs z : length (store x qs z) = length x. Proof. apply write_length. Qed.
Lemma store_other x qs z q : ~ In q qs -> getbit (store x qs z) q = getbit x q. Proof. apply write_other. Qed.
Lemma value_store_off x qs z ps : (forall q, In q ps -> ~ In q qs) -> value (store x qs z) ps = value x ps.
Proof. intros H. unfold value, store. rewrite read_write_off by exact H. reflexivity. Qed.
Lemma setting_store ins out work x z : setting ins out work x -> setting ins out work (store x out z).
Proof.
  intros (R & H & W). split; [|split; [exact H|]]. { apply (register_length _ x); [symmetry; apply store_length|exact R]. }
  intros q I. destruct (W q I) as (A & B & C & D). rewrite store_length, store_other by exact B. auto.
Qed.
Lemma encoder_defined out e m ms ancs : sb_polynomial_encoder out e m ms ancs = None <-> Z.odd m = false.
Proof.
  unfold sb_polynomial_encoder. destruct (Z.eqb_spec m 1) as [->|N].
  - split; [|discriminate]. destruct (QFT false out false true 1) as [v|] eqn:E; [|apply QFT_total in E; discriminate].
    unfold QFT in E. destruct (qft_inner out false true 1) as [v'|] eqn:E'; [|discriminate]. injection E as ->. destruct (invert_some v (invertible_qft _ _ _ _ _ E')) as [w W]. unfold conjugate. rewrite W. discriminate.
  - rewrite <- (QFT_total false out false true m). destruct (QFT false out false true m) as [v|]; [|split; reflexivity]. split; [|discriminate].
    destruct (QFT true out false true 1) as [w|] eqn:E; [discriminate|apply QFT_total in E; discriminate].
Qed.

Section ring.
Context {R : Type} (rO rI : R) (radd rmul rsub : R -> R -> R) (ropp : R -> R) (RT : ring_theory rO rI radd rmul rsub ropp eq).
Context (expi chalf shalf : Qc -> R) (im : R).
Context (EU : euler rO rI radd rmul ropp expi chalf shalf im).
Add Ring rr5 : RT.
Notation effect := (effect Qcplus rO rI radd rmul ropp expi chalf shalf im).
Notation run := (run_circuit Qcplus rO rI radd rmul ropp expi chalf shalf im).
Notation run_app := (FourierProofs.run_app rO rI radd rmul ropp expi chalf shalf im).
Notation run_cx := (FourierProofs.run_cx rO rI radd rmul rsub ropp RT expi chalf shalf im).
Notation encoder_run := (encoder_run rO rI radd rmul rsub ropp RT expi chalf shalf im EU).
Local Notation amp := (list bool -> R).

(** a polynomial whose qubits are inputs *)
Lemma encoder_setting ins out work e m ms c x : sb_polynomial_encoder out e m ms work = Some c -> setting ins out work x -> (forall t q, In t ms -> In q (snd t) -> In q ins) ->
  forall psi : amp, run c psi (store x out (m * value x out + addends e x ms work)) = psi x.
Proof.
  intros H (Rg & D & W) Q psi. apply encoder_run; auto.
  - intros t q It Iq. apply D. exact (Q t q It Iq).
  - intros a I. destruct (W a I) as (A & B & C & _). split; [exact B|]. split; [exact C|]. intros t It J. exact (A (Q t a It J)).
Qed.
Lemma encoder_monomials ins f out work ms c x : length out = size f -> sb_polynomial_encoder out (expo f) 1 ms work = Some c -> setting ins out work x ->
  (forall t q, In t ms -> In q (snd t) -> In q ins) -> length ms <= length work ->
  forall psi : amp, run c psi (store x out (encode_monomials f (map (rd x) ms) (value x out))) = psi x.
Proof.
  intros L H S Q N psi. rewrite <- (encoder_setting ins out work (expo f) 1 ms c x H S Q psi). apply f_equal. apply store_congr. rewrite L, Z.mul_1_l. apply encode_addends; [exact N|]. intros a I. apply S, I.
Qed.
Lemma run_copy : forall qf qo (psi : amp) x, NoDup qo -> (forall q, In q qo -> q < length x) -> (forall q, In q qf -> ~ In q qo) -> (forall q, In q qo -> getbit x q = false) -> length qf <= length qo ->
  run (map (fun '(a, b) => qCX a b) (combine qf qo)) psi (write x qo (read x qf ++ repeat false (length qo - length qf))) = psi x.
Proof.
  induction qf as [|a qf IH]; intros qo psi x N F D Z L.
  - cbn [combine map read app length]. rewrite Nat.sub_0_r. unfold run_circuit. cbn [fold_left]. f_equal. rewrite <- (write_read x qo N) at 2. f_equal. unfold read. clear - Z. induction qo as [|q qo IH]; [reflexivity|].
    cbn [length repeat map]. rewrite Z by (left; reflexivity). f_equal. apply IH. intros; apply Z; right; assumption.
  - destruct qo as [|b qo]; cbn [length] in L; [lia|]. inversion N as [|? ? Nb N']; subst. cbn [combine map length read app write]. change (length (b :: qo) - S (length qf)) with (length qo - length qf).
    change (qCX a b :: ?l) with ([qCX a b] ++ l). rewrite run_app. change (Nat.sub (S (length qo)) (S (length qf))) with (length qo - length qf).
    assert (NE : a <> b) by (intros ->; exact (D b (or_introl eq_refl) (or_introl eq_refl))).
    rewrite <- write_set by exact Nb. set (x1 := setbit x b (getbit x a)).
    replace (map (getbit x) qf) with (read x1 qf).
    2:{ unfold read. apply map_ext_in. intros q I. unfold x1. apply getbit_set_other. intros ->. apply (D b); [right; exact I|left; reflexivity]. }
    rewrite IH; [|exact N'|..].
    + change (run [qCX a b] psi x1) with (effect gCX [a; b] psi x1). rewrite run_cx. unfold x1. rewrite getbit_set_same by (apply F; left; reflexivity). rewrite getbit_set_other by auto. rewrite xorb_nilpotent, setbit_twice. f_equal.
      rewrite <- (Z b) by (left; reflexivity). apply setbit_get.
    + intros q I. unfold x1. rewrite setbit_length. apply F. right. exact I.
    + intros q I J. apply (D q); right; assumption.
    + intros q I. unfold x1. rewrite getbit_set_other by (intros ->; contradiction). apply Z. right. exact I.
    + lia.
Qed.
Lemma run_copy_value qf qo (psi : amp) x : register qo x -> (forall q, In q qf -> ~ In q qo) -> value x qo = 0%Z -> length qf <= length qo ->
  run (map (fun '(a, b) => qCX a b) (combine qf qo)) psi (store x qo (value x qf)) = psi x.
Proof.
  intros [N F] D V L. unfold store, value. rewrite bits_pad by (rewrite read_length; exact L). rewrite read_length. apply run_copy; auto.
  intros q I. apply (In_nth _ _ 0) in I as (i & I & <-). assert (E : read x qo = repeat false (length qo)).
  { apply number_inj; [rewrite repeat_length, read_length; reflexivity|]. unfold value in V. rewrite V. generalize (length qo) as k. induction k as [|k IH]; [reflexivity|]. cbn [repeat number]. rewrite <- IH. reflexivity. }
  rewrite <- nth_read by exact I. rewrite E. apply nth_repeat.
Qed.
Lemma run_xs : forall qs (psi : amp) x b, NoDup qs -> (forall q, In q qs -> q < length x) -> length b = length qs -> run (map qX qs) psi (write x qs (map negb b)) = psi (write x qs b).
Proof.
  induction qs as [|q qs IH]; intros psi x [|a b] N F L; try discriminate; [reflexivity|]. inversion N as [|? ? Nq N']; subst. cbn [map write]. change (qX q :: ?l) with ([qX q] ++ l). rewrite run_app.
  rewrite <- write_set by exact Nq. rewrite IH; [|exact N'|intros p I; rewrite setbit_length; apply F; right; exact I|injection L; auto].
  rewrite write_set by exact Nq. unfold run_circuit. cbn [fold_left qX]. unfold gX. cbn [InvSpec.effect]. unfold on_qubit. cbn [nth]. rewrite !setbit_twice. rewrite getbit_set_same by (rewrite write_length; apply F; left; reflexivity).
  destruct a; cbn [negb pauli_matrix]; ring.
Qed.
Lemma run_nots qs (psi : amp) x z : register qs x -> run (map qX qs) psi (store x qs (2 ^ Z.of_nat (length qs) - 1 - z)) = psi (store x qs z).
Proof.
  intros [N F]. unfold store. rewrite <- (run_xs qs psi x (bits_of (length qs) z)) by (auto; apply bits_of_length). f_equal. f_equal. apply number_inj; [rewrite map_length, !bits_of_length; reflexivity|].
  rewrite number_negb, bits_of_length, !number_bits. rewrite <- (Z.mod_small (2 ^ Z.of_nat (length qs) - 1 - z mod 2 ^ Z.of_nat (length qs)) (2 ^ Z.of_nat (length qs))).
  - rewrite Zminus_mod_idemp_r. reflexivity.
  - pose proof (Z.mod_pos_bound z (2 ^ Z.of_nat (length qs)) ltac:(apply Z.pow_pos_nonneg; lia)). lia.
Qed.
End ring.
