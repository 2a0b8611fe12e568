(** The inverse transform, conjugation with it, and the phases of the Fourier adder. *)
From Coq Require Import List ZArith Bool Lia Arith Permutation QArith Qcanon Field Ring Ring_theory.
Import ListNotations.
From Verif.Inverse Require Import InvModel InvSpec InvProofs.
From Verif.CtrlOps Require Import CtrlModel CtrlSpec CtrlProofs.
From Verif.Fourier Require Import FourierModel FourierSpec RegProofs FourierProofs FourierFinal.
Local Open Scope nat_scope.

(** * inverses exist *)
Definition invertible (c : body) : Prop := forall i, In i c -> inverse Qcopp Qcplus (fst i) <> None.
Lemma invert_some c : invertible c -> exists d, invert_circuit c = Some d.
Proof.
  intros H. unfold invert_circuit, inverse_circuit. destruct (inverse_onto Qcopp Qcplus c []) as [d|] eqn:E; [exists d; reflexivity|].
  exfalso. apply inverse_onto_none in E as (i & I & N). exact (H i I N).
Qed.
Lemma invertible_app a b : invertible a -> invertible b -> invertible (a ++ b).
Proof. intros H K i I. apply in_app_iff in I as [I|I]; auto. Qed.
Lemma invertible_flat {B} (f : B -> body) l : (forall a, In a l -> invertible (f a)) -> invertible (flat_map f l).
Proof. intros H i I. apply in_flat_map in I as (a & Ia & Ii). exact (H a Ia i Ii). Qed.
Lemma invertible_1 (o : qop) l : inverse Qcopp Qcplus o <> None -> invertible [(o, l)].
Proof. intros H i [<-|[]]. exact H. Qed.
Lemma invertible_nil : invertible []. Proof. intros i []. Qed.
Lemma invertible_cons i c : inverse Qcopp Qcplus (fst i) <> None -> invertible c -> invertible (i :: c).
Proof. intros H K j [<-|I]; auto. Qed.
Ltac inv_gate := first [apply invertible_nil | apply invertible_cons; [discriminate|inv_gate] ].
Lemma invertible_opt a q : invertible (opt_p a q). Proof. unfold opt_p. destruct (is_zero a); inv_gate. Qed.
Lemma invertible_row m q : forall qs k, invertible (qft_row m q k qs).
Proof. induction qs as [|t qs IH]; intros k; cbn [qft_row]; [apply invertible_nil|]. apply invertible_app; [inv_gate|apply IH]. Qed.
Lemma invertible_rows m : forall qv acc, invertible (fst (qft_rows m qv acc)).
Proof. induction qv as [|q qv IH]; intros [|a acc]; cbn [qft_rows fst]; try apply invertible_nil. apply invertible_app; [apply invertible_opt|]. apply invertible_app; [inv_gate|]. apply invertible_app; [apply invertible_row|apply IH]. Qed.
Lemma invertible_swaps qv : invertible (reverse_swaps qv).
Proof. apply invertible_flat. intros i _. inv_gate. Qed.
Lemma invertible_qft qv sw en m c : qft_inner qv sw en m = Some c -> invertible c.
Proof.
  unfold qft_inner. set (qv' := if en then rev qv else qv). destruct (Z.odd m); [|discriminate]. pose proof (invertible_rows m qv' (repeat 0%Qc (length qv'))) as W.
  destruct (qft_rows m qv' (repeat 0%Qc (length qv'))) as [g acc]. intros [= <-]. apply invertible_app; [exact W|]. apply invertible_app; [apply invertible_flat; intros [q a] _; apply invertible_opt|].
  destruct sw; [apply invertible_swaps|apply invertible_nil].
Qed.
Lemma qft_inner_some qv sw en m : Z.odd m = true -> exists c, qft_inner qv sw en m = Some c.
Proof. intros H. unfold qft_inner. rewrite H. destruct (qft_rows _ _ _) as [g acc]. eexists. reflexivity. Qed.
Lemma QFT_total inv qv sw en m : QFT inv qv sw en m = None <-> Z.odd m = false.
Proof.
  unfold QFT. destruct (Z.odd m) eqn:O.
  - destruct (qft_inner_some qv sw en m O) as [c Hc]. rewrite Hc. split; [|discriminate]. destruct inv; [|discriminate]. destruct (invert_some c (invertible_qft _ _ _ _ _ Hc)) as [d Hd]. rewrite Hd. discriminate.
  - unfold qft_inner. rewrite O. split; reflexivity.
Qed.

Lemma NoDup_right {B} (a b : list B) : NoDup (a ++ b) -> NoDup b.
Proof. induction a as [|t a IH]; auto. cbn [app]. intros H. inversion H; auto. Qed.
(** * sums of angles *)
Lemma qsum_ext {B} (f g : B -> Qc) l : (forall a, In a l -> f a = g a) -> qsum (map f l) = qsum (map g l).
Proof. induction l as [|a l IH]; intros H; [reflexivity|]. cbn [map qsum fold_right]. f_equal; [apply H; left; reflexivity|]. apply IH. intros; apply H; right; assumption. Qed.
Lemma qsum_add {B} (f g : B -> Qc) l : qsum (map (fun a => f a + g a)%Qc l) = (qsum (map f l) + qsum (map g l))%Qc.
Proof. induction l as [|a l IH]; cbn [map]; [apply Qc_is_canon; reflexivity|]. change (f a + g a + qsum (map (fun a => (f a + g a)%Qc) l) = f a + qsum (map f l) + (g a + qsum (map g l)))%Qc. rewrite IH. ring. Qed.
Lemma qsum_cons a l : qsum (a :: l) = (a + qsum l)%Qc. Proof. reflexivity. Qed.
Lemma qsum_scale {B} c (f : B -> Qc) l : qsum (map (fun a => c * f a)%Qc l) = (c * qsum (map f l))%Qc.
Proof. induction l as [|a l IH]; cbn [map]; [cbn; ring|]. rewrite !qsum_cons, IH. ring. Qed.
Lemma qsum_0 {B} (l : list B) : qsum (map (fun _ => 0%Qc) l) = 0%Qc.
Proof. induction l as [|a l IH]; [reflexivity|]. cbn [map]. rewrite qsum_cons, IH. ring. Qed.
Lemma qsum_swap {B C} (f : B -> C -> Qc) l m : qsum (map (fun a => qsum (map (f a) m)) l) = qsum (map (fun b => qsum (map (fun a => f a b) l)) m).
Proof.
  induction l as [|a l IH]; cbn [map]; [rewrite qsum_0; reflexivity|]. rewrite qsum_cons, IH, <- qsum_add. apply qsum_ext. intros b _. rewrite qsum_cons. reflexivity.
Qed.
Lemma qsum_number : forall l : list bool, qsum (map (fun i => zq 2 ^ i * b2q (nth i l false))%Qc (seq 0 (length l))) = zq (number l).
Proof.
  induction l as [|b l IH]; [reflexivity|]. cbn [length seq map]. rewrite qsum_cons, <- seq_shift, map_map. cbn [nth number].
  rewrite (qsum_ext _ (fun i => zq 2 * (zq 2 ^ i * b2q (nth i l false)))%Qc) by (intros i _; cbn [Qcpower]; ring). rewrite qsum_scale, IH, zq_add, zq_mul. cbn [Qcpower].
  f_equal. destruct b; cbn [b2q]; [rewrite zq_1|rewrite zq_0]; ring.
Qed.
Lemma zq_pow k n : zq (k ^ Z.of_nat n) = (zq k ^ n)%Qc.
Proof. induction n as [|n IH]; [reflexivity|]. rewrite Nat2Z.inj_succ, Z.pow_succ_r, zq_mul, IH by lia. reflexivity. Qed.
Lemma full_turn_even a : full_turn a = true -> exists k, a = zq (2 * k).
Proof.
  unfold full_turn. intros H. apply Pos.eqb_eq in H. exists (Qnum (this (a * half)%Qc)). rewrite zq_mul.
  assert (E : (a * half)%Qc = zq (Qnum (this (a * half)%Qc))).
  { apply Qc_is_canon. unfold zq. cbn [this Q2Qc]. rewrite Qred_correct. unfold inject_Z, Qeq. cbn [Qnum Qden]. rewrite H. reflexivity. }
  rewrite <- E. pose proof half_2 as H2. transitivity (half * zq 2 * a)%Qc; [rewrite H2; ring|ring].
Qed.
Lemma qpow_plus (a : Qc) i j : (a ^ (i + j) = a ^ i * a ^ j)%Qc.
Proof. induction i as [|i IH]; cbn [Nat.add Qcpower]; [ring|]. rewrite IH. ring. Qed.
Lemma half_pow_sub n j : j <= n -> (half ^ (n - j) = zq 2 ^ j * half ^ n)%Qc.
Proof.
  intros H. replace (half ^ n)%Qc with (half ^ (n - j) * half ^ j)%Qc by (rewrite <- qpow_plus; f_equal; lia).
  assert (E : forall k, (zq 2 ^ k * half ^ k = 1)%Qc). { induction k as [|k IH]; cbn [Qcpower]; [ring|]. pose proof half_2 as H2. transitivity (half * zq 2 * (zq 2 ^ k * half ^ k))%Qc; [ring|]. rewrite H2, IH. ring. }
  transitivity (half ^ (n - j) * (zq 2 ^ j * half ^ j))%Qc; [rewrite E; ring|ring].
Qed.

Section ring.
Context {R : Type} (rO rI : R) (radd rmul rsub : R -> R -> R) (ropp : R -> R) (RT : ring_theory rO rI radd rmul rsub ropp eq).
Context (expi chalf shalf : Qc -> R) (im : R).
Context (EU : euler rO rI radd rmul ropp expi chalf shalf im).
Add Ring rr3 : RT.
Notation effect := (effect Qcplus rO rI radd rmul ropp expi chalf shalf im).
Notation run := (run_circuit Qcplus rO rI radd rmul ropp expi chalf shalf im).
Notation amp := (@amp R).
Notation total := (total rO radd).
Notation dft := (dft rO rI radd rmul expi chalf).
Notation e_add := (e_add rO rI radd rmul ropp expi chalf shalf im EU).
Notation e_0 := (e_0 rO rI radd rmul ropp expi chalf shalf im EU).
Notation e_even := (FourierProofs.e_even rO rI radd rmul rsub ropp RT expi chalf shalf im EU).
Notation run_app := (FourierProofs.run_app rO rI radd rmul ropp expi chalf shalf im).
Notation run_cx := (FourierProofs.run_cx rO rI radd rmul rsub ropp RT expi chalf shalf im).
Notation run_p := (FourierProofs.run_p rO rI radd rmul rsub ropp RT expi chalf shalf im EU).
Local Infix "+" := radd. Local Infix "*" := rmul. Local Notation "- a" := (ropp a).

Lemma run_ext N c psi phi x : wf_circuit N c -> (forall y, length y = N -> psi y = phi y) -> length x = N -> run c psi x = run c phi x.
Proof.
  intros W H L. rewrite <- !(run_body_seq Qcplus rO rI radd rmul ropp expi chalf shalf im N) by exact W.
  apply run_body_wf_local; [rewrite seq_length; exact W|]. intros y [A _]. apply H. congruence.
Qed.
Lemma dft_ext s i o qv psi phi x : (forall y, length y = length x -> psi y = phi y) -> dft s i o qv psi x = dft s i o qv phi x.
Proof.
  intros H. unfold FourierSpec.dft. f_equal. apply FourierProofs.total_ext. intros b _. f_equal. apply H, write_length.
Qed.

Notation dft_undo := (FourierFinal.dft_undo rO rI radd rmul rsub ropp RT expi chalf shalf im EU).
Notation run_qft := (FourierFinal.run_qft rO rI radd rmul rsub ropp RT expi chalf shalf im EU).
Lemma undo N c d : wf_circuit N c -> invert_circuit c = Some d -> wf_circuit N d /\ forall psi x, length x = N -> run d (run c psi) x = psi x /\ run c (run d psi) x = psi x.
Proof. intros W H. exact (circuit_undoes Qcopp Qcplus rO rI radd rmul rsub ropp RT expi chalf shalf im (angle_ok rO rI radd rmul rsub ropp RT expi chalf shalf im EU) N c d W H). Qed.
Lemma run_qft_inv qv sw en m c d psi x : qft_inner qv sw en m = Some c -> invert_circuit c = Some d -> register qv x ->
  run d psi x = dft (Z.opp m) (xorb en sw) (negb en) qv psi x.
Proof.
  intros Hc Hd Rg. assert (O : Z.odd m = true) by (unfold qft_inner in Hc; destruct (Z.odd m); [reflexivity|discriminate]).
  assert (W : wf_circuit (length x) c) by (apply (wf_qft _ _ _ _ _ _ Hc); apply Rg).
  destruct (undo _ _ _ W Hd) as [Wd U]. rewrite <- (proj1 (U (dft (Z.opp m) (xorb en sw) (negb en) qv psi) x eq_refl)).
  apply (run_ext (length x)); auto. intros y Ly. symmetry. rewrite (run_qft _ _ _ _ _ _ _ Hc) by (apply (register_length qv x); auto). apply dft_undo; auto. apply (register_length qv x); auto.
Qed.

(** * phases *)
(** the circuit multiplies the amplitude of every basis state of N qubits with a phase *)
Definition diag (N : nat) (c : body) (h : list bool -> Qc) : Prop := forall psi x, length x = N -> run c psi x = expi (h x) * psi x.
Lemma diag_nil N : diag N [] (fun _ => 0%Qc).
Proof. intros psi x _. cbn. rewrite e_0. ring. Qed.
Lemma diag_app N a b h k : diag N a h -> diag N b k -> diag N (a ++ b) (fun x => h x + k x)%Qc.
Proof. intros A B psi x L. rewrite run_app, (B _ x L), (A _ x L), e_add. ring. Qed.
Lemma diag_flat {B} N (f : B -> body) (h : B -> list bool -> Qc) l : (forall a, In a l -> diag N (f a) (h a)) -> diag N (flat_map f l) (fun x => qsum (map (fun a => h a x) l)).
Proof. induction l as [|a l IH]; intros H; cbn [flat_map map]; [apply diag_nil|]. apply (diag_app N (f a)); [apply H; left; reflexivity|]. apply IH. intros b I. apply H. right. exact I. Qed.
Lemma diag_ext N c h k : diag N c h -> (forall x, length x = N -> expi (h x) = expi (k x)) -> diag N c k.
Proof. intros D E psi x L. rewrite (D psi x L), E by exact L. reflexivity. Qed.
Lemma diag_p N a q : diag N [qP a q] (fun x => a * b2q (getbit x q))%Qc.
Proof. intros psi x _. change (run [qP a q] psi x) with (effect (gP a) [q] psi x). rewrite run_p. destruct (getbit x q); cbn [b2q]. - rewrite Qcmult_1_r. reflexivity. - rewrite Qcmult_0_r, e_0. ring. Qed.
Lemma shift_conj N qv m p f v v1 w c : qft_inner qv false true m = Some v -> qft_inner qv false true 1 = Some v1 -> invert_circuit v1 = Some w -> c = v ++ p ++ w ->
  diag N p (fun x => angle (f x * reading true (read x qv)) (length qv)) -> (forall x b, f (write x qv b) = f x) ->
  forall psi x, length x = N -> register qv x -> run c psi (store x qv (m * value x qv + f x)) = psi x.
Proof.
  intros Hv Hv1 Hw -> Hp Hf psi x L Rg. assert (O : Z.odd m = true) by (unfold qft_inner in Hv; destruct (Z.odd m); [reflexivity|discriminate]).
  rewrite !run_app. assert (Rs : register qv (store x qv (m * value x qv + f x))) by (apply (register_length qv x); [symmetry; apply write_length|exact Rg]).
  rewrite (run_qft_inv _ _ _ _ _ _ _ _ Hv1 Hw) by exact Rs. cbn [negb xorb].
  rewrite (dft_ext _ _ _ _ _ (fun y => expi (angle (f y * reading true (read y qv)) (length qv)) * dft m false true qv psi y)).
  - exact (shift rO rI radd rmul rsub ropp RT expi chalf shalf im EU false true m f qv psi x O Rg (Hf x)).
  - intros y Ly. unfold store in Ly. rewrite write_length in Ly. rewrite (Hp _ y) by congruence. f_equal. apply (run_qft _ _ _ _ _ _ _ Hv). apply (register_length qv x); auto.
Qed.

(** * the adder *)
Lemma expi_qsum {B} (f g : B -> Qc) l : (forall a, In a l -> expi (f a) = expi (g a)) -> expi (qsum (map f l)) = expi (qsum (map g l)).
Proof. induction l as [|a l IH]; intros H; [reflexivity|]. cbn [map]. rewrite !qsum_cons, !e_add. f_equal; [apply H; left; reflexivity|]. apply IH. intros b I. apply H. right. exact I. Qed.
Lemma nth_read0 x qs i : (i < length qs)%nat -> nth i (read x qs) false = getbit x (nth i qs 0).
Proof. apply nth_read. Qed.
Lemma diag_int N a b : diag N (int_phases a b) (fun x => angle (a * number (read x b)) (length b)).
Proof.
  eapply diag_ext; [apply diag_flat; intros i _; apply diag_p|]. cbv beta. intros x _. f_equal.
  rewrite (qsum_ext _ (fun i => (zq 2 * zq a * half ^ length b) * (zq 2 ^ i * b2q (nth i (read x b) false)))%Qc).
  - rewrite qsum_scale. rewrite <- (read_length x b) at 2. rewrite qsum_number, angle_zq, zq_mul. ring.
  - intros i I. apply in_seq in I. rewrite nth_read by lia. cbn [Nat.add Qcpower]. ring.
Qed.
Lemma diag_rzz N a p q : p <> q -> (p < N)%nat -> diag N [(quasi_rzz a, [p; q])] (fun x => a * b2q (xorb (getbit x p) (getbit x q)))%Qc.
Proof.
  intros NE Hp psi x L. change (run [(quasi_rzz a, [p; q])] psi x) with (effect gCX [q; p] (effect (gP a) [p] (effect gCX [q; p] psi)) x).
  rewrite run_cx, run_p, run_cx. rewrite getbit_set_same by lia. rewrite getbit_set_other by auto. rewrite setbit_twice, xorb_assoc, xorb_nilpotent, xorb_false_r, setbit_get.
  destruct (xorb (getbit x p) (getbit x q)); cbn [b2q]; [rewrite Qcmult_1_r; reflexivity|]. rewrite Qcmult_0_r, e_0. ring.
Qed.
Lemma diag_cp N a p q : diag N [qCP a p q] (fun x => a * (b2q (getbit x p) * b2q (getbit x q)))%Qc.
Proof.
  intros psi x L. change (run [qCP a p q] psi x) with (effect (Ctrl [true] (gP a)) [p; q] psi x). cbn [InvSpec.effect length firstn skipn map bits_eqb]. destruct (getbit x p); cbn [Bool.eqb andb].
  - change (on_qubit radd rmul (u3_matrix Qcplus rO rI radd rmul ropp expi chalf shalf im 0 a 0 0) (nth 0 [q] 0) psi x) with (effect (gP a) [q] psi x) || idtac.
    etransitivity; [exact (run_p a q psi x)|]. destruct (getbit x q); cbn [b2q]; [rewrite !Qcmult_1_r; reflexivity|]. rewrite !Qcmult_0_r, e_0. ring.
  - cbn [b2q]. rewrite Qcmult_0_l, Qcmult_0_r, e_0. ring.
Qed.
Lemma diag_cz N p q : diag N [qCZ p q] (fun x => b2q (getbit x p) * b2q (getbit x q))%Qc.
Proof.
  intros psi x L. change (run [qCZ p q] psi x) with (effect (Ctrl [true] (Pauli PZ)) [p; q] psi x). cbn [InvSpec.effect length firstn skipn map bits_eqb]. destruct (getbit x p); cbn [Bool.eqb andb b2q].
  - unfold on_qubit. cbn [nth pauli_matrix]. rewrite Qcmult_1_l. destruct (getbit x q) eqn:E; cbn [b2q].
    + rewrite (e_1 rO rI radd rmul ropp expi chalf shalf im EU). rewrite <- E, setbit_get. ring.
    + rewrite e_0. rewrite <- E, setbit_get. ring.
  - rewrite Qcmult_0_l, e_0. ring.
Qed.
Lemma diag_corr N c q : diag N (corr_gate c q) (fun x => c * b2q (getbit x q))%Qc.
Proof.
  unfold corr_gate. destruct (full_turn c) eqn:E; [|apply diag_p]. eapply diag_ext; [apply diag_nil|]. intros x _. cbv beta. destruct (full_turn_even c E) as [k ->].
  destruct (getbit x q); cbn [b2q]; [rewrite Qcmult_1_r, e_even; apply e_0|rewrite Qcmult_0_r; reflexivity].
Qed.
Definition pair_angle (n j i : nat) (aj bi : bool) : Qc :=
  if n <? 1 + j + i then 0%Qc else if 1 + j + i =? n then (b2q aj * b2q bi)%Qc else (- pair_phase n j i * b2q (xorb aj bi))%Qc.
Lemma diag_pair N a b j i : (j < length a)%nat -> (i < length b)%nat -> NoDup (a ++ b) -> (forall q, In q a -> q < N)%nat ->
  diag N (pair_gate a b j i) (fun x => pair_angle (length b) j i (getbit x (nth j a 0)) (getbit x (nth i b 0))).
Proof.
  intros Hj Hi ND F. unfold pair_gate, pair_angle. destruct (length b <? 1 + j + i); [apply diag_nil|]. destruct (1 + j + i =? length b); [apply diag_cz|].
  apply diag_rzz; [|apply F, nth_In, Hj]. intros E. assert (nth j (a ++ b) 0 = nth (length a + i) (a ++ b) 0) as E2 by (rewrite app_nth1, app_nth2_plus by exact Hj; exact E).
  apply (proj1 (NoDup_nth (a ++ b) 0) ND) in E2; rewrite ?app_length; lia.
Qed.
(** one pair with its corrections *)
Lemma pair_total n j i (a b : bool) : expi (pair_angle n j i a b + pair_corr n j i * b2q b + pair_corr n j i * b2q a)%Qc = expi (zq 2 * half ^ n * (zq 2 ^ j * b2q a) * (zq 2 ^ i * b2q b))%Qc.
Proof.
  unfold pair_angle, pair_corr. destruct (Nat.ltb_spec n (1 + j + i)) as [H|H].
  - destruct (Nat.ltb_spec (1 + j + i) n); [lia|].
    assert (E : (zq 2 * half ^ n * (zq 2 ^ j * b2q a) * (zq 2 ^ i * b2q b) = zq (2 * (2 ^ Z.of_nat (j + i - n) * (if a then 1 else 0) * (if b then 1 else 0))))%Qc).
    { rewrite !zq_mul, zq_pow. replace (zq (if a then 1 else 0)) with (b2q a) by (destruct a; reflexivity). replace (zq (if b then 1 else 0)) with (b2q b) by (destruct b; reflexivity).
      pose proof (half_pow n) as HP. rewrite zq_pow in HP. transitivity (zq 2 * (half ^ n * (zq 2 ^ j * zq 2 ^ i)) * b2q a * b2q b)%Qc; [ring|]. rewrite <- qpow_plus.
      replace (zq 2 ^ (j + i))%Qc with (zq 2 ^ (n + (j + i - n)))%Qc by (f_equal; lia). rewrite qpow_plus. transitivity (zq 2 * (half ^ n * zq 2 ^ n) * zq 2 ^ (j + i - n) * b2q a * b2q b)%Qc; [ring|]. rewrite HP. ring. }
    rewrite E, e_even, <- e_0. apply f_equal. ring.
  - apply f_equal. destruct (Nat.eqb_spec (1 + j + i) n) as [E|NE].
    + destruct (Nat.ltb_spec (1 + j + i) n); [lia|]. pose proof (half_pow n) as HP. rewrite zq_pow in HP. transitivity ((half ^ n * zq 2 ^ n) * (b2q a * b2q b))%Qc; [rewrite HP; ring|].
      replace (zq 2 ^ n)%Qc with (zq 2 * zq 2 ^ j * zq 2 ^ i)%Qc; [ring|]. rewrite <- E. cbn [Nat.add Qcpower]. rewrite qpow_plus. ring.
    + destruct (Nat.ltb_spec (1 + j + i) n); [|lia]. unfold pair_phase. replace (n - 1 - j - i)%nat with (n - (1 + j + i))%nat by lia. rewrite half_pow_sub by lia. cbn [Nat.add Qcpower]. rewrite qpow_plus, xor_q.
      pose proof half_2 as H2. set (h := (half ^ n)%Qc). transitivity (half * zq 2 * (zq 2 * zq 2 ^ j * zq 2 ^ i * h * b2q a * b2q b))%Qc; [|rewrite H2; ring]. replace (zq 2) with (1 + 1)%Qc by (apply Qc_is_canon; reflexivity). ring.
Qed.
Lemma diag_quantum N a b : NoDup (a ++ b) -> (forall q, In q a -> q < N)%nat -> diag N (quantum_phases a b) (fun x => angle (value x a * number (read x b)) (length b)).
Proof.
  intros ND F. unfold quantum_phases. set (n := length b).
  eapply diag_ext; [apply diag_app; [apply (diag_flat N _ (fun j x => qsum (map (fun i => pair_angle n j i (getbit x (nth j a 0)) (getbit x (nth i b 0))) (seq 0 n))))|apply diag_app; [apply diag_flat; intros i _; apply diag_corr|apply diag_flat; intros i _; apply diag_corr]]|].
  { intros j Ij. apply in_seq in Ij. apply (diag_flat N _ (fun i x => pair_angle n j i (getbit x (nth j a 0)) (getbit x (nth i b 0)))). intros i Ii. apply in_seq in Ii. apply diag_pair; auto; lia. }
  cbv beta. intros x _. set (A := fun j => getbit x (nth j a 0)). set (B := fun i => getbit x (nth i b 0)). set (ja := seq 0 (length a)). set (ib := seq 0 n).
  assert (E1 : qsum (map (fun i => qsum (map (fun j => pair_corr n j i) ja) * b2q (B i)) ib)%Qc = qsum (map (fun j => qsum (map (fun i => pair_corr n j i * b2q (B i)) ib))%Qc ja)).
  { rewrite (qsum_swap (fun j i => pair_corr n j i * b2q (B i))%Qc). apply qsum_ext. intros i _. rewrite Qcmult_comm, <- qsum_scale. apply qsum_ext. intros j _. ring. }
  assert (E2 : qsum (map (fun j => qsum (map (fun i => pair_corr n j i) ib) * b2q (A j)) ja)%Qc = qsum (map (fun j => qsum (map (fun i => pair_corr n j i * b2q (A j)) ib))%Qc ja)).
  { apply qsum_ext. intros j _. rewrite Qcmult_comm, <- qsum_scale. apply qsum_ext. intros i _. ring. }
  change (expi (qsum (map (fun j => qsum (map (fun i => pair_angle n j i (A j) (B i)) ib)) ja) + (qsum (map (fun i => qsum (map (fun j => pair_corr n j i) ja) * b2q (B i)) ib) + qsum (map (fun j => qsum (map (fun i => pair_corr n j i) ib) * b2q (A j)) ja)))%Qc = expi (angle (value x a * number (read x b)) n)).
  rewrite E1, E2, <- !qsum_add.
  transitivity (expi (qsum (map (fun j => qsum (map (fun i => zq 2 * half ^ n * (zq 2 ^ j * b2q (A j)) * (zq 2 ^ i * b2q (B i)))%Qc ib)) ja))).
  - apply expi_qsum. intros j _. rewrite <- !qsum_add. apply expi_qsum. intros i _. rewrite <- pair_total. apply f_equal. ring.
  - f_equal. rewrite (qsum_ext _ (fun j => (zq 2 * half ^ n * zq (number (read x b))) * (zq 2 ^ j * b2q (nth j (read x a) false)))%Qc).
    + rewrite qsum_scale. unfold ja. rewrite <- (read_length x a), qsum_number, angle_zq, zq_mul. unfold value. ring.
    + intros j Ij. apply in_seq in Ij. rewrite qsum_scale, nth_read by lia. fold (A j).
      rewrite (qsum_ext _ (fun i => zq 2 ^ i * b2q (nth i (read x b) false))%Qc) by (intros i Ii; apply in_seq in Ii; rewrite nth_read by (fold n; lia); reflexivity).
      unfold ib, n. rewrite <- (read_length x b) at 2. rewrite qsum_number. ring.
Qed.
Lemma adder_int k b c psi x : fourier_adder (inl k) b true = Some c -> register b x -> run c psi (store x b (value x b + k)) = psi x.
Proof.
  unfold fourier_adder, QFT. intros H Rg. destruct (qft_inner b false true 1) as [v|] eqn:Hv; [|discriminate]. unfold conjugate in H. destruct (invert_circuit v) as [w|] eqn:Hw; [|discriminate]. injection H as <-.
  pose proof (shift_conj (length x) b 1 (int_phases k (rev b)) (fun _ => k) v v w _ Hv Hv Hw eq_refl) as S. rewrite Z.mul_1_l in S || idtac.
  assert (D : diag (length x) (int_phases k (rev b)) (fun x => angle (k * reading true (read x b)) (length b))).
  { eapply diag_ext; [apply diag_int|]. intros y _. cbv beta. rewrite rev_length, read_rev. reflexivity. }
  specialize (S D (fun _ _ => eq_refl) psi x eq_refl Rg). rewrite Z.mul_1_l in S. exact S.
Qed.
Lemma adder_quantum a b c psi x : fourier_adder (inr a) b true = Some c -> register (a ++ b) x -> run c psi (store x b (value x b + value x a)) = psi x.
Proof.
  unfold fourier_adder, QFT. intros H [ND F]. destruct (length b <? length a); [discriminate|].
  destruct (qft_inner b false true 1) as [v|] eqn:Hv; [|discriminate]. unfold conjugate in H. destruct (invert_circuit v) as [w|] eqn:Hw; [|discriminate]. injection H as <-.
  pose proof (shift_conj (length x) b 1 (quantum_phases a (rev b)) (fun x => value x a) v v w _ Hv Hv Hw eq_refl) as S.
  assert (D : diag (length x) (quantum_phases a (rev b)) (fun x => angle (value x a * reading true (read x b)) (length b))).
  { eapply diag_ext; [apply diag_quantum|].
    - apply (Permutation_NoDup (l := a ++ b)); [apply Permutation_app_head, Permutation_rev|exact ND].
    - intros q I. apply F, in_app_iff. left. exact I.
    - intros y _. cbv beta. rewrite rev_length, read_rev. reflexivity. }
  assert (I : forall y d, value (write y b d) a = value y a).
  { intros y d. unfold value. rewrite read_write_off; [reflexivity|]. intros q I J. clear - ND I J. induction a as [|t a IH]; [destruct I|]. cbn [app] in ND. inversion ND; subst. destruct I as [->|I]; [apply H1, in_app_iff; right; exact J|apply IH; auto]. }
  specialize (S D I psi x eq_refl). rewrite Z.mul_1_l in S. apply S. split; [exact (NoDup_right a b ND)|]. intros q Iq. apply F, in_app_iff. right. exact Iq.
Qed.

(** * the traced version *)
Fixpoint jasp_phase (k : nat) (b : list bool) : Qc := match b with [] => 0%Qc | c :: b => (zq 2 * half ^ (k + 2) * b2q c + jasp_phase (S k) b)%Qc end.
Lemma jasp_formula a : forall b k, (jasp_phase k b * b2q a)%Qc = (row_phase 1 k a b + dot (row_acc 1 k (repeat 0%Qc (length b))) b + row_sum 1 k (length b) * b2q a)%Qc.
Proof.
  induction b as [|c b IH]; intros k; cbn [jasp_phase row_phase length repeat row_acc dot row_sum]; [ring|].
  pose proof (IH (S k)) as I. assert (H2 : (half + half = 1)%Qc) by (apply Qc_is_canon; reflexivity). rewrite xor_q. replace (qft_phase 1 k) with (zq 2 * half ^ (k + 2))%Qc by (unfold qft_phase; change (zq 1) with 1%Qc; ring). set (p := (zq 2 * half ^ (k + 2))%Qc).
  transitivity (p * b2q c * b2q a * (half + half) + jasp_phase (S k) b * b2q a)%Qc; [rewrite H2; ring|]. rewrite I, zq_2. clearbody p. ring.
Qed.
Lemma diag_jrow N q : forall qs k, diag N (jasp_row q k qs) (fun x => jasp_phase k (read x qs) * b2q (getbit x q))%Qc.
Proof.
  induction qs as [|t qs IH]; intros k; cbn [jasp_row].
  - eapply diag_ext; [apply diag_nil|]. intros x _. cbn [read map jasp_phase]. apply f_equal. ring.
  - eapply diag_ext; [apply (diag_app N [_]); [apply diag_cp|apply IH]|]. intros x _. cbn [read map jasp_phase]. apply f_equal. fold (read x qs). ring.
Qed.
Lemma run_jrows : forall qv psi x, register qv x ->
  run (jasp_rows qv) psi x = power rI rmul (@rt R chalf) (length qv) * total (all_bits (length qv)) (fun b => expi (qft_angle 1 (length qv) b (read x qv)) * psi (write x qv b)).
Proof.
  induction qv as [|q qv IH]; intros psi x Rg.
  - cbn [jasp_rows all_bits length]. rewrite total_cons, total_nil. cbn [FourierSpec.power read map write]. unfold qft_angle. cbn [big number].
    rewrite zq_0. replace (zq 2 * zq 1 * 0 * 0 * half ^ 0)%Qc with 0%Qc by ring. rewrite e_0. cbn. ring.
  - destruct (register_cons _ _ _ Rg) as (NI & Rg' & Hq). cbn [jasp_rows length FourierSpec.power]. change (qH q :: jasp_row q 0 qv ++ jasp_rows qv) with ([qH q] ++ jasp_row q 0 qv ++ jasp_rows qv). rewrite !run_app. rewrite IH by auto. rewrite (total_bits rO rI radd rmul rsub ropp RT).
    set (n := length qv) in *.
    transitivity (power rI rmul (@rt R chalf) n * (@rt R chalf * (total (all_bits n) (fun b => expi (qft_angle 1 (S n) (false :: b) (read x (q :: qv))) * psi (write x (q :: qv) (false :: b)))
      + total (all_bits n) (fun b => expi (qft_angle 1 (S n) (true :: b) (read x (q :: qv))) * psi (write x (q :: qv) (true :: b)))))); [|ring].
    f_equal. rewrite <- (total_add rO rI radd rmul rsub ropp RT), <- (total_scale rO rI radd rmul rsub ropp RT). apply total_ext. intros b Ib. apply all_bits_length in Ib.
    rewrite (diag_jrow (length x)) by apply write_length. change (run [qH q]) with (effect gH [q]). rewrite (run_h rO rI radd rmul rsub ropp RT expi chalf shalf im EU).
    rewrite write_other by exact NI. rewrite read_write by auto. cbn [read map write]. fold (read x qv).
    assert (S1 : forall b0, expi (qft_angle 1 n b (read x qv)) * (expi (jasp_phase 0 b * b2q (getbit x q))%Qc * expi (b2q (getbit x q && b0))) = expi (qft_angle 1 (S n) (b0 :: b) (getbit x q :: read x qv))).
    { intros b0. destruct (angle_step 1 n (getbit x q) (read x qv) b b0 0%Qc (repeat 0%Qc n) [] eq_refl Ib (read_length _ _) (repeat_length _ _)) as (z & E). rewrite jasp_formula, Ib, <- !e_add.
      apply (e_shift rO rI radd rmul rsub ropp RT expi chalf shalf im EU _ _ z). cbn [dot] in E. rewrite dot_zero in E.
      match type of E with ?l = ?r => assert (E' : (l + row_sum 1 0 n * b2q (getbit x q) = r + row_sum 1 0 n * b2q (getbit x q))%Qc) by (rewrite E; reflexivity) end.
      match type of E' with ?l = ?r => transitivity l; [ring|]; rewrite E'; ring end. }
    rewrite <- !S1. rewrite andb_false_r, andb_true_r. cbn [b2q]. rewrite e_0. ring.
Qed.
Lemma run_jasp qv sw psi x : register qv x -> run (jasp_qft qv sw) psi x = dft 1 false (negb sw) qv psi x.
Proof.
  intros Rg. unfold jasp_qft. rewrite run_app.
  assert (Core : forall x, register qv x -> run (jasp_rows (rev qv)) psi x = dft 1 false true qv psi x).
  { intros z Rz. rewrite run_jrows by (apply register_rev, Rz). unfold FourierSpec.dft. fold (@rt R chalf). rewrite rev_length. f_equal.
    rewrite <- (total_rev rO rI radd rmul rsub ropp RT). apply total_ext. intros b Ib. apply all_bits_length in Ib. rewrite write_rev, read_rev by auto. f_equal. f_equal. rewrite angle_zq. unfold qft_angle, reading. rewrite big_rev, !zq_mul. ring. }
  destruct sw; [|apply Core, Rg]. rewrite (run_reverse rO rI radd rmul rsub ropp RT expi chalf shalf im) by exact Rg.
  assert (LR : length (rev (read x qv)) = length qv) by (rewrite rev_length; apply read_length).
  rewrite Core by (apply (register_length qv x); [symmetry; apply write_length|exact Rg]). unfold FourierSpec.dft. f_equal. apply total_ext. intros b Ib. apply all_bits_length in Ib.
  rewrite read_write, write_write by (auto; apply Rg). unfold reading. cbn [negb]. rewrite rev_involutive. reflexivity.
Qed.
End ring.
