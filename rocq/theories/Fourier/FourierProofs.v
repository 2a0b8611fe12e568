(** The circuit of the QFT. *)
From Coq Require Import List ZArith Bool Lia Arith QArith Qcanon Field Ring Ring_theory.
Import ListNotations.
From Verif.Inverse Require Import InvModel InvSpec InvProofs.
From Verif.CtrlOps Require Import CtrlModel CtrlSpec CtrlProofs.
From Verif.Fourier Require Import FourierModel FourierSpec RegProofs.
Local Open Scope nat_scope.

(** * rationals *)
Lemma zq_add a b : zq (a + b) = (zq a + zq b)%Qc.
Proof. apply Qc_is_canon. unfold zq, Qcplus. cbn [this Q2Qc]. rewrite !Qred_correct, inject_Z_plus. reflexivity. Qed.
Lemma zq_mul a b : zq (a * b) = (zq a * zq b)%Qc.
Proof. apply Qc_is_canon. unfold zq, Qcmult. cbn [this Q2Qc]. rewrite !Qred_correct, inject_Z_mult. reflexivity. Qed.
Lemma zq_opp a : zq (- a) = (- zq a)%Qc.
Proof. apply Qc_is_canon. unfold zq, Qcopp. cbn [this Q2Qc]. rewrite !Qred_correct, inject_Z_opp. reflexivity. Qed.
Lemma zq_0 : zq 0 = 0%Qc. Proof. apply Qc_is_canon. reflexivity. Qed.
Lemma zq_1 : zq 1 = 1%Qc. Proof. apply Qc_is_canon. reflexivity. Qed.
Lemma zq_2 : zq 2 = (1 + 1)%Qc. Proof. apply Qc_is_canon. reflexivity. Qed.
Lemma half_2 : (half * zq 2 = 1)%Qc. Proof. apply Qc_is_canon. reflexivity. Qed.
Lemma half_pow n : (half ^ n * zq (2 ^ Z.of_nat n) = 1)%Qc.
Proof.
  induction n as [|n IH]; [apply Qc_is_canon; reflexivity|]. rewrite Nat2Z.inj_succ, Z.pow_succ_r, zq_mul by lia. cbn [Qcpower].
  transitivity ((half * zq 2) * (half ^ n * zq (2 ^ Z.of_nat n)))%Qc; [ring|]. rewrite half_2, IH. ring.
Qed.
Lemma half_S n : (half ^ S n * zq 2 = half ^ n)%Qc.
Proof. cbn [Qcpower]. transitivity (half * zq 2 * half ^ n)%Qc; [ring|]. rewrite half_2. ring. Qed.
Definition b2q (b : bool) : Qc := if b then 1%Qc else 0%Qc.
Lemma b2q_zq b : b2q b = zq (b2z b). Proof. destruct b; symmetry; [apply zq_1|apply zq_0]. Qed.
Lemma is_zero_ok a : is_zero a = true -> a = 0%Qc.
Proof. unfold is_zero. destruct (Qc_eq_dec a 0%Qc); [auto|discriminate]. Qed.
Lemma xor_q a b : b2q (xorb a b) = (b2q a + b2q b - zq 2 * (b2q a * b2q b))%Qc.
Proof. rewrite zq_2. destruct a, b; cbn; ring. Qed.
Lemma and_q a b : b2q (a && b) = (b2q a * b2q b)%Qc.
Proof. destruct a, b; cbn; ring. Qed.
(** sum of the entries of l at the ones of b *)
Fixpoint dot (l : list Qc) (b : list bool) : Qc := match l, b with c :: l, a :: b => (c * b2q a + dot l b)%Qc | _, _ => 0%Qc end.

(** phase of a row on a basis state: bit a for the first qubit, b for the others *)
Fixpoint row_phase (m : Z) (k : nat) (a : bool) (b : list bool) : Qc :=
  match b with [] => 0%Qc | c :: b => (- (qft_phase m k * half) * b2q (xorb a c) + row_phase m (S k) a b)%Qc end.
Lemma phase_shift m k : (qft_phase m (S k) = qft_phase m k * half)%Qc.
Proof. unfold qft_phase. cbn [Nat.add Qcpower]. ring. Qed.
Lemma row_formula m a : forall b k, (row_phase m k a b + dot (row_acc m k (repeat 0%Qc (length b))) b + row_sum m k (length b) * b2q a
   = b2q a * (zq m * zq 2 * half ^ (k + 1) * half ^ length b * zq (big b)))%Qc.
Proof.
  induction b as [|c b IH]; intros k; cbn [row_phase length repeat row_acc dot row_sum big].
  - rewrite zq_0. ring.
  - specialize (IH (S k)). rewrite zq_add, zq_mul, <- b2q_zq. pose proof (half_pow (length b)) as P. rewrite xor_q.
    replace (half ^ (S k + 1))%Qc with (half ^ (k + 1) * half)%Qc in IH by (replace (S k + 1) with (S (k + 1)) by lia; cbn [Qcpower]; ring).
    assert (Q : (qft_phase m k = zq m * zq 2 * (half ^ (k + 1) * half))%Qc).
    { unfold qft_phase. replace (k + 2) with (S (k + 1)) by lia. cbn [Qcpower]. ring. }
    rewrite Q. cbn [Qcpower]. set (h1 := (half ^ (k + 1))%Qc) in *. set (hn := (half ^ length b)%Qc) in *. set (u := zq (2 ^ Z.of_nat (length b))) in *.
    set (rp := row_phase m (S k) a b) in *. set (ds := dot _ b) in *. set (rs := row_sum _ _ _) in *. set (M := zq m) in *. set (bb := zq (big b)) in *.
    pose proof half_2 as H2. set (t := zq 2) in *. set (A := b2q a) in *. set (C := b2q c) in *.
    transitivity ((rp + ds + rs * A) + M * t * h1 * half * (half * t) * (A * C))%Qc; [ring|]. rewrite IH, H2.
    transitivity (A * (M * t * (h1 * half) * hn * bb) + A * (M * t * h1 * half * C) * 1)%Qc; [ring|]. rewrite <- P at 1. ring.
Qed.
Lemma dot_acc m : forall b acc k, length acc = length b -> (dot (row_acc m k acc) b = dot acc b + dot (row_acc m k (repeat 0%Qc (length b))) b)%Qc.
Proof.
  induction b as [|c b IH]; intros [|a acc] k L; cbn [length] in L; try discriminate; cbn [length repeat row_acc dot]; [ring|]. rewrite (IH acc (S k)) by lia. ring.
Qed.
Lemma dot_zero : forall b n, dot (repeat 0%Qc n) b = 0%Qc.
Proof. induction b as [|c b IH]; intros [|n]; cbn [repeat dot]; auto. rewrite IH. ring. Qed.
Lemma row_acc_length m : forall acc k, length (row_acc m k acc) = length acc.
Proof. induction acc as [|a acc IH]; intros k; cbn [row_acc length]; auto. Qed.
(** the phase of the transform: first bit most significant on the input, least significant on the output *)
Definition qft_angle (m : Z) (n : nat) (b y : list bool) : Qc := (zq 2 * zq m * zq (big b) * zq (number y) * half ^ n)%Qc.
Lemma angle_step m n a y b b0 acc accs fin : Z.odd m = true -> length b = n -> length y = n -> length accs = n ->
  exists z, ((qft_angle m n b y + dot (row_acc m 0 accs) b - dot fin y) + row_phase m 0 a b + b2q (a && b0) + acc * b2q b0
   = (qft_angle m (S n) (b0 :: b) (a :: y) + dot (acc :: accs) (b0 :: b) - dot (row_sum m 0 n :: fin) (a :: y)) + zq (2 * z))%Qc.
Proof.
  intros Hm Lb Ly La. rewrite dot_acc by lia. pose proof (row_formula m a b 0) as F. rewrite Lb in *. cbn [Nat.add Qcpower] in F.
  rewrite Z.odd_spec in Hm. destruct Hm as [m' Hm]. exists (- (b2z b0 * (b2z a * m' + m * number y)))%Z.
  unfold qft_angle. cbn [big number dot]. rewrite Lb. change (if a then 1 else 0)%Z with (b2z a).
  rewrite !zq_mul, zq_opp, !zq_mul, !zq_add, !zq_mul, <- !b2q_zq, and_q. cbn [Qcpower].
  pose proof (half_pow n) as P. pose proof half_2 as H2. assert (M : zq m = (zq 2 * zq m' + 1)%Qc) by (rewrite Hm, zq_add, zq_mul, zq_1; reflexivity).
  set (A := b2q a) in *. set (C := b2q b0) in *. set (t := zq 2) in *. set (hn := (half ^ n)%Qc) in *. set (u := zq (2 ^ Z.of_nat n)) in *. set (B := zq (big b)) in *. set (Y := zq (number y)) in *.
  set (d0 := dot (row_acc _ _ _) b) in *. set (rs := row_sum m 0 n) in *. set (rp := row_phase m 0 a b) in *. set (m1 := zq m) in *. set (mp := zq m') in *.
  assert (F' : rp = (A * (m1 * t * (half * 1) * hn * B) - d0 - rs * A)%Qc) by (rewrite <- F; ring). rewrite F'. clear F' F.
  transitivity (t * m1 * B * Y * hn * 1 + dot accs b - dot fin y + A * m1 * B * hn * (half * t) - rs * A + A * C * 1 + acc * C)%Qc; [ring|]. rewrite <- H2 at 1. rewrite H2.
  transitivity (t * m1 * B * Y * hn * (half * t) + dot accs b - dot fin y + A * m1 * B * hn * (half * t) - rs * A + A * C + acc * C
     + (m1 * C * A + t * m1 * C * Y - m1 * C * A - t * m1 * C * Y))%Qc; [rewrite H2; ring|].
  transitivity (t * m1 * B * Y * hn * (half * t) + dot accs b - dot fin y + A * m1 * B * hn * (half * t) - rs * A + A * C + acc * C
     + (m1 * C * A * (half * t) * (hn * u) + t * m1 * C * Y * (half * t) * (hn * u) - m1 * C * A - t * m1 * C * Y))%Qc; [rewrite H2, P; ring|].
  rewrite M at 5. rewrite M. ring.
Qed.
Section ring.
Context {R : Type} (rO rI : R) (radd rmul rsub : R -> R -> R) (ropp : R -> R) (RT : ring_theory rO rI radd rmul rsub ropp eq).
Context (expi chalf shalf : Qc -> R) (im : R).
Context (EU : euler rO rI radd rmul ropp expi chalf shalf im).
Add Ring rr : RT.
Notation effect := (effect Qcplus rO rI radd rmul ropp expi chalf shalf im).
Notation run := (run_circuit Qcplus rO rI radd rmul ropp expi chalf shalf im).
Notation amp := (@amp R).
Notation total := (total rO radd).
Notation power := (power rI rmul).
Notation e_add := (e_add rO rI radd rmul ropp expi chalf shalf im EU).
Notation e_0 := (e_0 rO rI radd rmul ropp expi chalf shalf im EU).
Notation e_1 := (e_1 rO rI radd rmul ropp expi chalf shalf im EU).
Notation "a + b" := (radd a b). Notation "a * b" := (rmul a b). Notation "- a" := (ropp a).
Definition rt : R := chalf q_half. (** the square root of 1/2 *)

(** * sums *)
Lemma total_nil {A} (f : A -> R) : total [] f = rO. Proof. reflexivity. Qed.
Lemma total_cons {A} a (l : list A) f : total (a :: l) f = f a + total l f. Proof. reflexivity. Qed.
Lemma total_app {A} (l1 l2 : list A) f : total (l1 ++ l2) f = total l1 f + total l2 f.
Proof. induction l1 as [|a l IH]; cbn [app]; [rewrite total_nil; ring|]. rewrite !total_cons, IH. ring. Qed.
Lemma total_map {A B} (g : A -> B) l f : total (map g l) f = total l (fun a => f (g a)).
Proof. induction l as [|a l IH]; [reflexivity|]. cbn [map]. rewrite !total_cons, IH. reflexivity. Qed.
Lemma total_ext {A} (l : list A) f g : (forall a, In a l -> f a = g a) -> total l f = total l g.
Proof. induction l as [|a l IH]; intros H; [reflexivity|]. rewrite !total_cons. f_equal; [apply H; left; reflexivity|]. apply IH. intros b Ib. apply H. right. exact Ib. Qed.
Lemma total_add {A} (l : list A) f g : total l (fun a => f a + g a) = total l f + total l g.
Proof. induction l as [|a l IH]; [rewrite !total_nil; ring|]. rewrite !total_cons, IH. ring. Qed.
Lemma total_scale {A} (l : list A) c f : total l (fun a => c * f a) = c * total l f.
Proof. induction l as [|a l IH]; [rewrite !total_nil; ring|]. rewrite !total_cons, IH. ring. Qed.
Lemma total_zero {A} (l : list A) : total l (fun _ => rO) = rO.
Proof. induction l as [|a l IH]; [reflexivity|]. rewrite !total_cons, IH. ring. Qed.
Lemma total_swap {A B} (l : list A) (k : list B) f : total l (fun a => total k (fun b => f a b)) = total k (fun b => total l (fun a => f a b)).
Proof.
  induction l as [|a l IH]; [rewrite total_nil; symmetry; apply total_zero|]. rewrite total_cons, IH, <- total_add. reflexivity.
Qed.
Lemma total_bits n f : total (all_bits (S n)) f = total (all_bits n) (fun b => f (false :: b)) + total (all_bits n) (fun b => f (true :: b)).
Proof. cbn [all_bits]. rewrite total_app, !total_map. reflexivity. Qed.
Lemma all_bits_length n : forall b, In b (all_bits n) -> length b = n.
Proof.
  induction n as [|n IH]; intros b; cbn [all_bits]; [intros [<-|[]]; reflexivity|]. rewrite in_app_iff, !in_map_iff. intros [(c & <- & I)|(c & <- & I)]; cbn; f_equal; apply IH, I.
Qed.
Lemma all_bits_in n : forall b, length b = n -> In b (all_bits n).
Proof.
  induction n as [|n IH]; intros [|a b] L; cbn [all_bits length] in *; try discriminate; [left; reflexivity|]. apply in_app_iff. destruct a; [right|left]; apply in_map, IH; lia.
Qed.
(** picking one term *)
Lemma total_pick n : forall c f, length c = n -> (forall b, length b = n -> b <> c -> f b = rO) -> total (all_bits n) f = f c.
Proof.
  induction n as [|n IH]; intros [|a c] f L H; cbn [length] in L; try discriminate.
  - cbn [all_bits]. rewrite total_cons, total_nil. ring.
  - rewrite total_bits.
    assert (Z : total (all_bits n) (fun b => f (negb a :: b)) = rO).
    { transitivity (total (all_bits n) (fun _ => rO)); [|apply total_zero]. apply total_ext. intros b Ib. apply H; [cbn; rewrite (all_bits_length n b Ib); reflexivity|]. intros E. injection E as E _. destruct a; discriminate. }
    assert (P : total (all_bits n) (fun b => f (a :: b)) = f (a :: c)).
    { apply (IH c (fun b => f (a :: b))); [lia|]. intros b Lb N. apply H; [cbn; lia|]. congruence. }
    destruct a; cbn [negb] in Z; rewrite Z, P; ring.
Qed.
(** reindexing *)
Lemma total_rev n f : total (all_bits n) (fun b => f (rev b)) = total (all_bits n) f.
Proof.
  revert f. assert (G : forall n f, total (all_bits (S n)) f = total (all_bits n) (fun b => f (b ++ [false])) + total (all_bits n) (fun b => f (b ++ [true]))).
  { clear n. induction n as [|n IH]; intros f; [rewrite total_bits; reflexivity|]. rewrite total_bits, (IH (fun b => f (false :: b))), (IH (fun b => f (true :: b))), !total_bits. cbn [app]. ring. }
  induction n as [|n IH]; intros f; [reflexivity|]. rewrite total_bits. cbn [rev]. rewrite (IH (fun b => f (b ++ [false]))), (IH (fun b => f (b ++ [true]))), G. reflexivity.
Qed.

(** * gates *)
Lemma run_app c d psi : run (c ++ d) psi = run d (run c psi).
Proof. apply fold_left_app. Qed.
Lemma run_nil psi : run [] psi = psi. Proof. reflexivity. Qed.
Lemma run_cons o qs c psi : run ((o, qs) :: c) psi = run c (effect o qs psi).
Proof. reflexivity. Qed.
Lemma e_even z : expi (zq (2 * z)) = rI.
Proof.
  assert (N : forall n, expi (zq (2 * Z.of_nat n)) = rI).
  { induction n as [|n IH]; [change (2 * Z.of_nat 0)%Z with 0%Z; rewrite zq_0; apply e_0|].
    replace (2 * Z.of_nat (S n))%Z with (2 * Z.of_nat n + (1 + 1))%Z by lia. rewrite !zq_add, zq_1, !e_add, IH, e_1. ring. }
  destruct (Z.le_gt_cases 0 z) as [H|H]; [rewrite <- (Z2Nat.id z H); apply N|].
  pose proof (CtrlProofs.e_opp rO rI radd rmul ropp expi chalf shalf im EU (zq (2 * z))) as E. rewrite <- zq_opp in E.
  replace (- (2 * z))%Z with (2 * Z.of_nat (Z.to_nat (- z)))%Z in E by lia. rewrite N in E. rewrite <- E. ring.
Qed.
Lemma e_shift a b z : a = (b + zq (2 * z))%Qc -> expi a = expi b.
Proof. intros ->. rewrite e_add, e_even. ring. Qed.
Lemma rt_s : shalf q_half = rt.
Proof.
  pose proof (CtrlProofs.e_euler rO rI radd rmul ropp expi chalf shalf im EU q_half) as E.
  pose proof (CtrlProofs.e_euler' rO rI radd rmul rsub ropp RT expi chalf shalf im EU q_half) as E'.
  assert (H : expi (q_half / (1 + 1))%Qc = im * expi (- (q_half / (1 + 1)))%Qc).
  { rewrite <- (CtrlProofs.e_im rO rI radd rmul ropp expi chalf shalf im EU), <- e_add. f_equal. unfold q_half. field. discriminate. }
  rewrite E, E' in H. pose proof (CtrlProofs.im_im rO rI radd rmul ropp expi chalf shalf im EU) as I. unfold rt.
  apply (CtrlProofs.two_cancel rO rI radd rmul rsub ropp RT expi chalf shalf im EU).
  assert (K : (rI + im) * (chalf q_half + im * shalf q_half) = (rI + im) * (im * (chalf q_half + - (im * shalf q_half)))) by (rewrite H; reflexivity).
  assert (L1 : (rI + im) * (chalf q_half + im * shalf q_half) = chalf q_half + im * chalf q_half + im * shalf q_half + - shalf q_half) by ring [I].
  assert (L2 : (rI + im) * (im * (chalf q_half + - (im * shalf q_half))) = im * chalf q_half + - chalf q_half + shalf q_half + im * shalf q_half) by ring [I].
  rewrite L1, L2 in K.
  transitivity ((im * chalf q_half + - chalf q_half + shalf q_half + im * shalf q_half) + (shalf q_half + chalf q_half + - (im * chalf q_half) + - (im * shalf q_half))); [ring|].
  rewrite <- K. ring.
Qed.
Lemma rt_2 : rt * rt + rt * rt = rI.
Proof. pose proof (CtrlProofs.c_s rO rI radd rmul rsub ropp RT expi chalf shalf im EU q_half) as H. rewrite rt_s in H. exact H. Qed.
Lemma run_h q psi x : effect gH [q] psi x = rt * (psi (setbit x q false) + expi (b2q (getbit x q)) * psi (setbit x q true)).
Proof.
  cbn [InvSpec.effect gH mk_u3 nth]. unfold on_qubit, u3_matrix. replace (0 + q1)%Qc with 1%Qc by (unfold q1; ring). rewrite rt_s, e_0. fold rt. unfold q1.
  destruct (getbit x q); cbn [b2q]; rewrite ?e_1, ?e_0; ring.
Qed.
Lemma run_p a q psi x : effect (gP a) [q] psi x = expi (a * b2q (getbit x q))%Qc * psi x.
Proof.
  cbn [InvSpec.effect gP mk_u3 nth].
  rewrite (CtrlProofs.on_ext radd rmul _ _ _ _ _ (CtrlProofs.p_matrix rO rI radd rmul rsub ropp RT expi chalf shalf im EU 0%Qc 0%Qc a 0%Qc eq_refl eq_refl)).
  rewrite (CtrlProofs.on_diag rO rI radd rmul rsub ropp RT). replace (a + 0)%Qc with a by ring.
  destruct (getbit x q); cbn [b2q]; [replace (a * 1)%Qc with a by ring; reflexivity|]. replace (a * 0)%Qc with 0%Qc by ring. rewrite e_0. reflexivity.
Qed.
Lemma run_opt_p a q psi x : run (opt_p a q) psi x = expi (a * b2q (getbit x q))%Qc * psi x.
Proof.
  unfold opt_p. destruct (is_zero a) eqn:E; [|apply run_p]. rewrite (is_zero_ok _ E). replace (0 * b2q (getbit x q))%Qc with 0%Qc by ring. rewrite e_0. cbn. ring.
Qed.
Lemma run_cx c t psi x : effect gCX [c; t] psi x = psi (setbit x t (xorb (getbit x t) (getbit x c))).
Proof.
  cbn [InvSpec.effect gCX gX length firstn skipn map]. cbn [bits_eqb nth]. destruct (getbit x c); cbn [Bool.eqb andb].
  - unfold on_qubit. destruct (getbit x t); cbn [xorb pauli_matrix]; ring.
  - rewrite xorb_false_r, setbit_get. reflexivity.
Qed.
Lemma run_zz a b th psi x : a <> b -> b < length x -> run (zz th a b) psi x = expi (- (th * half) * b2q (xorb (getbit x a) (getbit x b)))%Qc * psi x.
Proof.
  intros N L. unfold zz. cbn [run_circuit fold_left qCX qP]. rewrite run_cx, run_p, run_cx.
  rewrite !getbit_set_same, getbit_set_other, setbit_twice by (rewrite ?setbit_length; auto).
  replace (xorb (xorb (getbit x b) (getbit x a)) (getbit x a)) with (getbit x b) by (destruct (getbit x a), (getbit x b); reflexivity).
  rewrite setbit_get. f_equal. f_equal. f_equal; [ring|]. rewrite xorb_comm. reflexivity.
Qed.
(** * the rows *)
Lemma run_row m q : forall qs k psi x, ~ In q qs -> (forall t, In t qs -> t < length x) ->
  run (qft_row m q k qs) psi x = expi (row_phase m k (getbit x q) (read x qs)) * psi x.
Proof.
  induction qs as [|t qs IH]; intros k psi x N F; cbn [qft_row read map row_phase]; [rewrite e_0, run_nil; ring|].
  rewrite run_app, IH, run_zz by (cbn [In] in *; auto). rewrite e_add. fold (read x qs). ring.
Qed.
Lemma run_rows m : Z.odd m = true -> forall qv acc psi x, register qv x -> length acc = length qv ->
  run (fst (qft_rows m qv acc)) psi x = power rt (length qv) *
    total (all_bits (length qv)) (fun b => expi (qft_angle m (length qv) b (read x qv) + dot acc b - dot (snd (qft_rows m qv acc)) (read x qv))%Qc * psi (write x qv b)).
Proof.
  intros Hm. induction qv as [|q qv IH]; intros [|a acc] psi x Rg L; cbn [length] in L; try discriminate.
  - cbn [qft_rows fst snd all_bits length]. rewrite run_nil, total_cons, total_nil. cbn [FourierSpec.power read map dot write]. unfold qft_angle. cbn [big number].
    rewrite zq_0. replace (zq 2 * zq m * 0 * 0 * half ^ 0 + 0 - 0)%Qc with 0%Qc by ring. rewrite e_0. ring.
  - destruct (register_cons _ _ _ Rg) as (NI & Rg' & Hq). cbn [qft_rows fst snd length FourierSpec.power]. rewrite !run_app.
    rewrite IH by (auto; rewrite row_acc_length; lia). rewrite total_bits.
    set (n := length qv) in *. set (fin := snd (qft_rows m qv (row_acc m 0 acc))).
    transitivity (power rt n * (rt * (total (all_bits n) (fun b => expi (qft_angle m (S n) (false :: b) (read x (q :: qv)) + dot (a :: acc) (false :: b) - dot (row_sum m 0 n :: fin) (read x (q :: qv)))%Qc * psi (write x (q :: qv) (false :: b)))
      + total (all_bits n) (fun b => expi (qft_angle m (S n) (true :: b) (read x (q :: qv)) + dot (a :: acc) (true :: b) - dot (row_sum m 0 n :: fin) (read x (q :: qv)))%Qc * psi (write x (q :: qv) (true :: b)))))); [|ring].
    f_equal. rewrite <- total_add, <- total_scale. apply total_ext. intros b Ib. apply all_bits_length in Ib.
    rewrite run_row; [|exact NI|intros t It; rewrite write_length; apply Rg'; exact It]. change (run [qH q]) with (effect gH [q]). rewrite run_h.
    rewrite !run_opt_p. rewrite !getbit_set_same by (rewrite write_length; exact Hq). rewrite write_other by exact NI. rewrite read_write by auto.
    cbn [read map write]. fold (read x qv).
    assert (S1 : forall b0, expi (qft_angle m n b (read x qv) + dot (row_acc m 0 acc) b - dot fin (read x qv))%Qc * (expi (row_phase m 0 (getbit x q) b) * (expi (b2q (getbit x q && b0)) * (expi (a * b2q b0)%Qc)))
       = expi (qft_angle m (S n) (b0 :: b) (getbit x q :: read x qv) + dot (a :: acc) (b0 :: b) - dot (row_sum m 0 n :: fin) (getbit x q :: read x qv))%Qc).
    { intros b0. destruct (angle_step m n (getbit x q) (read x qv) b b0 a acc fin Hm Ib (read_length _ _)) as (z & E); [lia|]. rewrite <- (e_shift _ _ z E), !e_add. ring. }
    rewrite <- !S1. rewrite andb_false_r, andb_true_r. cbn [b2q]. rewrite e_0. ring.
Qed.
Lemma run_finals : forall qv acc psi x, length acc = length qv -> run (qft_finals qv acc) psi x = expi (dot acc (read x qv)) * psi x.
Proof.
  induction qv as [|q qv IH]; intros [|a acc] psi x L; cbn [length] in L; try discriminate; [cbn; rewrite e_0; ring|].
  unfold qft_finals. cbn [combine flat_map]. fold (qft_finals qv acc). rewrite run_app, IH, run_opt_p by lia. cbn [read map dot]. fold (read x qv). rewrite e_add. ring.
Qed.
End ring.
