(** The QFT is the discrete Fourier transform; its inverse; shifts in Fourier space. *)
From Coq Require Import List ZArith Bool Lia Arith Znumtheory Zpow_facts QArith Qcanon Field Ring Ring_theory.
Import ListNotations.
From Verif.Inverse Require Import InvModel InvSpec InvProofs.
From Verif.CtrlOps Require Import CtrlModel CtrlSpec CtrlProofs.
From Verif.Fourier Require Import FourierModel FourierSpec RegProofs FourierProofs.
Local Open Scope nat_scope.

Lemma angle_zq z n : angle z n = (zq 2 * zq z * half ^ n)%Qc.
Proof.
  assert (P : (0 < 2 ^ Z.of_nat n)%Z) by (apply Z.pow_pos_nonneg; lia).
  assert (E : angle z n = (zq (2 * z) / zq (2 ^ Z.of_nat n))%Qc).
  { apply Qc_is_canon. unfold angle, zq, Qcdiv, Qcmult, Qcinv. cbn [this Q2Qc]. rewrite !Qred_correct. reflexivity. }
  rewrite E, zq_mul. pose proof (half_pow n) as H. assert (N : zq (2 ^ Z.of_nat n) <> 0%Qc). { intros E0. rewrite E0 in H. apply (f_equal this) in H. revert H. replace (half ^ n * 0)%Qc with 0%Qc by ring. discriminate. }
  transitivity (zq 2 * zq z * (half ^ n * zq (2 ^ Z.of_nat n)) / zq (2 ^ Z.of_nat n))%Qc; [rewrite H; field; exact N|field; exact N].
Qed.
Lemma angle_add a b n : angle (a + b) n = (angle a n + angle b n)%Qc.
Proof. rewrite !angle_zq, zq_add. ring. Qed.
Lemma angle_opp a n : angle (- a) n = (- angle a n)%Qc.
Proof. rewrite !angle_zq, zq_opp. ring. Qed.
Lemma angle_whole a n : angle (a * 2 ^ Z.of_nat n) n = zq (2 * a).
Proof. rewrite angle_zq, !zq_mul. pose proof (half_pow n) as P. transitivity (zq 2 * zq a * (half ^ n * zq (2 ^ Z.of_nat n)))%Qc; [ring|]. rewrite P. ring. Qed.
Lemma angle_S a n : angle (2 * a) (S n) = angle a n.
Proof. rewrite !angle_zq, zq_mul. pose proof half_2 as H. cbn [Qcpower]. transitivity (half * zq 2 * (zq 2 * zq a * half ^ n))%Qc; [ring|]. rewrite H. ring. Qed.
Lemma reading_length r b c : length b = length c -> reading r b = reading r c -> b = c.
Proof.
  unfold reading. intros L E. destruct r; [|exact (number_inj _ _ L E)].
  assert (H : rev b = rev c) by (apply number_inj; [rewrite !rev_length; exact L|exact E]). rewrite <- (rev_involutive b), H, rev_involutive. reflexivity.
Qed.
Lemma reading_range r b : (0 <= reading r b < 2 ^ Z.of_nat (length b))%Z.
Proof. unfold reading. destruct r; [rewrite <- (rev_length b)|]; apply number_range. Qed.

Lemma odd_cancel m u v n : Z.odd m = true -> (0 <= u < 2 ^ Z.of_nat n)%Z -> (0 <= v < 2 ^ Z.of_nat n)%Z -> ((m * (u - v)) mod 2 ^ Z.of_nat n = 0)%Z -> u = v.
Proof.
  intros Hm B1 B2 T. apply Z.mod_divide in T; [|lia].
  assert (Dv : (2 ^ Z.of_nat n | u - v)%Z).
  { apply (Z.gauss _ m); [exact T|]. apply Zgcd_1_rel_prime, rel_prime_sym, rel_prime_Zpower_r; [lia|]. apply Zgcd_1_rel_prime. rewrite Z.odd_spec in Hm. destruct Hm as [k ->]. rewrite Z.gcd_comm, Z.add_comm, Z.mul_comm, Z.gcd_add_mult_diag_r. reflexivity. }
  destruct Dv as [k Hk]. assert (k = 0)%Z by nia. lia.
Qed.
(** * well-formed circuits *)
Lemma wf_app N a b : wf_circuit N a -> wf_circuit N b -> wf_circuit (A := Qc) N (a ++ b).
Proof. unfold wf_circuit. induction a as [|[o loc] a IH]; intros H K; cbn [app]; auto. inversion H; subst. constructor; auto. Qed.
Lemma wf_flat {B} N (f : B -> body) l : (forall a, In a l -> wf_circuit N (f a)) -> wf_circuit N (flat_map f l).
Proof. induction l as [|a l IH]; intros H; cbn [flat_map]; [constructor|]. apply wf_app; [apply H; left; reflexivity|]. apply IH. intros b I. apply H. right. exact I. Qed.
Lemma wf_1 N (o : qop) q : well_formed o -> arity o = 1 -> q < N -> wf_circuit N [(o, [q])].
Proof. intros W A L. constructor; auto; [repeat constructor; auto| |constructor]. intros i [<-|[]]; exact L. Qed.
Lemma wf_2 N (o : qop) p q : well_formed o -> arity o = 2 -> p <> q -> p < N -> q < N -> wf_circuit N [(o, [p; q])].
Proof. intros W A NE L M. constructor; auto; [repeat constructor; cbn; auto; intros [E|[]]; auto| |constructor]. intros i [<-|[<-|[]]]; auto. Qed.
Lemma wf_h N q : q < N -> wf_circuit N [qH q]. Proof. apply wf_1; constructor. Qed.
Lemma wf_p N a q : q < N -> wf_circuit N [qP a q]. Proof. apply wf_1; constructor. Qed.
Lemma wf_x N q : q < N -> wf_circuit N [qX q]. Proof. apply wf_1; constructor. Qed.
Lemma wf_cx N p q : p <> q -> p < N -> q < N -> wf_circuit N [qCX p q]. Proof. apply wf_2; repeat constructor. Qed.
Lemma wf_swap N p q : p <> q -> p < N -> q < N -> wf_circuit N [qSwap p q].
Proof.
  apply wf_2; [|reflexivity]. constructor. repeat (constructor; [repeat constructor|repeat constructor; cbn; lia|reflexivity|cbn; intros i; lia|]). constructor.
Qed.
Lemma wf_opt N a q : q < N -> wf_circuit N (opt_p a q).
Proof. intros H. unfold opt_p. destruct (is_zero a); [constructor|apply wf_p, H]. Qed.
Lemma wf_row N m q : q < N -> forall qs k, ~ In q qs -> (forall t, In t qs -> t < N) -> wf_circuit N (qft_row m q k qs).
Proof.
  intros Hq. induction qs as [|t qs IH]; intros k NI F; cbn [qft_row]; [constructor|]. apply wf_app; [|apply IH; cbn in *; auto].
  assert (q <> t) by (intros ->; apply NI; left; auto). assert (t < N) by (apply F; left; auto).
  change (zz (qft_phase m k) q t) with ([qCX q t] ++ [qP (- qft_phase m k * half)%Qc t] ++ [qCX q t]). auto using wf_app, wf_cx, wf_p.
Qed.
Lemma wf_rows N m : forall qv acc, NoDup qv -> (forall t, In t qv -> t < N) -> wf_circuit N (fst (qft_rows m qv acc)).
Proof.
  induction qv as [|q qv IH]; intros [|a acc] ND F; cbn [qft_rows fst]; try constructor. inversion ND; subst. cbn [In] in F.
  apply wf_app; [apply wf_opt; auto|]. apply (wf_app N [qH q]); [apply wf_h; auto|]. apply wf_app; [apply wf_row; auto|apply IH; auto].
Qed.
Lemma wf_finals N : forall qv acc, (forall t, In t qv -> t < N) -> wf_circuit N (qft_finals qv acc).
Proof. intros qv acc F. apply wf_flat. intros [q a] I. apply wf_opt, F. exact (in_combine_l _ _ _ _ I). Qed.
Lemma nth_neq qv i j : NoDup qv -> i < length qv -> j < length qv -> i <> j -> nth i qv 0 <> nth j qv 0.
Proof. intros ND Hi Hj H E. apply H. apply (proj1 (NoDup_nth qv 0) ND); auto. Qed.
Lemma half_lt n i : i < n / 2 -> i < n - i - 1 /\ n - i - 1 < n /\ i < n.
Proof. intros H. pose proof (Nat.mul_div_le n 2). lia. Qed.
Lemma wf_swaps N qv : NoDup qv -> (forall t, In t qv -> t < N) -> wf_circuit N (reverse_swaps qv).
Proof.
  intros ND F. apply wf_flat. intros i I. apply in_seq in I. destruct (half_lt (length qv) i) as (A & B & C); [lia|]. apply wf_swap; [apply nth_neq; auto; lia|apply F, nth_In; exact C|apply F, nth_In; exact B].
Qed.
Lemma wf_qft N qv sw en m c : qft_inner qv sw en m = Some c -> NoDup qv -> (forall t, In t qv -> t < N) -> wf_circuit N c.
Proof.
  unfold qft_inner. intros H ND F. set (qv' := if en then rev qv else qv) in *.
  assert (ND' : NoDup qv') by (unfold qv'; destruct en; [apply NoDup_rev|]; exact ND).
  assert (F' : forall t, In t qv' -> t < N) by (unfold qv'; destruct en; auto; intros t I; apply F, in_rev, I).
  destruct (Z.odd m); [|discriminate]. pose proof (wf_rows N m qv' (repeat 0%Qc (length qv')) ND' F') as W.
  destruct (qft_rows m qv' (repeat 0%Qc (length qv'))) as [g acc]. injection H as <-. apply wf_app; [exact W|]. apply wf_app; [apply wf_finals, F'|]. destruct sw; [apply wf_swaps; auto|constructor].
Qed.
Lemma qft_rows_length m : forall qv acc, length acc = length qv -> length (snd (qft_rows m qv acc)) = length qv.
Proof. induction qv as [|q qv IH]; intros [|a acc] L; cbn [length] in L; try discriminate; auto. cbn [qft_rows snd length]. rewrite IH; auto. rewrite row_acc_length. lia. Qed.

Section ring.
Context {R : Type} (rO rI : R) (radd rmul rsub : R -> R -> R) (ropp : R -> R) (RT : ring_theory rO rI radd rmul rsub ropp eq).
Context (expi chalf shalf : Qc -> R) (im : R).
Context (EU : euler rO rI radd rmul ropp expi chalf shalf im).
Add Ring rr2 : RT.
Notation effect := (effect Qcplus rO rI radd rmul ropp expi chalf shalf im).
Notation run := (run_circuit Qcplus rO rI radd rmul ropp expi chalf shalf im).
Notation amp := (@amp R).
Notation total := (total rO radd).
Notation power := (power rI rmul).
Notation dft := (dft rO rI radd rmul expi chalf).
Notation rt := (@rt R chalf).
Notation e_add := (e_add rO rI radd rmul ropp expi chalf shalf im EU).
Notation e_0 := (e_0 rO rI radd rmul ropp expi chalf shalf im EU).
Notation e_1 := (e_1 rO rI radd rmul ropp expi chalf shalf im EU).
Notation e_even := (FourierProofs.e_even rO rI radd rmul rsub ropp RT expi chalf shalf im EU).
Notation e_shift := (FourierProofs.e_shift rO rI radd rmul rsub ropp RT expi chalf shalf im EU).
Notation rt_2 := (FourierProofs.rt_2 rO rI radd rmul rsub ropp RT expi chalf shalf im EU).
Notation run_app := (FourierProofs.run_app rO rI radd rmul ropp expi chalf shalf im).
Notation total_ext := (FourierProofs.total_ext rO radd).
Notation total_scale := (FourierProofs.total_scale rO rI radd rmul rsub ropp RT).
Notation total_swap := (FourierProofs.total_swap rO rI radd rmul rsub ropp RT).
Notation total_rev := (FourierProofs.total_rev rO rI radd rmul rsub ropp RT).
Notation total_bits := (FourierProofs.total_bits rO rI radd rmul rsub ropp RT).
Notation total_pick := (FourierProofs.total_pick rO rI radd rmul rsub ropp RT).
Notation run_cx := (FourierProofs.run_cx rO rI radd rmul rsub ropp RT expi chalf shalf im).
Local Infix "+" := radd. Local Infix "*" := rmul. Local Notation "- a" := (ropp a).

(** * swaps *)
Lemma run_swap a b psi x : a <> b -> a < length x -> b < length x -> effect gSwap [a; b] psi x = psi (setbit (setbit x a (getbit x b)) b (getbit x a)).
Proof.
  intros N La Lb. change (effect gSwap [a; b] psi x) with (effect gCX [a; b] (effect gCX [b; a] (effect gCX [a; b] psi)) x).
  rewrite !run_cx. f_equal. apply getbit_ext; [rewrite !setbit_length; reflexivity|]. intros p _.
  assert (D : forall y q c, q < length y -> getbit (setbit y q c) q = c) by (intros; apply getbit_set_same; assumption).
  destruct (Nat.eq_dec p b) as [->|Nb].
  - rewrite !D by (rewrite ?setbit_length; auto). rewrite !(getbit_set_other _ _ b) by auto. rewrite !D by (rewrite ?setbit_length; auto). rewrite !(getbit_set_other _ _ a) by auto.
    rewrite ?D by (rewrite ?setbit_length; auto). destruct (getbit x a), (getbit x b); reflexivity.
  - rewrite !(getbit_set_other _ b p) by auto. destruct (Nat.eq_dec p a) as [->|Na].
    + rewrite !D by (rewrite ?setbit_length; auto). rewrite !(getbit_set_other _ _ a) by auto. rewrite ?D by (rewrite ?setbit_length; auto). destruct (getbit x a), (getbit x b); reflexivity.
    + repeat rewrite getbit_set_other by auto. reflexivity.
Qed.
Lemma run_partial qv : forall k x, (k <= length qv / 2)%nat -> register qv x ->
  exists y, (forall psi, run (flat_map (fun i => [qSwap (nth i qv 0) (nth (length qv - i - 1) qv 0)]) (seq 0 k)) psi x = psi y) /\
  length y = length x /\ (forall p, ~ In p qv -> getbit y p = getbit x p) /\
  forall i, (i < length qv)%nat -> getbit y (nth i qv 0) = getbit x (nth (if (i <? k) || (length qv - k <=? i) then length qv - i - 1 else i) qv 0).
Proof.
  induction k as [|k IH]; intros x Hk Rg.
  - exists x. split; [reflexivity|]. split; [reflexivity|]. split; [reflexivity|]. intros i Hi. cbn [orb Nat.ltb Nat.leb]. destruct (Nat.leb_spec (length qv - 0) i); [lia|reflexivity].
  - destruct Rg as [ND F]. set (n := length qv) in *. destruct (half_lt n k) as (A & B & C); [lia|].
    set (p := nth k qv 0). set (q := nth (n - k - 1) qv 0). assert (Np : p <> q) by (apply nth_neq; auto; lia).
    assert (Lp : (p < length x)%nat) by (apply F, nth_In; exact C). assert (Lq : (q < length x)%nat) by (apply F, nth_In; exact B).
    set (x1 := setbit (setbit x p (getbit x q)) q (getbit x p)).
    assert (L1 : length x1 = length x) by (unfold x1; rewrite !setbit_length; reflexivity).
    destruct (IH x1) as (y & Ry & Ly & Oy & By); [lia|split; [exact ND|rewrite L1; exact F]|]. exists y. rewrite L1 in Ly.
    assert (G : forall i, (i < n)%nat -> getbit x1 (nth i qv 0) = getbit x (nth (if (i =? k) || (i =? n - k - 1) then n - i - 1 else i) qv 0)).
    { intros i Hi. unfold x1. destruct (Nat.eqb_spec i k) as [->|Nk]; cbn [orb].
      - fold p. rewrite getbit_set_other, getbit_set_same by auto. reflexivity.
      - destruct (Nat.eqb_spec i (n - k - 1)) as [->|Nk'].
        + fold q. rewrite getbit_set_same by (rewrite setbit_length; auto). unfold p. f_equal. f_equal. lia.
        + rewrite !getbit_set_other by (apply nth_neq; auto; fold n; lia). reflexivity. }
    split; [|split; [exact Ly|split]].
    + intros psi. rewrite seq_S, flat_map_app, run_app. cbn [flat_map app Nat.add]. change (run [qSwap (nth k qv 0) (nth (n - k - 1) qv 0)]) with (effect gSwap [p; q]).
      rewrite run_swap by auto. apply Ry.
    + intros t Nt. rewrite Oy by exact Nt. unfold x1. rewrite !getbit_set_other; [reflexivity| |]; intros ->; apply Nt; [unfold p|unfold q]; apply nth_In; fold n; lia.
    + intros i Hi. rewrite By by exact Hi.
      destruct (Nat.ltb_spec i k) as [H1|H1]; cbn [orb].
      * rewrite G by lia. destruct (Nat.ltb_spec i (S k)); [|lia]. cbn [orb]. destruct (Nat.eqb_spec (n - i - 1) k); [lia|]. destruct (Nat.eqb_spec (n - i - 1) (n - k - 1)); [lia|]. reflexivity.
      * destruct (Nat.leb_spec (n - k) i) as [H2|H2].
        -- rewrite G by lia. destruct (Nat.ltb_spec i (S k)); [lia|]. destruct (Nat.leb_spec (n - S k) i); [|lia]. cbn [orb]. destruct (Nat.eqb_spec (n - i - 1) k); [lia|]. destruct (Nat.eqb_spec (n - i - 1) (n - k - 1)); [lia|]. reflexivity.
        -- rewrite G by exact Hi. destruct (Nat.eqb_spec i k) as [->|N1]; cbn [orb].
           ++ destruct (Nat.ltb_spec k (S k)); [|lia]. reflexivity.
           ++ destruct (Nat.ltb_spec i (S k)); [lia|]. cbn [orb]. destruct (Nat.eqb_spec i (n - k - 1)); destruct (Nat.leb_spec (n - S k) i); try lia; reflexivity.
Qed.
Lemma nth_read x qs i : (i < length qs)%nat -> nth i (read x qs) false = getbit x (nth i qs 0).
Proof. intros H. unfold read. rewrite (nth_indep _ false (getbit x 0)) by (rewrite map_length; exact H). apply (map_nth (getbit x)). Qed.
Lemma run_reverse qv psi x : register qv x -> run (reverse_swaps qv) psi x = psi (write x qv (rev (read x qv))).
Proof.
  intros Rg. destruct (run_partial qv (length qv / 2) x (le_n _) Rg) as (y & Ry & Ly & Oy & By). unfold reverse_swaps. rewrite Ry. f_equal. symmetry.
  apply write_ext; auto; [rewrite rev_length, read_length; reflexivity|].
  apply nth_ext with false false; [rewrite rev_length, !read_length; reflexivity|]. intros i Hi. rewrite read_length in Hi.
  rewrite rev_nth by (rewrite read_length; exact Hi). rewrite !nth_read, read_length by (rewrite ?read_length; lia). rewrite By by exact Hi. replace (length qv - S i)%nat with (length qv - i - 1)%nat by lia.
  assert (D : (length qv = 2 * (length qv / 2) + length qv mod 2)%nat) by (apply Nat.div_mod; lia). pose proof (Nat.mod_upper_bound (length qv) 2).
  set (h := (length qv / 2)%nat) in *. destruct (Nat.ltb_spec i h); [reflexivity|]. cbn [orb]. destruct (Nat.leb_spec (length qv - h) i); [reflexivity|]. f_equal. f_equal. lia.
Qed.

(** * the transform *)
Lemma run_qft qv sw en m c psi x : qft_inner qv sw en m = Some c -> register qv x ->
  run c psi x = dft m (negb en) (xorb en sw) qv psi x.
Proof.
  intros H Rg. unfold qft_inner in H. destruct (Z.odd m) eqn:Hm; [|discriminate]. set (qv' := if en then rev qv else qv) in *.
  assert (L' : length qv' = length qv) by (unfold qv'; destruct en; [apply rev_length|reflexivity]).
  assert (Rg' : register qv' x) by (unfold qv'; destruct en; [apply register_rev|]; exact Rg).
  pose proof (fun psi x => FourierProofs.run_rows rO rI radd rmul rsub ropp RT expi chalf shalf im EU m Hm qv' (repeat 0%Qc (length qv')) psi x) as RR.
  pose proof (qft_rows_length m qv' (repeat 0%Qc (length qv')) (repeat_length _ _)) as LA.
  destruct (qft_rows m qv' (repeat 0%Qc (length qv'))) as [g acc]. cbn [fst snd] in RR, LA. injection H as <-. rewrite !run_app.
  assert (Core : forall x, register qv' x -> run (qft_finals qv' acc) (run g psi) x =
    power rt (length qv) * total (all_bits (length qv)) (fun b => expi (angle (m * big b * number (read x qv')) (length qv)) * psi (write x qv' b))).
  { intros z Rz. rewrite (FourierProofs.run_finals rO rI radd rmul rsub ropp RT expi chalf shalf im EU) by exact LA. rewrite RR by (auto; apply repeat_length). rewrite L'.
    rewrite <- (total_scale _ (power rt (length qv))), <- (total_scale _ (expi _)), <- (total_scale _ (power rt (length qv))). apply total_ext. intros b Ib.
    rewrite dot_zero. replace (angle (m * big b * number (read z qv')) (length qv)) with (dot acc (read z qv') + (qft_angle m (length qv) b (read z qv') + 0 - dot acc (read z qv')))%Qc.
    - rewrite e_add. ring.
    - rewrite angle_zq, !zq_mul. unfold qft_angle. ring. }
  assert (Core2 : run (if sw then reverse_swaps qv' else []) (run (qft_finals qv' acc) (run g psi)) x =
    power rt (length qv) * total (all_bits (length qv)) (fun b => expi (angle (m * big b * reading sw (read x qv')) (length qv)) * psi (write x qv' b))).
  { destruct sw; [|apply Core, Rg']. rewrite run_reverse by exact Rg'. assert (LR : length (rev (read x qv')) = length qv') by (rewrite rev_length; apply read_length).
    rewrite Core by (apply (register_length qv' x); [symmetry; apply write_length|exact Rg']). rewrite read_write by auto. f_equal. apply total_ext. intros b Ib.
    rewrite write_write; auto; [apply Rg'|]. rewrite L'. exact (all_bits_length _ _ Ib). }
  etransitivity; [exact Core2|]. unfold FourierSpec.dft. fold rt. f_equal. unfold qv' in *. clear - RT Rg. destruct en; cbn [negb].
  - rewrite <- (total_rev _ (fun b => expi (angle (m * big b * _) _) * _)). apply total_ext. intros b Ib. apply all_bits_length in Ib. rewrite big_rev, write_rev, read_rev by auto.
    f_equal. f_equal. f_equal. f_equal. unfold reading. destruct sw; cbn [xorb]; rewrite ?rev_involutive; reflexivity.
  - apply total_ext. intros b Ib. unfold reading. rewrite number_rev. destruct sw; reflexivity.
Qed.

(** * orthogonality *)
Lemma geometric n t : total (all_bits n) (fun b => expi (angle (t * number b) n)) = if Z.eqb (t mod 2 ^ Z.of_nat n) 0 then power (rI + rI) n else rO.
Proof.
  induction n as [|n IH].
  - cbn. rewrite Z.mod_1_r, Z.mul_0_r. cbn [Z.eqb]. replace (angle 0 0) with 0%Qc by (apply Qc_is_canon; reflexivity). rewrite e_0. ring.
  - rewrite total_bits. cbn [number].
    assert (E : forall b0 : bool, total (all_bits n) (fun b => expi (angle (t * ((if b0 then 1 else 0) + 2 * number b)) (S n))) = expi (angle (t * (if b0 then 1 else 0)) (S n)) * total (all_bits n) (fun b => expi (angle (t * number b) n))).
    { intros b0. rewrite <- total_scale. apply total_ext. intros b _. rewrite <- (angle_S (t * number b)), <- e_add, <- angle_add. f_equal. f_equal. ring. }
    rewrite (E false), (E true), IH. rewrite Z.mul_0_r, Z.mul_1_r. replace (angle 0 (S n)) with 0%Qc by (rewrite angle_zq, zq_0; ring). rewrite e_0.
    assert (P : (0 < 2 ^ Z.of_nat n)%Z) by (apply Z.pow_pos_nonneg; lia). rewrite Nat2Z.inj_succ, Z.pow_succ_r by lia.
    destruct (Z.eqb_spec (t mod 2 ^ Z.of_nat n) 0) as [T|T].
    + apply Z.div_exact in T; [|lia]. set (k := (t / 2 ^ Z.of_nat n)%Z) in *.
      assert (A : angle t (S n) = zq k).
      { rewrite T, angle_zq, zq_mul. pose proof (half_pow n) as HP. pose proof half_2 as H2. cbn [Qcpower]. transitivity (half * zq 2 * (half ^ n * zq (2 ^ Z.of_nat n)) * zq k)%Qc; [ring|]. rewrite H2, HP. ring. }
      rewrite A. assert (TM : (t mod (2 * 2 ^ Z.of_nat n) = 2 ^ Z.of_nat n * (k mod 2))%Z). { rewrite T at 1. rewrite (Z.mul_comm 2), Z.mul_mod_distr_l by lia. reflexivity. }
      rewrite TM. rewrite Zmod_odd. destruct (Z.odd k) eqn:O.
      * destruct (Z.eqb_spec (2 ^ Z.of_nat n * 1) 0); [lia|]. rewrite Z.odd_spec in O. destruct O as [j ->]. rewrite zq_add, e_add, e_even, zq_1, e_1. ring.
      * rewrite Z.mul_0_r. cbn [Z.eqb FourierSpec.power]. rewrite <- Z.negb_even, negb_false_iff, Z.even_spec in O. destruct O as [j ->]. rewrite e_even. ring.
    + destruct (Z.eqb_spec (t mod (2 * 2 ^ Z.of_nat n)) 0) as [T2|T2]; [|ring]. exfalso. apply T. apply Z.mod_divide; [lia|]. apply Z.mod_divide in T2; [|lia].
      destruct T2 as [j ->]. exists (2 * j)%Z. ring.
Qed.
Lemma power_mul a b n : power (a * b) n = power a n * power b n.
Proof. induction n as [|n IH]; cbn [FourierSpec.power]; [ring|]. rewrite IH. ring. Qed.
Lemma power_1 n : power rI n = rI.
Proof. induction n as [|n IH]; cbn [FourierSpec.power]; [reflexivity|]. rewrite IH. ring. Qed.
Lemma norm n : power rt n * power rt n * power (rI + rI) n = rI.
Proof. rewrite <- !power_mul. replace (rt * rt * (rI + rI)) with (rt * rt + rt * rt) by ring. rewrite rt_2. apply power_1. Qed.
Lemma geometric_reading r n t : total (all_bits n) (fun b => expi (angle (t * reading r b) n)) = if Z.eqb (t mod 2 ^ Z.of_nat n) 0 then power (rI + rI) n else rO.
Proof. unfold reading. destruct r; [rewrite (total_rev n (fun b => expi (angle (t * number b) n)))|]; apply geometric. Qed.

(** a shift in Fourier space: transform with factor m, phases, transform back *)
Lemma shift (i o : bool) (m : Z) (f : list bool -> Z) qv psi x : Z.odd m = true -> register qv x -> (forall b, f (write x qv b) = f x) ->
  dft (-1) o i qv (fun y => expi (angle (f y * reading o (read y qv)) (length qv)) * dft m i o qv psi y)
    (write x qv (if i then rev (bits_of (length qv) (m * reading i (read x qv) + f x)) else bits_of (length qv) (m * reading i (read x qv) + f x))) = psi x.
Proof.
  intros Hm Rg Hf. set (n := length qv). set (z := (m * reading i (read x qv) + f x)%Z). set (zb := if i then rev (bits_of n z) else bits_of n z).
  assert (Lz : length zb = n) by (unfold zb; destruct i; rewrite ?rev_length; apply bits_of_length).
  assert (Vz : reading i zb = (z mod 2 ^ Z.of_nat n)%Z) by (unfold reading, zb; destruct i; rewrite ?rev_involutive; apply number_bits).
  unfold FourierSpec.dft. fold n. fold rt. rewrite read_write by auto. rewrite Vz.
  transitivity (power rt n * power rt n * total (all_bits n) (fun c => psi (write x qv c) * total (all_bits n) (fun b => expi (angle ((m * reading i c + f x - z mod 2 ^ Z.of_nat n) * reading o b) n)))).
  { transitivity (power rt n * (power rt n * total (all_bits n) (fun b => total (all_bits n) (fun c => psi (write x qv c) * expi (angle ((m * reading i c + f x - z mod 2 ^ Z.of_nat n) * reading o b) n))))).
    - f_equal. rewrite <- total_scale. apply total_ext. intros b Ib. apply all_bits_length in Ib. rewrite write_write, Hf, read_write by (auto; apply Rg).
      rewrite <- (total_scale _ (power rt n)), <- (total_scale _ (power rt n)), <- (total_scale _ (expi _)), <- (total_scale _ (expi _)). apply total_ext. intros c Ic. apply all_bits_length in Ic. rewrite write_write by (auto; apply Rg).
      replace ((m * reading i c + f x - z mod 2 ^ Z.of_nat n) * reading o b)%Z with (-1 * reading o b * (z mod 2 ^ Z.of_nat n) + (f x * reading o b + m * reading i c * reading o b))%Z by ring.
      rewrite !angle_add, !e_add. ring.
    - rewrite total_swap. transitivity (power rt n * power rt n * total (all_bits n) (fun c => total (all_bits n) (fun b => psi (write x qv c) * expi (angle ((m * reading i c + f x - z mod 2 ^ Z.of_nat n) * reading o b) n)))); [ring|].
      f_equal. apply total_ext. intros c _. apply total_scale. }
  assert (P : (0 < 2 ^ Z.of_nat n)%Z) by (apply Z.pow_pos_nonneg; lia).
  assert (D : forall c, ((m * reading i c + f x - z mod 2 ^ Z.of_nat n) mod 2 ^ Z.of_nat n = (m * (reading i c - reading i (read x qv))) mod 2 ^ Z.of_nat n)%Z).
  { intros c. rewrite Zminus_mod_idemp_r. f_equal. unfold z. ring. }
  rewrite (total_pick n (read x qv)); [|apply read_length|].
  - rewrite geometric_reading, D, Z.sub_diag, Z.mul_0_r, Z.mod_0_l by lia. cbn [Z.eqb]. rewrite write_read by apply Rg. transitivity (power rt n * power rt n * power (rI + rI) n * psi x); [ring|]. rewrite norm. ring.
  - intros c Lc Nc. rewrite geometric_reading, D. destruct (Z.eqb_spec ((m * (reading i c - reading i (read x qv))) mod 2 ^ Z.of_nat n) 0) as [T|T]; [|ring].
    exfalso. apply Nc. apply (reading_length i); [rewrite read_length; exact Lc|]. pose proof (reading_range i c) as B1. pose proof (reading_range i (read x qv)) as B2. rewrite Lc in B1. rewrite read_length in B2.
    exact (odd_cancel m _ _ n Hm B1 B2 T).
Qed.
(** the transform with the other sign and the readings exchanged undoes the transform *)
Lemma dft_undo (i o : bool) m qv psi x : Z.odd m = true -> register qv x -> dft m i o qv (dft (Z.opp m) o i qv psi) x = psi x.
Proof.
  intros Hm Rg. set (n := length qv). unfold FourierSpec.dft. fold n. fold rt. set (y := reading o (read x qv)).
  transitivity (power rt n * power rt n * total (all_bits n) (fun c => psi (write x qv c) * total (all_bits n) (fun b => expi (angle ((m * (reading o c - y)) * - 1 * reading i b) n)))).
  { transitivity (power rt n * (power rt n * total (all_bits n) (fun b => total (all_bits n) (fun c => psi (write x qv c) * expi (angle ((m * (reading o c - y)) * - 1 * reading i b) n))))).
    - f_equal. rewrite <- total_scale. apply total_ext. intros b Ib. apply all_bits_length in Ib. rewrite read_write by auto.
      rewrite <- (total_scale _ (power rt n)), <- (total_scale _ (power rt n)), <- (total_scale _ (expi _)). apply total_ext. intros c Ic. apply all_bits_length in Ic. rewrite write_write by (auto; apply Rg).
      replace (m * (reading o c - y) * -1 * reading i b)%Z with (m * reading i b * y + - m * reading o c * reading i b)%Z by ring.
      rewrite !angle_add, !e_add. ring.
    - rewrite total_swap. transitivity (power rt n * power rt n * total (all_bits n) (fun c => total (all_bits n) (fun b => psi (write x qv c) * expi (angle ((m * (reading o c - y)) * - 1 * reading i b) n)))); [ring|].
      f_equal. apply total_ext. intros c _. apply total_scale. }
  assert (P : (0 < 2 ^ Z.of_nat n)%Z) by (apply Z.pow_pos_nonneg; lia).
  rewrite (total_pick n (read x qv)); [|apply read_length|].
  - rewrite geometric_reading. fold y. rewrite Z.sub_diag, Z.mul_0_r, Z.mul_0_l, Z.mod_0_l by lia. cbn [Z.eqb]. rewrite write_read by apply Rg. transitivity (power rt n * power rt n * power (rI + rI) n * psi x); [ring|]. rewrite norm. ring.
  - intros c Lc Nc. rewrite geometric_reading. destruct (Z.eqb_spec ((m * (reading o c - y) * -1) mod 2 ^ Z.of_nat n) 0) as [T|T]; [|ring].
    exfalso. apply Nc. apply (reading_length o); [rewrite read_length; exact Lc|]. fold y. pose proof (reading_range o c) as B1. pose proof (reading_range o (read x qv)) as B2. rewrite Lc in B1. rewrite read_length in B2.
    apply (odd_cancel m _ _ n Hm B1 B2). apply Z.mod_divide in T; [|lia]. apply Z.mod_divide; [lia|]. destruct T as [k Hk]. exists (- k)%Z. lia.
Qed.
End ring.
