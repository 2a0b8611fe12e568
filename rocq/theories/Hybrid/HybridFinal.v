(** hybrid_mult: the initial and final operations around the core. *)
From Coq Require Import List ZArith Bool Lia Arith QArith Qcanon Field Ring Ring_theory.
Import ListNotations.
From Verif.Inverse Require Import InvModel InvSpec InvProofs.
From Verif.CtrlOps Require Import CtrlModel CtrlSpec CtrlProofs.
From Verif.QFloat Require Import QFModel QFSpec QFProofs SbpProofs.
From Verif.Fourier Require Import FourierModel FourierSpec RegProofs FourierProofs FourierFinal AdderProofs.
From Verif.Sbp Require Import SbpModel SbpSpec EncProofs NumProofs CircProofs.
From Verif.PhasePoly Require PhaseProofs.
From Verif.Hybrid Require Import HybridModel HybridSpec PhasedProofs CoreProofs.
Local Open Scope nat_scope.
Local Notation value := FourierSpec.value.

Lemma mantissa_split f x qs : length qs = size f ->
  (number (map (getbit x) (mantissa_bits f qs)) - zb (signed f && getbit x (sign_bit f qs)) * 2 ^ Z.of_nat (msize f))%Z = mantissa f (value x qs).
Proof.
  intros L. unfold mantissa_bits, mantissa, sign_bit. destruct (signed f) eqn:S; cbn [andb].
  - pose proof (size_signed f S) as E. pose proof (PhaseProofs.sign_bit f x qs S L) as B. set (m := msize f) in *.
    assert (Q : qs = firstn m qs ++ [nth m qs 0]).
    { rewrite <- (firstn_skipn m qs) at 1. f_equal. assert (L' : length (skipn m qs) = 1) by (rewrite skipn_length; lia). destruct (skipn m qs) as [|a [|b l]] eqn:K; try discriminate. f_equal. rewrite <- (firstn_skipn m qs), K, app_nth2; rewrite firstn_length; [|lia]. replace (m - Nat.min m (length qs)) with 0 by lia. reflexivity. }
    assert (W : value x qs = (number (map (getbit x) (firstn m qs)) + 2 ^ Z.of_nat m * zb (getbit x (nth m qs 0%nat)))%Z).
    { unfold value, read. rewrite Q at 1. rewrite map_app, number_app, map_length, firstn_length. replace (Nat.min m (length qs)) with m by lia. cbn [map number]. destruct (getbit x (nth m qs 0)); cbn [zb]; ring. }
    rewrite B in *. rewrite E. rewrite Z.pow_add_r by lia. change (2 ^ 1)%Z with 2%Z.
    destruct (Z.ltb_spec (value x qs) (2 ^ Z.of_nat m)); cbn [negb zb] in *; lia.
  - cbn [zb]. rewrite Z.mul_0_l, Z.sub_0_r. unfold value, read. f_equal. f_equal. unfold size in L. rewrite S in L. rewrite <- L. apply firstn_all.
Qed.

Section ring.
Context {R : Type} (rO rI : R) (radd rmul rsub : R -> R -> R) (ropp : R -> R) (RT : ring_theory rO rI radd rmul rsub ropp eq).
Context (expi chalf shalf : Qc -> R) (im : R).
Context (EU : euler rO rI radd rmul ropp expi chalf shalf im).
Add Ring rr7 : RT.
Notation amp := (list bool -> R).
Notation effect := (effect Qcplus rO rI radd rmul ropp expi chalf shalf im).
Notation run := (run_circuit Qcplus rO rI radd rmul ropp expi chalf shalf im).
Notation dft := (dft rO rI radd rmul expi chalf).
Notation total := (total rO radd).
Notation power := (power rI rmul).
Notation rt := (FourierProofs.rt chalf).
Notation e_add := (e_add rO rI radd rmul ropp expi chalf shalf im EU).
Notation e_0 := (e_0 rO rI radd rmul ropp expi chalf shalf im EU).
Notation e_1 := (e_1 rO rI radd rmul ropp expi chalf shalf im EU).
Notation e_congr := (e_congr rO rI radd rmul rsub ropp RT expi chalf shalf im EU).
Notation run_app := (FourierProofs.run_app rO rI radd rmul ropp expi chalf shalf im).
Notation run_h := (FourierProofs.run_h rO rI radd rmul rsub ropp RT expi chalf shalf im EU).
Notation rt_2 := (FourierProofs.rt_2 rO rI radd rmul rsub ropp RT expi chalf shalf im EU).

(** ** the core *)
Section core.
Context (N : nat) (anc : nat) (out : list nat) (m : nat) (x y : shape) (qx qy : list nat) (k : Z) (corr : option nat).
Let n := length out.
Context (NR : NoDup (anc :: out)) (LR : forall q, In q (anc :: out) -> q < N) (NY : NoDup qy) (LY : forall q, In q qy -> q < N) (SY : length qy = size y) (SX : length qx = size x) (LX : forall q, In q qx -> q < N).
Context (DRX : forall q, In q qx -> ~ In q (anc :: out)) (DRY : forall q, In q qy -> ~ In q (anc :: out)) (DXY : forall q, In q qx -> ~ In q qy).
Context (HC : forall h, corr = Some h -> h < N /\ ~ In h (anc :: out) /\ ~ In h qy /\ ~ In h qx) (MY : 0 < msize y) (MM : n <= m).
Definition product (z : list bool) : Z := (k * mantissa x (value z qx) * mantissa y (value z qy))%Z.
Definition extra : Z := match corr with Some _ => 0%Z | None => 1%Z end.
Definition theta (z : list bool) : Qc := (angle (product z * reading true (read z out)) n + angle (product z * extra) (S n))%Qc.
Definition help_0 (z : list bool) : Prop := forall h, corr = Some h -> getbit z h = false.
Lemma run_core psi z : length z = N -> help_0 z -> run (hybrid_core (anc :: out) m x y qx qy k corr) psi z = rmul (expi (theta z)) (psi z).
Proof.
  intros L H0. pose proof (core_phase rO rI radd rmul rsub ropp RT expi chalf shalf im EU N (anc :: out) m x y qx qy k corr NR LR NY LY SY LX DRX DRY DXY HC MY (getbit z)) as C.
  assert (T : tab N (conf N (anc :: out) y qy corr (getbit z) false false false) = z).
  { transitivity (tab N (getbit z)); [|rewrite <- L; apply tab_self]. apply tab_ext. intros q Hq. unfold conf. rewrite !xorb_false_r. destruct (mem q (anc :: out)); [reflexivity|]. destruct (mem q _); [reflexivity|].
    unfold CoreProofs.h. case_eq corr; [intros h E|intros E].
    - destruct (Nat.eqb_spec q h) as [->|]; [symmetry; apply H0, E|reflexivity].
    - destruct (Nat.eqb_spec q N); [lia|reflexivity]. }
  rewrite T in C. rewrite (C psi). apply (f_equal2 rmul); [|reflexivity]. unfold theta. unfold CoreProofs.V, CoreProofs.Ym, CoreProofs.my, CoreProofs.s, CoreProofs.X, CoreProofs.r, CoreProofs.wid.
  rewrite mantissa_split by exact SY. change (map (getbit z) qx) with (read z qx). rewrite <- (bits_read x z qx SX). destruct (sb_value x m (value z qx) (value_basis _ _ _ SX)) as (t & ->).
  change (map (getbit z) (anc :: out)) with (getbit z anc :: read z out). rewrite reading_cons, read_length. fold n. cbn [length]. rewrite <- (angle_S (product z * reading true (read z out)) n), <- angle_add. apply e_congr.
  set (m' := match m with 0 => size x | _ => m end). assert (G : exists d, (2 ^ (Z.of_nat m' + 1) = d * 2 ^ Z.of_nat (S n))%Z).
  { exists (2 ^ (Z.of_nat m' - Z.of_nat n))%Z. rewrite <- Z.pow_add_r by (unfold m'; destruct m; lia). f_equal. lia. }
  destruct G as (d & ->). set (b := zb (getbit z anc)). set (r := reading true (read z out)). set (V := mantissa y (value z qy)). set (W := mantissa x (value z qx)).
  exists (k * t * d * V * (2 * (r + b * 2 ^ Z.of_nat n) + extra) + k * W * V * b)%Z. fold n. unfold product. fold W V.
  replace (2 * (r + b * 2 ^ Z.of_nat n) + 1 - CoreProofs.eps corr)%Z with (2 * (r + b * 2 ^ Z.of_nat n) + extra)%Z by (unfold extra, CoreProofs.eps; destruct corr; ring).
  rewrite Nat2Z.inj_succ, Z.pow_succ_r by lia. ring.
Qed.
Lemma hh psi z : anc < length z -> effect gH [anc] (effect gH [anc] psi) z = psi z.
Proof.
  intros L. rewrite run_h, !run_h. rewrite !getbit_set_same by exact L. rewrite !setbit_twice. cbn [b2q]. rewrite e_0, e_1.
  transitivity (rmul (radd (rmul rt rt) (rmul rt rt)) (psi z)); [|rewrite rt_2; ring].
  destruct (getbit z anc) eqn:E; cbn [b2q]; rewrite ?e_0, ?e_1.
  - replace (setbit z anc true) with z by (rewrite <- E; symmetry; apply setbit_get). ring.
  - replace (setbit z anc false) with z by (rewrite <- E; symmetry; apply setbit_get). ring.
Qed.
Lemma theta_set z a : theta (setbit z anc a) = theta z.
Proof.
  assert (O : forall qs, ~ In anc qs -> read (setbit z anc a) qs = read z qs) by (intros qs NI; apply map_ext_in; intros q I; apply getbit_set_other; intros ->; contradiction).
  unfold theta, product, value.
  assert (A1 : ~ In anc qy) by (intros I; apply (DRY _ I); left; reflexivity). assert (A2 : ~ In anc qx) by (intros I; apply (DRX _ I); left; reflexivity). assert (A3 : ~ In anc out) by (inversion NR; assumption).
  rewrite (O _ A1), (O _ A2), (O _ A3). reflexivity.
Qed.
Lemma sandwich psi phi z : length z = N -> help_0 z -> (forall w, length w = N -> psi w = effect gH [anc] phi w) ->
  run (hybrid_core (anc :: out) m x y qx qy k corr ++ [qH anc]) psi z = rmul (expi (theta z)) (phi z).
Proof.
  intros L H0 E. rewrite run_app. change (run [qH anc]) with (effect gH [anc]). rewrite run_h.
  assert (Ha : anc < N) by (apply LR; left; reflexivity).
  assert (K : forall a, run (hybrid_core (anc :: out) m x y qx qy k corr) psi (setbit z anc a) = rmul (expi (theta z)) (effect gH [anc] phi (setbit z anc a))).
  { intros a. rewrite run_core; [|rewrite setbit_length; exact L|].
    - rewrite theta_set, E by (rewrite setbit_length; exact L). reflexivity.
    - intros h Eh. rewrite getbit_set_other; [apply H0, Eh|]. intros E2. destruct (HC h Eh) as (_ & A & _). apply A. left. symmetry. exact E2. }
  rewrite !K. rewrite <- (hh phi z) by lia. rewrite (run_h anc (effect gH [anc] phi) z). ring.
Qed.
End core.

(** ** initial operations *)
Lemma blank_set psi qs q a : blank rO psi qs -> ~ In q qs -> blank rO (fun y => psi (setbit y q a)) qs.
Proof. intros B NI y p I G. apply (B _ p I). rewrite getbit_set_other; [exact G|]. intros ->. contradiction. Qed.
Lemma blank_h psi qs q : blank rO psi qs -> ~ In q qs -> blank rO (effect gH [q] psi) qs.
Proof.
  intros B NI y p I G. rewrite run_h. pose proof (blank_set psi qs q false B NI y p I G) as E0. pose proof (blank_set psi qs q true B NI y p I G) as E1. cbv beta in *. rewrite E0, E1. ring.
Qed.
Definition zeros (qs : list nat) : list bool := repeat false (length qs).
Lemma zeros_length qs : length (zeros qs) = length qs. Proof. apply repeat_length. Qed.
Lemma run_hs : forall qs psi y, register qs y -> blank rO psi qs -> run (map qH qs) psi y = rmul (power rt (length qs)) (psi (write y qs (zeros qs))).
Proof.
  induction qs as [|q qs IH]; intros psi y Rg B; [cbn; ring|]. destruct (register_cons _ _ _ Rg) as (NI & Rg' & Hq).
  change (map qH (q :: qs)) with ([qH q] ++ map qH qs). rewrite run_app, IH; [|exact Rg'|apply blank_h; [intros w p I; apply B; right; exact I|exact NI]].
  change (run [qH q]) with (effect gH [q]). rewrite run_h. cbn [length FourierSpec.power zeros repeat write]. fold (zeros qs).
  rewrite (B (setbit _ q true) q) by (try (left; reflexivity); apply getbit_set_same; rewrite write_length; exact Hq). ring.
Qed.
Lemma dft_blank m qs psi y : register qs y -> blank rO psi qs -> dft m false true qs psi y = rmul (power rt (length qs)) (psi (write y qs (zeros qs))).
Proof.
  intros Rg B. unfold FourierSpec.dft. fold rt. apply (f_equal2 rmul); [reflexivity|]. rewrite (FourierProofs.total_pick rO rI radd rmul rsub ropp RT (length qs) (zeros qs)); [|apply zeros_length|].
  - replace (reading false (zeros qs)) with 0%Z; [rewrite Z.mul_0_r, Z.mul_0_l, angle_0, e_0; ring|]. unfold reading, zeros. induction (length qs) as [|n IH]; [reflexivity|]. cbn [repeat number]. rewrite <- IH. reflexivity.
  - intros b L NE. assert (E : exists q, In q qs /\ getbit (write y qs b) q = true).
    { pose proof (read_write y qs b Rg L) as RW. clear - RW NE L. assert (X : exists i, i < length b /\ nth i b false = true).
      { clear RW. unfold zeros in NE. rewrite <- L in NE. clear L. induction b as [|[] b IH]; [contradiction|exists 0; cbn; split; [lia|reflexivity]|]. destruct IH as (i & Hi & E); [intros E0|].
        - apply NE. cbn [length repeat]. rewrite <- E0. reflexivity.
        - exists (S i). cbn. split; [lia|exact E]. }
      destruct X as (i & Hi & E). exists (nth i qs 0). split; [apply nth_In; lia|]. rewrite <- nth_read by lia. rewrite RW. exact E. }
    destruct E as (q & I & G). rewrite (B _ q I G). ring.
Qed.
Lemma init_none anc psi w : run [qH anc] psi w = effect gH [anc] psi w. Proof. reflexivity. Qed.
Lemma init_h anc qs psi w : register (anc :: qs) w -> blank rO psi qs -> run (map qH (anc :: qs)) psi w = effect gH [anc] (dft 1 false true qs psi) w.
Proof.
  intros Rg B. destruct (register_cons _ _ _ Rg) as (NI & Rg' & Ha). change (map qH (anc :: qs)) with ([qH anc] ++ map qH qs). rewrite run_app. change (run [qH anc]) with (effect gH [anc]).
  rewrite run_hs; [|exact Rg'|apply blank_h; assumption]. rewrite !run_h. rewrite !dft_blank; try assumption; try (apply (register_length qs w); [symmetry; apply setbit_length|exact Rg']).
  rewrite !write_set by exact NI. rewrite write_other by exact NI. ring.
Qed.
Lemma init_qft anc qs v psi w : QFT false (anc :: qs) false true 1 = Some v -> register (anc :: qs) w -> blank rO psi [anc] -> run v psi w = effect gH [anc] (dft 1 false true qs psi) w.
Proof.
  intros Hv Rg B. destruct (register_cons _ _ _ Rg) as (NI & Rg' & Ha).
  assert (Hq : qft_inner (anc :: qs) false true 1 = Some v) by (unfold QFT in Hv; destruct (qft_inner _ _ _ _); [exact Hv|discriminate]).
  rewrite (FourierFinal.run_qft rO rI radd rmul rsub ropp RT expi chalf shalf im EU _ _ _ _ _ _ _ Hq Rg). cbn [negb xorb]. rewrite run_h. unfold FourierSpec.dft. fold rt. cbn [length FourierSpec.power].
  rewrite (FourierProofs.total_bits rO rI radd rmul rsub ropp RT). cbn [write]. set (n := length qs).
  assert (Z1 : total (all_bits n) (fun b => rmul (expi (angle (1 * reading false (true :: b) * reading true (read w (anc :: qs))) (S n))) (psi (setbit (write w qs b) anc true))) = rO).
  { transitivity (total (all_bits n) (fun _ => rO)); [|apply (FourierProofs.total_zero rO rI radd rmul rsub ropp RT)]. apply (FourierProofs.total_ext rO radd). intros b _. rewrite (B (setbit _ anc true) anc); [ring|left; reflexivity|]. apply getbit_set_same. rewrite write_length. exact Ha. }
  rewrite Z1.
  assert (Z2 : total (all_bits n) (fun b => rmul (expi (angle (1 * reading false b * reading true (read (setbit w anc true) qs)) n)) (psi (write (setbit w anc true) qs b))) = rO).
  { transitivity (total (all_bits n) (fun _ => rO)); [|apply (FourierProofs.total_zero rO rI radd rmul rsub ropp RT)]. apply (FourierProofs.total_ext rO radd). intros b _. rewrite (B (write (setbit w anc true) qs b) anc); [ring|left; reflexivity|]. rewrite write_other by exact NI. apply getbit_set_same, Ha. }
  rewrite Z2.
  assert (Z3 : total (all_bits n) (fun b => rmul (expi (angle (1 * reading false (false :: b) * reading true (read w (anc :: qs))) (S n))) (psi (setbit (write w qs b) anc false)))
    = total (all_bits n) (fun b => rmul (expi (angle (1 * reading false b * reading true (read (setbit w anc false) qs)) n)) (psi (write (setbit w anc false) qs b)))).
  { apply (FourierProofs.total_ext rO radd). intros b _. rewrite write_set by exact NI. apply (f_equal2 rmul); [|reflexivity]. rewrite <- (angle_S (1 * reading false b * _) n). apply e_congr.
    change (read w (anc :: qs)) with (getbit w anc :: read w qs). rewrite reading_cons, read_length. fold n.
    replace (read (setbit w anc false) qs) with (read w qs) by (apply map_ext_in; intros q I; symmetry; apply getbit_set_other; intros ->; contradiction).
    exists (number b * zb (getbit w anc))%Z. unfold reading at 1 3. cbn [number]. rewrite Nat2Z.inj_succ, Z.pow_succ_r by lia. ring. }
  rewrite Z3. ring.
Qed.
(** ** final operations *)
Lemma final_qft N (qs : list nat) w (f : list bool -> Z) (g : list bool -> Qc) psi phi x : QFT true qs false true 1 = Some w -> length x = N -> register qs x ->
  (forall b, f (write x qs b) = f x) -> (forall b, g (write x qs b) = g x) ->
  (forall b, psi (write x qs b) = rmul (expi (angle (f (write x qs b) * reading true (read (write x qs b) qs)) (length qs) + g (write x qs b))%Qc) (dft 1 false true qs phi (write x qs b))) ->
  run w psi (store x qs (value x qs + f x)) = rmul (expi (g x)) (phi x).
Proof.
  intros Hw L Rg Hf Hg E. unfold QFT in Hw. destruct (qft_inner qs false true 1) as [v|] eqn:Hv; [|discriminate].
  assert (Rs : register qs (store x qs (value x qs + f x))) by (apply (register_length qs x); [symmetry; apply write_length|exact Rg]).
  rewrite (AdderProofs.run_qft_inv rO rI radd rmul rsub ropp RT expi chalf shalf im EU _ _ _ _ _ _ _ _ Hv Hw Rs). cbn [negb xorb]. change (Z.opp 1) with (-1)%Z.
  rewrite <- (FourierFinal.shift rO rI radd rmul rsub ropp RT expi chalf shalf im EU false true 1 f qs phi x eq_refl Rg Hf). cbv iota. rewrite Z.mul_1_l. change (reading false (read x qs)) with (value x qs). unfold store.
  set (bs := bits_of (length qs) (value x qs + f x)). assert (Lb : length bs = length qs) by apply bits_of_length. unfold FourierSpec.dft at 1 2. fold rt. rewrite !read_write by assumption.
  transitivity (rmul (power rt (length qs)) (rmul (expi (g x)) (total (all_bits (length qs)) (fun b => rmul (expi (angle (-1 * reading true b * reading false bs) (length qs)))
    (rmul (expi (angle (f (write (write x qs bs) qs b) * reading true (read (write (write x qs bs) qs b) qs)) (length qs))) (dft 1 false true qs phi (write (write x qs bs) qs b))))))); [|ring].
  apply (f_equal2 rmul); [reflexivity|]. rewrite <- (FourierProofs.total_scale rO rI radd rmul rsub ropp RT). apply (FourierProofs.total_ext rO radd). intros b Ib. apply all_bits_length in Ib.
  rewrite write_write by (try apply Rg; assumption). rewrite E, Hg, e_add. ring.
Qed.
End ring.
