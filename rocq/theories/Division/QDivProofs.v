(** Uncomputation of the remainder. *)
From Coq Require Import List ZArith Bool Lia Arith QArith Qcanon Ring Ring_theory.
Import ListNotations.
From Verif.Inverse Require Import InvModel InvSpec InvProofs.
From Verif.CtrlOps Require Import CtrlModel CtrlSpec CtrlProofs.
From Verif.QFloat Require Import QFModel QFSpec QFProofs SbpProofs.
From Verif.Fourier Require Import FourierModel FourierSpec RegProofs FourierProofs FourierFinal AdderProofs.
From Verif.Sbp Require Import SbpModel SbpSpec EncProofs NumProofs CircProofs.
From Verif.PhasePoly Require PhaseProofs.
From Verif.Hybrid Require Import HybridModel HybridSpec PhasedProofs CoreProofs HybridFinal HybridRun HybridAll.
From Verif.Division Require Import QDivModel.
Local Open Scope nat_scope.
Local Notation value := FourierSpec.value.
Local Notation float := QFSpec.value.

Lemma float_inj f a b : basis f a -> basis f b -> (float f a == float f b)%Q -> a = b.
Proof.
  unfold QFSpec.value. intros A B E. apply pw_cancel in E. unfold mantissa, basis in *. assert (P : (0 < 2 ^ Z.of_nat (size f))%Z) by (apply Z.pow_pos_nonneg; lia).
  destruct (signed f) eqn:S; [|exact E]. destruct (Z.ltb_spec a (2 ^ Z.of_nat (msize f))), (Z.ltb_spec b (2 ^ Z.of_nat (msize f))); lia.
Qed.
Lemma mantissa_cong f z : basis f z -> exists t, mantissa f z = (z + t * 2 ^ Z.of_nat (size f))%Z.
Proof. intros _. unfold mantissa. destruct (signed f); [destruct (z <? _)%Z|]; [exists 0%Z; ring|exists (-1)%Z; ring|exists 0%Z; ring]. Qed.

Section ring.
Context {R : Type} (rO rI : R) (radd rmul rsub : R -> R -> R) (ropp : R -> R) (RT : ring_theory rO rI radd rmul rsub ropp eq).
Context (expi chalf shalf : Qc -> R) (im : R).
Context (EU : euler rO rI radd rmul ropp expi chalf shalf im).
Add Ring rrd : RT.
Notation amp := (list bool -> R).
Notation effect := (effect Qcplus rO rI radd rmul ropp expi chalf shalf im).
Notation run := (run_circuit Qcplus rO rI radd rmul ropp expi chalf shalf im).
Notation dft := (dft rO rI radd rmul expi chalf).
Notation power := (power rI rmul).
Notation rt := (FourierProofs.rt chalf).
Notation e_add := (e_add rO rI radd rmul ropp expi chalf shalf im EU).
Notation e_0 := (e_0 rO rI radd rmul ropp expi chalf shalf im EU).
Notation e_1 := (e_1 rO rI radd rmul ropp expi chalf shalf im EU).
Notation e_congr := (e_congr rO rI radd rmul rsub ropp RT expi chalf shalf im EU).
Notation run_app := (FourierProofs.run_app rO rI radd rmul ropp expi chalf shalf im).
Notation run_h := (FourierProofs.run_h rO rI radd rmul rsub ropp RT expi chalf shalf im EU).

(** Hadamard gates on a register on which the amplitude does not depend *)
Lemma hs_constant : forall qs psi x K, register qs x -> (forall b, length b = length qs -> psi (write x qs b) = K) ->
  run (map qH qs) psi x = if (value x qs =? 0)%Z then rmul (power (radd rt rt) (length qs)) K else rO.
Proof.
  induction qs as [|q qs IH]; intros psi x K Rg H.
  - cbn. rewrite <- (H [] eq_refl). cbn. ring.
  - destruct (register_cons _ _ _ Rg) as (NI & Rg' & Hq). change (map qH (q :: qs)) with ([qH q] ++ map qH qs). rewrite run_app.
    rewrite (IH _ x (if getbit x q then rO else rmul (radd rt rt) K) Rg').
    + unfold value, read. cbn [map number]. pose proof (number_range (map (getbit x) qs)) as NR. destruct (getbit x q).
      * replace (1 + 2 * number (map (getbit x) qs) =? 0)%Z with false by (symmetry; apply Z.eqb_neq; lia). destruct (_ =? _)%Z; ring.
      * replace (0 + 2 * number (map (getbit x) qs) =? 0)%Z with (number (map (getbit x) qs) =? 0)%Z by (destruct (Z.eqb_spec (number (map (getbit x) qs)) 0), (Z.eqb_spec (0 + 2 * number (map (getbit x) qs)) 0); lia).
        destruct (_ =? _)%Z; cbn [length FourierSpec.power]; ring.
    + intros b Lb. change (run [qH q]) with (effect gH [q]). rewrite run_h. rewrite write_other by exact NI.
      pose proof (H (false :: b) ltac:(cbn; lia)) as H0. pose proof (H (true :: b) ltac:(cbn; lia)) as H1. cbn [write] in H0, H1. rewrite H0, H1.
      destruct (getbit x q); cbn [b2q]; rewrite ?e_0, ?e_1; ring.
Qed.
Lemma norm2 n K : rmul (power (radd rt rt) n) (rmul (power rt n) K) = K.
Proof.
  pose proof (FourierFinal.norm rO rI radd rmul rsub ropp RT expi chalf shalf im EU n) as NM.
  assert (P : power (radd rt rt) n = rmul (power rt n) (power (radd rI rI) n)) by (rewrite <- (FourierFinal.power_mul rO rI radd rmul rsub ropp RT); f_equal; ring).
  rewrite P. transitivity (rmul (rmul (rmul (power rt n) (power rt n)) (power (radd rI rI) n)) K); [ring|]. rewrite NM. ring.
Qed.
Lemma run_adder N reg m f qs k psi x : (forall q, In q qs -> ~ In q reg) -> (forall q, In q reg -> q < N) -> (forall q, In q qs -> q < N) -> length x = N -> length qs = size f -> 1 <= m -> length reg <= m + 1 ->
  run (adder reg m f qs k) psi x = rmul (expi (angle (k * mantissa f (value x qs) * reading true (read x reg)) (length reg))) (psi x).
Proof.
  intros D L Lq Lx Ls M1 M. pose proof (phased_adder rO rI radd rmul rsub ropp RT expi chalf shalf im EU N reg m f qs k (getbit x) D L Lq psi) as P. rewrite <- Lx in P. rewrite tab_self in P. rewrite P.
  apply (f_equal2 rmul); [|reflexivity]. change (map (getbit x) qs) with (read x qs). change (map (getbit x) reg) with (read x reg). rewrite <- (bits_read f x qs Ls). destruct (sb_value f m (value x qs) (value_basis _ _ _ Ls)) as (t & ->).
  apply e_congr. destruct m as [|m]; [lia|]. exists (k * t * 2 ^ (Z.of_nat (S m) + 1 - Z.of_nat (length reg)) * reading true (read x reg))%Z.
  replace (2 ^ (Z.of_nat (S m) + 1))%Z with (2 ^ (Z.of_nat (S m) + 1 - Z.of_nat (length reg)) * 2 ^ Z.of_nat (length reg))%Z by (rewrite <- Z.pow_add_r by lia; f_equal; lia). ring.
Qed.

Lemma uncompute_run N q g r f qq qg qr qf anc h c : q_div_uncompute q g r f qq qg qr qf anc h = Some c -> layout N q g r qq qg qr anc h ->
  length qf = size f -> (forall p, In p qf -> p < N /\ ~ In p qr) -> 1 <= msize r ->
  forall (psi : amp), blank rO psi [anc] -> (forall y, length y = N -> ~ (holds f y qf == holds q y qq * holds g y qg + holds r y qr)%Q -> psi y = rO) ->
  forall x z, length x = N -> getbit x h = false -> basis r z -> (holds f x qf == holds q x qq * holds g x qg + float r z)%Q ->
  forall w, basis r w -> run c psi (store x qr w) = if (w =? 0)%Z then psi (store x qr z) else rO.
Proof.
  intros H L Lf Df Mr psi B Sup x z Lx H0 Bz E w Bw. unfold q_div_uncompute in H. destruct (Z.leb_spec (expo r) (expo f)) as [EF|]; [|discriminate].
  destruct (hybrid_mult_into _ _ _ _ _ _ _ _ _ _ _ _) as [c1|] eqn:HC; [|discriminate]. injection H as <-.
  destruct (into_run N _ _ _ _ _ _ _ _ _ _ _ _ _ HC L) as (f1 & g1 & qf1 & qg1 & L' & HR & HP).
  destruct (layout_off _ _ _ _ _ _ _ _ _ L) as (O1 & O2 & O3 & O4). pose proof (layout_register _ _ _ _ _ _ _ _ _ x L Lx) as Rg. assert (SO : length qr = size r) by apply L.
  set (Nf := (2 ^ (expo f - expo r) * mantissa f (value x qf))%Z).
  assert (VN : (inject_Z Nf * pw (expo r) == holds f x qf)%Q).
  { unfold Nf, holds, QFSpec.value. rewrite inject_Z_mult. transitivity (inject_Z (mantissa f (value x qf)) * (inject_Z (2 ^ (expo f - expo r)) * pw (expo r)))%Q; [ring|]. rewrite PhaseProofs.inject_pow by lia. replace (expo f - expo r + expo r)%Z with (expo f) by lia. reflexivity. }
  set (P := (Nf - mantissa r z)%Z).
  assert (VP : (inject_Z P * pw (expo r) == inject_Z 1 * holds q x qq * holds g x qg)%Q).
  { unfold P, Z.sub. rewrite inject_Z_plus, inject_Z_opp. transitivity (inject_Z Nf * pw (expo r) - inject_Z (mantissa r z) * pw (expo r))%Q; [ring|]. rewrite VN, E. unfold QFSpec.value. change (inject_Z 1) with 1%Q. ring. }
  assert (Lr : forall p, In p qr -> p < N) by (intros p I; rewrite <- Lx; apply Rg, I).
  set (n := length qr).
  assert (C : forall b, length b = n -> run (c1 ++ adder qr (msize r) f qf (- 1 * 2 ^ (expo f - expo r))) psi (write x qr b) = rmul (power rt n) (psi (store x qr z))).
  { intros b Lb. set (y := write x qr b). assert (Ly : length y = N) by (unfold y; rewrite write_length; exact Lx). assert (Ry : register qr y) by (apply (register_length _ x); [congruence|exact Rg]).
    assert (Vf : value y qf = value x qf) by (unfold y, value; rewrite read_write_off; [reflexivity|intros p I; apply Df, I]).
    assert (Vb : read y qr = b) by (apply read_write; [exact Rg|exact Lb]).
    rewrite run_app, (run_adder N); [|intros p I; apply Df, I|exact Lr|intros p I; apply Df, I|exact Ly|exact Lf|exact Mr|rewrite SO; unfold size; destruct (signed r); lia].
    pose proof (HybridRun.run_plain rO rI radd rmul rsub ropp RT expi chalf shalf im EU N f1 g1 r qf1 qg1 qr anc h L' InitQFT false 1 c1 psi y HR Ly ltac:(unfold y; rewrite write_other by exact O3; exact H0) B) as K. cbn [start] in K. rewrite K.
    rewrite (HP y P).
    2: { rewrite VP. unfold y, holds, value. rewrite !read_write_off by assumption. reflexivity. }
    rewrite Vf, Vb. fold n. rewrite Qcplus_0_r. unfold FourierSpec.dft. fold n. fold rt.
    rewrite (FourierProofs.total_pick rO rI radd rmul rsub ropp RT n (bits_of n z)); [|apply bits_of_length|].
    - rewrite Vb. replace (write y qr (bits_of n z)) with (store x qr z) by (unfold y, store; fold n; rewrite write_write; [reflexivity|apply Rg|exact Lb|apply bits_of_length]).
      transitivity (rmul (rmul (expi (angle (- 1 * 2 ^ (expo f - expo r) * mantissa f (value x qf) * reading true b) n)) (rmul (expi (angle (P * reading true b) n)) (expi (angle (1 * reading false (bits_of n z) * reading true b) n)))) (rmul (power rt n) (psi (store x qr z)))); [ring|].
      rewrite <- !e_add, <- !angle_add. transitivity (rmul rI (rmul (power rt n) (psi (store x qr z)))); [|ring]. f_equal. transitivity (expi (angle 0 n)); [|rewrite angle_0; exact e_0]. apply e_congr.
      destruct (mantissa_cong r z Bz) as (t & MT). unfold reading at 3. rewrite number_bits. unfold basis in Bz. unfold n. rewrite SO. rewrite Z.mod_small by exact Bz. exists (- t * reading true b)%Z.
      unfold P, Nf. rewrite MT. ring.
    - intros b' Lb' NE. rewrite (Sup (write y qr b')); [ring|rewrite write_length; exact Ly|]. intros E'. apply NE.
      assert (V' : value (write y qr b') qr = number b') by (unfold value; rewrite read_write; [reflexivity|exact Ry|exact Lb']).
      assert (Q1 : holds f (write y qr b') qf = holds f x qf) by (unfold holds, value, y; rewrite !read_write_off by (intros p I; apply Df, I); reflexivity).
      assert (Q2 : holds q (write y qr b') qq = holds q x qq) by (unfold holds, value, y; rewrite !read_write_off by exact O1; reflexivity).
      assert (Q3 : holds g (write y qr b') qg = holds g x qg) by (unfold holds, value, y; rewrite !read_write_off by exact O2; reflexivity).
      rewrite Q1, Q2, Q3, E in E'. apply Qplus_inj_l in E'. unfold holds in E'. rewrite V' in E'.
      assert (Bb : basis r (number b')) by (unfold basis; rewrite <- SO; fold n; rewrite <- Lb'; apply number_range).
      pose proof (float_inj r z (number b') Bz Bb E') as ->. rewrite <- Lb'. symmetry. apply bits_number. }
  rewrite app_assoc, run_app. rewrite (hs_constant qr _ _ (rmul (power rt n) (psi (store x qr z)))).
  - rewrite value_store by exact Rg. unfold basis in Bw. rewrite SO, Z.mod_small by exact Bw. rewrite <- SO. fold n. destruct (w =? 0)%Z; [apply norm2|reflexivity].
  - apply (register_length _ x); [symmetry; apply store_length|exact Rg].
  - intros b Lb. unfold store. rewrite write_write; [|apply Rg|apply bits_of_length|exact Lb]. apply C, Lb.
Qed.
End ring.
