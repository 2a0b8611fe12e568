(** The core of the hybrid multiplication multiplies every basis state by a character of the output register. *)
From Coq Require Import List ZArith Bool Lia Arith QArith Qcanon Field Ring Ring_theory.
Import ListNotations.
From Verif.Inverse Require Import InvModel InvSpec InvProofs.
From Verif.CtrlOps Require Import CtrlModel CtrlSpec CtrlProofs.
From Verif.QFloat Require Import QFModel QFSpec QFProofs SbpProofs.
From Verif.Fourier Require Import FourierModel FourierSpec RegProofs FourierProofs FourierFinal AdderProofs.
From Verif.Sbp Require Import SbpModel SbpSpec EncProofs NumProofs.
From Verif.Hybrid Require Import HybridModel PhasedProofs.
Local Open Scope nat_scope.

(** sum of 2^i b_i *)
Fixpoint msum (Y : nat -> bool) (l : list nat) (i : nat) : Z := match l with [] => 0%Z | q :: l => (2 ^ Z.of_nat i * zb (Y q) + msum Y l (S i))%Z end.
Lemma msum_number Y l : forall i, msum Y l i = (2 ^ Z.of_nat i * number (map Y l))%Z.
Proof. induction l as [|q l IH]; intros i; cbn [msum map number]; [lia|]. rewrite IH, Nat2Z.inj_succ, Z.pow_succ_r by lia. destruct (Y q); cbn [zb]; ring. Qed.
Lemma seq_snoc n : seq 0 (S n) = seq 0 n ++ [n]. Proof. apply (seq_S n 0). Qed.

Lemma nodup_l {A} (a b : list A) : NoDup (a ++ b) -> NoDup a.
Proof. induction a as [|x a IH]; [constructor|]. cbn. inversion_clear 1 as [|? ? NI ND]. constructor; [intros I; apply NI, in_or_app; left; exact I|apply IH, ND]. Qed.

Section ring.
Context {R : Type} (rO rI : R) (radd rmul rsub : R -> R -> R) (ropp : R -> R) (RT : ring_theory rO rI radd rmul rsub ropp eq).
Context (expi chalf shalf : Qc -> R) (im : R).
Context (EU : euler rO rI radd rmul ropp expi chalf shalf im).
Add Ring rr6 : RT.
Notation phased := (phased rO rI radd rmul ropp expi chalf shalf im).
Notation phased_app := (phased_app rO rI radd rmul rsub ropp RT expi chalf shalf im EU).
Notation phased_0 := (phased_0 rO rI radd rmul rsub ropp RT expi chalf shalf im EU).
Notation phased_nil := (phased_nil rO rI radd rmul rsub ropp RT expi chalf shalf im EU).
Notation phased_ext := (phased_ext rO rI radd rmul ropp expi chalf shalf im).
Notation phased_to := (phased_to rO rI radd rmul ropp expi chalf shalf im).
Notation phased_cx := (phased_cx rO rI radd rmul rsub ropp RT expi chalf shalf im EU).
Notation phased_fan := (phased_fan rO rI radd rmul rsub ropp RT expi chalf shalf im EU).
Notation phased_between := (phased_between rO rI radd rmul rsub ropp RT expi chalf shalf im EU).
Notation phased_adder := (phased_adder rO rI radd rmul rsub ropp RT expi chalf shalf im EU).
Notation phased_take_back := (phased_take_back rO rI radd rmul rsub ropp RT expi chalf shalf im EU).
Notation e_add := (e_add rO rI radd rmul ropp expi chalf shalf im EU).
Notation e_congr := (e_congr rO rI radd rmul rsub ropp RT expi chalf shalf im EU).

Section core.
Context (N : nat) (reg : list nat) (m : nat) (x y : shape) (qx qy : list nat) (k : Z) (corr : option nat).
Context (NR : NoDup reg) (LR : forall q, In q reg -> q < N) (NY : NoDup qy) (LY : forall q, In q qy -> q < N) (SY : length qy = size y) (LX : forall q, In q qx -> q < N).
Context (DRX : forall q, In q qx -> ~ In q reg) (DRY : forall q, In q qy -> ~ In q reg) (DXY : forall q, In q qx -> ~ In q qy).
Context (HC : forall h, corr = Some h -> h < N /\ ~ In h reg /\ ~ In h qy /\ ~ In h qx) (MY : 0 < msize y).
Context (Y : nat -> bool). (** the basis state *)
Definition h := match corr with Some h => h | None => N end.
Definition my := mantissa_bits y qy.
Definition wid := length reg.
Definition r := reading true (map Y reg).
Definition X := dotz (sb_poly x m) (map Y qx).
Definition s := signed y && Y (sign_bit y qy).
Definition conf (f g hb : bool) (q : nat) : bool :=
  if mem q reg then xorb (Y q) f else if mem q my then xorb (Y q) g else if q =? h then hb else Y q.
Definition bitm (i : nat) := mantissa_bit i qy.
Lemma in_my q : In q my -> In q qy.
Proof. unfold my, mantissa_bits. intros I. rewrite <- (firstn_skipn (msize y) qy). apply in_or_app. left. exact I. Qed.
Lemma ms_le : msize y <= length qy. Proof. rewrite SY. unfold size. destruct (signed y); lia. Qed.
Lemma bitm_in i : i < msize y -> In (bitm i) my.
Proof. intros H. unfold bitm, mantissa_bit, my, mantissa_bits. pose proof ms_le. rewrite <- (firstn_skipn (msize y) qy) at 1. rewrite app_nth1 by (rewrite firstn_length; lia). apply nth_In. rewrite firstn_length. lia. Qed.
Lemma h_not_y q : In q qy -> q <> h.
Proof. intros I ->. unfold h in I. destruct corr as [c|]; [destruct (HC c eq_refl) as (_ & _ & NH & _); contradiction|apply LY in I; lia]. Qed.
Lemma h_not_x q : In q qx -> q <> h.
Proof. intros I ->. unfold h in I. destruct corr as [c|]; [destruct (HC c eq_refl) as (_ & _ & _ & NH); contradiction|apply LX in I; lia]. Qed.
Lemma h_not_r q : In q reg -> q <> h.
Proof. intros I ->. unfold h in I. destruct corr as [c|]; [destruct (HC c eq_refl) as (_ & NH & _); contradiction|apply LR in I; lia]. Qed.
Lemma conf_reg f g b q : In q reg -> conf f g b q = xorb (Y q) f.
Proof. intros I. unfold conf. rewrite (proj2 (mem_In q reg) I). reflexivity. Qed.
Lemma conf_x f g b q : In q qx -> conf f g b q = Y q.
Proof.
  intros I. unfold conf. rewrite (proj2 (mem_not q reg) (DRX q I)). rewrite (proj2 (mem_not q my)) by (intros J; exact (DXY q I (in_my q J))). destruct (Nat.eqb_spec q h) as [E|]; [|reflexivity]. exfalso. exact (h_not_x q I E).
Qed.
Lemma conf_m f g b i : i < msize y -> conf f g b (bitm i) = xorb (Y (bitm i)) g.
Proof. intros H. pose proof (bitm_in i H) as I. unfold conf. rewrite (proj2 (mem_not _ reg) (DRY _ (in_my _ I))), (proj2 (mem_In _ my) I). reflexivity. Qed.
Lemma sign_in : signed y = true -> In (sign_bit y qy) qy /\ ~ In (sign_bit y qy) my.
Proof.
  intros H. pose proof (size_signed y H) as E. assert (L : msize y < length qy) by lia. split; [apply nth_In; exact L|]. unfold my, mantissa_bits, sign_bit. intros I.
  apply (In_nth _ _ 0) in I as (i & Hi & E'). rewrite firstn_length in Hi. assert (Q : nth i qy 0 = nth (msize y) qy 0).
  { rewrite <- E'. rewrite <- (firstn_skipn (msize y) qy) at 1. apply app_nth1. rewrite firstn_length. exact Hi. }
  apply NoDup_nth in Q; [|exact NY|lia|exact L]. lia.
Qed.
Lemma conf_sign f g b : signed y = true -> conf f g b (sign_bit y qy) = Y (sign_bit y qy).
Proof.
  intros H. destruct (sign_in H) as [I NI]. unfold conf. rewrite (proj2 (mem_not _ reg) (DRY _ I)), (proj2 (mem_not _ my) NI). destruct (Nat.eqb_spec (sign_bit y qy) h) as [E|]; [|reflexivity]. exfalso. exact (h_not_y _ I E).
Qed.
Lemma conf_h f g b c : corr = Some c -> conf f g b c = b.
Proof.
  intros E. destruct (HC c E) as (_ & A & B & _). unfold conf. rewrite (proj2 (mem_not _ reg) A). rewrite (proj2 (mem_not _ my)) by (intros I; exact (B (in_my _ I))). unfold h. rewrite E, Nat.eqb_refl. reflexivity.
Qed.
Lemma h_is c : corr = Some c -> h = c. Proof. intros E. unfold h. rewrite E. reflexivity. Qed.
(** ** steps *)
Definition phi (f : bool) : Z := (r - zb f * (2 * r + 1))%Z.
Lemma step_adder kk f g b : phased (adder reg m x qx kk) (tab N (conf f g b)) (tab N (conf f g b)) (angle (kk * X * phi f) wid).
Proof.
  eapply phased_ext; [apply phased_adder; assumption|]. rewrite (map_ext_in (conf f g b) Y qx) by (intros q I; apply conf_x, I).
  assert (E : map (conf f g b) reg = map (fun a => xorb a f) (map Y reg)) by (rewrite map_map; apply map_ext_in; intros q I; apply conf_reg, I).
  rewrite E, reading_xor, map_length. fold wid r X. apply e_congr. exists (if f then kk * X else 0)%Z. unfold phi. destruct f; cbn [zb]; ring.
Qed.
Lemma step_back kk f g b c : corr = Some c -> phased (take_back reg m x qx kk c) (tab N (conf f g b)) (tab N (conf f g b)) (angle (kk * X * zb b) wid).
Proof.
  intros E. eapply phased_ext; [apply (phased_take_back N reg m x qx kk c); [apply (HC c E)|exact LX]|]. rewrite (map_ext_in (conf f g b) Y qx) by (intros q I; apply conf_x, I). rewrite (conf_h f g b c E). reflexivity.
Qed.
Lemma flip_conf f g b v : forall q, xorb (conf f g b q) (mem q reg && v) = conf (xorb f v) g b q.
Proof. intros q. unfold conf. destruct (mem q reg); cbn [andb]; [destruct (Y q), f, v; reflexivity|apply xorb_false_r]. Qed.
Lemma step_fan c f g b v : In c qy -> conf f g b c = v -> phased (fan c reg) (tab N (conf f g b)) (tab N (conf (xorb f v) g b)) 0%Qc.
Proof.
  intros I E. eapply phased_to; [apply phased_fan; [exact NR|apply DRY, I|apply LY, I|exact LR]|]. apply tab_ext. intros q _. cbv beta. rewrite E. apply flip_conf.
Qed.
Lemma step_between c d f g b v : In c qy -> In d qy -> c <> d -> xorb (conf f g b d) (conf f g b c) = v ->
  phased ([qCX c d] ++ fan d reg ++ [qCX c d]) (tab N (conf f g b)) (tab N (conf (xorb f v) g b)) 0%Qc.
Proof.
  intros I J NE E. eapply phased_to; [apply phased_between; [exact NR|apply DRY, I|apply DRY, J|exact NE|apply LY, I|apply LY, J|exact LR]|]. apply tab_ext. intros q _. cbv beta. rewrite E. apply flip_conf.
Qed.
Lemma step_h c f g b d v : corr = Some c -> In d qy -> conf f g b d = v -> phased [qCX d c] (tab N (conf f g b)) (tab N (conf f g (xorb b v))) 0%Qc.
Proof.
  intros E I V. destruct (HC c E) as (Hc & A & B & _). eapply phased_to; [apply phased_cx; [intros ->; contradiction|apply LY, I|exact Hc]|]. apply tab_ext. intros q _. cbv beta. rewrite V.
  destruct (Nat.eqb_spec q c) as [->|Q]; [rewrite !(conf_h _ _ _ c E); reflexivity|]. unfold conf. rewrite (h_is c E). destruct (Nat.eqb_spec q c); [contradiction|reflexivity].
Qed.
Lemma step_mant f g b v : signed y = true -> Y (sign_bit y qy) = v -> phased (fan (sign_bit y qy) my) (tab N (conf f g b)) (tab N (conf f (xorb g v) b)) 0%Qc.
Proof.
  intros H V. destruct (sign_in H) as [I NI]. eapply phased_to; [apply phased_fan; [|exact NI|apply LY, I|intros q J; apply LY, in_my, J]|].
  - unfold my, mantissa_bits. rewrite <- (firstn_skipn (msize y) qy) in NY. apply nodup_l in NY. exact NY.
  - apply tab_ext. intros q _. cbv beta. rewrite (conf_sign f g b H), V. unfold conf. destruct (mem q reg) eqn:E.
    + replace (mem q my) with false; [apply xorb_false_r|]. symmetry. apply mem_not. intros J. apply mem_In in E. exact (DRY q (in_my q J) E).
    + destruct (mem q my); cbn [andb]; [destruct (Y q), g, v; reflexivity|apply xorb_false_r].
Qed.
(** ** the loop: the register is flipped by the qubit of the mantissa *)
Definition eps : Z := match corr with Some _ => 1%Z | None => 0%Z end.
Definition hb (i : nat) : bool := match corr with Some _ => (if i =? 0 then s else Y (bitm (i - 1))) | None => false end.
Definition round_phase (i : nat) : Z := (- 2 ^ Z.of_nat i * k * X * (phi (Y (bitm i)) + eps * zb (Y (bitm i))))%Z.
Lemma bitm_inj i j : i < msize y -> j < msize y -> bitm i = bitm j -> i = j.
Proof. intros A B E. pose proof ms_le. apply NoDup_nth in E; auto; lia. Qed.
Lemma bitm_y i : i < msize y -> In (bitm i) qy. Proof. intros H. apply in_my, bitm_in, H. Qed.
Lemma angle_0 n : angle 0 n = 0%Qc. Proof. rewrite angle_zq, zq_0. ring. Qed.
Lemma step_round i : i < msize y ->
  phased (round_ reg m x y qx qy k corr i) (tab N (conf (Y (bitm i)) s (hb i)))
    (tab N (conf (if (i =? msize y - 1) then (if signed y then Y (bitm i) else false) else Y (bitm (i + 1))) s (hb (i + 1)))) (angle (round_phase i) wid).
Proof.
  intros Hi. unfold round_. set (kk := (- 2 ^ Z.of_nat i * k)%Z).
  assert (P : angle (round_phase i) wid = (angle (kk * X * phi (Y (bitm i))) wid + (angle (kk * X * (eps * zb (Y (bitm i)))) wid + 0))%Qc).
  { rewrite Qcplus_0_r, <- angle_add. apply (f_equal (fun z => angle z wid)). unfold round_phase, kk. ring. }
  rewrite P. eapply phased_app; [apply step_adder|]. eapply phased_app.
  - instantiate (1 := tab N (conf (Y (bitm i)) s (hb (i + 1)))). unfold hb, eps. case_eq corr; [intros c E|intros E].
    + assert (H2 : i + 1 =? 0 = false) by (apply Nat.eqb_neq; lia). rewrite H2. replace (i + 1 - 1) with i by lia.
      eapply phased_0; [instantiate (1 := tab N (conf (Y (bitm i)) s s))|eapply phased_0; [instantiate (1 := tab N (conf (Y (bitm i)) s (Y (bitm i))))|]].
      * destruct (Nat.eqb_spec i 0) as [->|NZ]; [apply phased_nil|]. eapply phased_to; [apply (step_h c); [exact E|apply bitm_y; lia|apply conf_m; lia]|]. fold (bitm (i - 1)). do 2 f_equal. destruct (Y (bitm (i - 1))), s; reflexivity.
      * eapply phased_to; [apply (step_h c); [exact E|apply bitm_y; lia|apply conf_m; lia]|]. fold (bitm i). do 2 f_equal. destruct (Y (bitm i)), s; reflexivity.
      * rewrite Z.mul_1_l. apply step_back, E.
    + rewrite Z.mul_0_l, Z.mul_0_r, angle_0. apply phased_nil.
  - destruct (Nat.eqb_spec i (msize y - 1)) as [EL|NL].
    + destruct (signed y) eqn:SG; [apply phased_nil|]. eapply phased_to; [apply step_fan; [apply bitm_y, Hi|apply conf_m, Hi]|]. fold (bitm i). do 2 f_equal. unfold s. rewrite SG. cbn [andb]. rewrite xorb_false_r. apply xorb_nilpotent.
    + assert (B1 : bitm i <> bitm (i + 1)) by (intros Q; apply bitm_inj in Q; lia).
      eapply phased_to; [apply step_between; [apply bitm_y; lia|apply bitm_y; lia|exact B1|fold (bitm i) (bitm (i + 1)); rewrite !conf_m by lia; reflexivity]|]. do 2 f_equal. destruct (Y (bitm i)), (Y (bitm (i + 1))), s; reflexivity.
Qed.
Definition loop_phase (n : nat) : Z := fold_right (fun i acc => round_phase i + acc)%Z 0%Z (seq 0 n).
Lemma loop_snoc n : loop_phase (n + 1) = (loop_phase n + round_phase n)%Z.
Proof.
  unfold loop_phase. rewrite Nat.add_1_r, seq_snoc. induction (seq 0 n) as [|a l IH]; cbn [app fold_right]; [ring|]. rewrite IH. ring.
Qed.
Definition frame (n : nat) : bool := if n =? msize y then (if signed y then Y (bitm (n - 1)) else false) else Y (bitm n).
Lemma step_loop n : n <= msize y -> phased (flat_map (round_ reg m x y qx qy k corr) (seq 0 n)) (tab N (conf (Y (bitm 0)) s (hb 0))) (tab N (conf (frame n) s (hb n))) (angle (loop_phase n) wid).
Proof.
  induction n as [|n IH]; intros H.
  - cbn [seq flat_map]. unfold loop_phase. cbn [seq fold_right]. rewrite angle_0. unfold frame. destruct (Nat.eqb_spec 0 (msize y)); [lia|]. apply phased_nil.
  - rewrite seq_snoc, flat_map_app. replace (Datatypes.S n) with (n + 1) by lia. rewrite loop_snoc, angle_add. eapply phased_app; [apply IH; lia|]. cbn [flat_map]. rewrite app_nil_r.
    assert (F : frame n = Y (bitm n)) by (unfold frame; destruct (Nat.eqb_spec n (msize y)); [lia|reflexivity]). rewrite F.
    eapply phased_to; [apply step_round; lia|]. unfold frame. replace (n + 1 - 1) with n by lia.
    destruct (Nat.eqb_spec n (msize y - 1)), (Nat.eqb_spec (n + 1) (msize y)); try lia; reflexivity.
Qed.
(** ** the sum of the phases *)
Definition Ym := number (map Y my).
Definition V : Z := (Ym - zb s * 2 ^ Z.of_nat (msize y))%Z.
Lemma my_seq : my = map bitm (seq 0 (msize y)).
Proof.
  pose proof ms_le. apply (nth_ext _ _ 0 (bitm 0)); [unfold my, mantissa_bits; rewrite firstn_length, map_length, seq_length; lia|]. intros i Hi. unfold my, mantissa_bits in Hi. rewrite firstn_length in Hi. rewrite map_nth, seq_nth by lia. cbn [Nat.add].
  unfold my, mantissa_bits, bitm, mantissa_bit. rewrite <- (firstn_skipn (msize y) qy) at 2. rewrite app_nth1 by (rewrite firstn_length; lia). reflexivity.
Qed.
Lemma number_snoc b c : (number (b ++ [c]) = number b + zb c * 2 ^ Z.of_nat (length b))%Z.
Proof. induction b as [|a b IH]; [cbn; destruct c; reflexivity|]. cbn [app number length]. rewrite IH, Nat2Z.inj_succ, Z.pow_succ_r by lia. ring. Qed.
Lemma loop_total n : loop_phase n = (- k * X * ((2 ^ Z.of_nat n - 1) * r - (2 * r + 1 - eps) * number (map Y (map bitm (seq 0 n)))))%Z.
Proof.
  induction n as [|n IH]; [cbn; ring|]. replace (Datatypes.S n) with (n + 1) by lia. rewrite loop_snoc, IH. rewrite (Nat.add_1_r n), seq_snoc, !map_app. cbn [map]. rewrite number_snoc, !map_length, seq_length. rewrite Nat2Z.inj_succ, Z.pow_succ_r by lia.
  unfold round_phase, phi. destruct (Y (bitm n)); cbn [zb]; ring.
Qed.
Lemma core_phase : phased (hybrid_core reg m x y qx qy k corr) (tab N (conf false false false)) (tab N (conf false false false)) (angle (k * X * V * (2 * r + 1 - eps)) wid).
Proof.
  unfold hybrid_core. set (k0 := (k * (2 ^ Z.of_nat (msize y) - 1 + if signed y then 1 else 0))%Z).
  set (p1 := (if signed y then - k * X * r else 0)%Z). set (p2 := (k0 * X * phi s)%Z). set (p3 := (if signed y then eps * (k0 * X * zb s) else 0)%Z).
  assert (T : angle (k * X * V * (2 * r + 1 - eps)) wid = (angle p1 wid + (angle p2 wid + (angle p3 wid + (0 + (angle (loop_phase (msize y)) wid + 0)))))%Qc).
  { rewrite Qcplus_0_r, Qcplus_0_l, <- !angle_add. apply (f_equal (fun z => angle z wid)). rewrite loop_total, <- my_seq. fold Ym. unfold p1, p2, p3, k0, phi, V, s. destruct (signed y); cbn [andb zb]; [|ring]. destruct (Y (sign_bit y qy)); cbn [zb]; ring. }
  rewrite T. set (z := tab N (conf false false false)).
  eapply phased_app; [instantiate (1 := tab N (conf s s false))|eapply phased_app; [|eapply phased_app; [instantiate (1 := tab N (conf s s (hb 0)))|eapply phased_app; [instantiate (1 := tab N (conf (Y (bitm 0)) s (hb 0)))|eapply phased_app; [apply step_loop; lia|]]]]].
  - unfold p1, z. destruct (signed y) eqn:SG.
    + replace (angle (- k * X * r) wid) with (angle (-1 * k * X * phi false) wid + (0 + 0))%Qc by (rewrite !Qcplus_0_r; apply (f_equal (fun z => angle z wid)); unfold phi; cbn [zb]; ring).
      destruct (sign_in SG) as [IS _]. assert (ES : s = Y (sign_bit y qy)) by (unfold s; rewrite SG; reflexivity).
      eapply phased_app; [apply step_adder|eapply phased_app].
      * apply step_fan; [exact IS|apply conf_sign, SG].
      * eapply phased_to; [apply step_mant; [exact SG|reflexivity]|]. rewrite ES, !xorb_false_l. reflexivity.
    + rewrite angle_0. unfold s. rewrite SG. apply phased_nil.
  - apply step_adder.
  - unfold p3, hb, eps. case_eq corr; [intros c E|intros E].
    + rewrite Nat.eqb_refl. destruct (signed y) eqn:SG.
      * rewrite Z.mul_1_l. destruct (sign_in SG) as [IS _]. assert (ES : s = Y (sign_bit y qy)) by (unfold s; rewrite SG; reflexivity).
        eapply phased_0; [apply (step_h c); [exact E|exact IS|apply conf_sign, SG]|]. rewrite xorb_false_l, <- ES. apply step_back, E.
      * rewrite angle_0. unfold s. rewrite SG. apply phased_nil.
    + destruct (signed y); rewrite ?Z.mul_0_l, angle_0; apply phased_nil.
  - eapply phased_to; [apply step_fan; [apply bitm_y; lia|apply conf_m; lia]|]. fold (bitm 0). do 2 f_equal. destruct (Y (bitm 0)), s; reflexivity.
  - set (last := bitm (msize y - 1)). fold (bitm (msize y - 1)). fold last.
    assert (IL : In last qy) by (apply bitm_y; lia). assert (FR : frame (msize y) = if signed y then Y last else false) by (unfold frame; rewrite Nat.eqb_refl; reflexivity). rewrite FR.
    assert (HB : hb (msize y) = match corr with Some _ => Y last | None => false end) by (unfold hb; destruct corr; [destruct (Nat.eqb_spec (msize y) 0); [lia|reflexivity]|reflexivity]). rewrite HB.
    eapply phased_0; [instantiate (1 := tab N (conf (if signed y then Y last else false) s false))|].
    + case_eq corr; [intros c E|intros E; rewrite ?E; apply phased_nil]. eapply phased_0; [apply (step_h c); [exact E|exact IL|apply conf_m; lia]|]. fold last.
      replace (xorb (Y last) (xorb (Y last) s)) with s by (destruct (Y last), s; reflexivity). destruct (signed y) eqn:SG.
      * destruct (sign_in SG) as [IS _]. assert (ES : s = Y (sign_bit y qy)) by (unfold s; rewrite SG; reflexivity). eapply phased_to; [apply (step_h c); [exact E|exact IS|apply conf_sign, SG]|]. rewrite <- ES, xorb_nilpotent. reflexivity.
      * unfold s. rewrite SG. apply phased_nil.
    + destruct (signed y) eqn:SG; [|unfold s; rewrite SG; apply phased_nil]. destruct (sign_in SG) as [IS NI]. assert (ES : s = Y (sign_bit y qy)) by (unfold s; rewrite SG; reflexivity).
      assert (NE : last <> sign_bit y qy) by (intros Q; apply NI; rewrite <- Q; apply bitm_in; lia).
      replace ([qCX last (sign_bit y qy)] ++ fan (sign_bit y qy) reg ++ [qCX last (sign_bit y qy)] ++ fan (sign_bit y qy) (mantissa_bits y qy)) with (([qCX last (sign_bit y qy)] ++ fan (sign_bit y qy) reg ++ [qCX last (sign_bit y qy)]) ++ fan (sign_bit y qy) my) by (rewrite <- !app_assoc; reflexivity).
      eapply phased_0; [apply step_between; [exact IL|exact IS|exact NE|reflexivity]|]. rewrite (conf_sign _ _ _ SG). assert (EL : forall f g b, conf f g b last = xorb (Y last) g) by (intros; apply conf_m; lia). rewrite EL, <- ES.
      eapply phased_to; [apply step_mant; [exact SG|symmetry; exact ES]|]. rewrite xorb_nilpotent. unfold z. do 2 f_equal. destruct (Y last), s; reflexivity.
Qed.
End core.
End ring.
