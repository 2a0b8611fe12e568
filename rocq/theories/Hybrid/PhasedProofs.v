(** Circuits that move a basis state and multiply it by a phase; fans of CX gates, adders in the Fourier domain. *)
From Coq Require Import List ZArith Bool Lia Arith QArith Qcanon Field Ring Ring_theory.
Import ListNotations.
From Verif.Inverse Require Import InvModel InvSpec InvProofs.
From Verif.CtrlOps Require Import CtrlModel CtrlSpec CtrlProofs.
From Verif.QFloat Require Import QFModel QFSpec QFProofs SbpProofs.
From Verif.Fourier Require Import FourierModel FourierSpec RegProofs FourierProofs FourierFinal AdderProofs.
From Verif.Sbp Require Import SbpModel SbpSpec EncProofs NumProofs.
From Verif.Hybrid Require Import HybridModel.
Local Open Scope nat_scope.

(** * basis states as tables *)
Definition tab (N : nat) (G : nat -> bool) : list bool := map G (seq 0 N).
Lemma tab_length N G : length (tab N G) = N. Proof. unfold tab. rewrite map_length. apply seq_length. Qed.
Lemma tab_get N G q : q < N -> getbit (tab N G) q = G q.
Proof. intros H. unfold tab, getbit. rewrite (nth_indep _ false (G 0)) by (rewrite map_length, seq_length; exact H). rewrite map_nth, seq_nth by exact H. reflexivity. Qed.
Lemma tab_self x : tab (length x) (getbit x) = x.
Proof. apply getbit_ext; [apply tab_length|]. intros q H. rewrite tab_length in H. apply tab_get, H. Qed.
Lemma tab_ext N G H : (forall q, q < N -> G q = H q) -> tab N G = tab N H.
Proof. intros E. apply map_ext_in. intros q I. apply in_seq in I. apply E. lia. Qed.
Lemma read_tab N G qs : (forall q, In q qs -> q < N) -> read (tab N G) qs = map G qs.
Proof. intros H. apply map_ext_in. intros q I. apply tab_get, H, I. Qed.
Definition mem (q : nat) (l : list nat) : bool := existsb (Nat.eqb q) l.
Lemma mem_In q l : mem q l = true <-> In q l.
Proof. unfold mem. rewrite existsb_exists. split; [intros (p & I & E); apply Nat.eqb_eq in E; subst; exact I|intros I; exists q; split; [exact I|apply Nat.eqb_refl]]. Qed.
Lemma mem_not q l : mem q l = false <-> ~ In q l.
Proof. rewrite <- mem_In. destruct (mem q l); split; intros; try congruence; try tauto. Qed.
(** * numbers *)
Lemma number_negb : forall b, number (map negb b) = (2 ^ Z.of_nat (length b) - 1 - number b)%Z.
Proof.
  induction b as [|a b IH]; [reflexivity|]. cbn [map number length]. rewrite IH, Nat2Z.inj_succ, Z.pow_succ_r by lia. destruct a; cbn [negb]; lia.
Qed.
Lemma reading_xor b f : (reading true (map (fun a => xorb a f) b) = if f then 2 ^ Z.of_nat (length b) - 1 - reading true b else reading true b)%Z.
Proof.
  unfold reading. destruct f.
  - rewrite <- map_rev, <- (rev_length b), <- number_negb. apply f_equal. apply map_ext. intros []; reflexivity.
  - rewrite (map_ext _ (fun a => a)) by (intros []; reflexivity). rewrite map_id. reflexivity.
Qed.
Lemma reading_cons a b : (reading true (a :: b) = reading true b + zb a * 2 ^ Z.of_nat (length b))%Z.
Proof.
  unfold reading. cbn [rev]. rewrite <- (rev_length b). generalize (rev b). clear. induction l as [|c l IH]; [cbn; destruct a; reflexivity|]. cbn [app number length]. rewrite IH, Nat2Z.inj_succ, Z.pow_succ_r by lia. ring.
Qed.
Lemma dotz_sum (k r : Z) n : forall ws (bs : list bool), qsum (map (fun '(w, b) => angle (k * w * zb b * r) n) (combine ws bs)) = angle (k * dotz ws bs * r) n.
Proof.
  assert (Z0 : qsum [] = angle (k * 0 * r) n) by (rewrite Z.mul_0_r, Z.mul_0_l, angle_zq, zq_0; cbn; ring).
  induction ws as [|w ws IH]; intros [|b bs]; cbn [combine map dotz]; try exact Z0. rewrite qsum_cons, IH, <- angle_add. f_equal. destruct b; cbn [zb]; ring.
Qed.

Section ring.
Context {R : Type} (rO rI : R) (radd rmul rsub : R -> R -> R) (ropp : R -> R) (RT : ring_theory rO rI radd rmul rsub ropp eq).
Context (expi chalf shalf : Qc -> R) (im : R).
Context (EU : euler rO rI radd rmul ropp expi chalf shalf im).
Add Ring rr5 : RT.
Notation amp := (list bool -> R).
Notation effect := (effect Qcplus rO rI radd rmul ropp expi chalf shalf im).
Notation run := (run_circuit Qcplus rO rI radd rmul ropp expi chalf shalf im).
Notation diag := (diag rO rI radd rmul ropp expi chalf shalf im).
Notation diag_flat := (diag_flat rO rI radd rmul rsub ropp RT expi chalf shalf im EU).
Notation diag_ext := (diag_ext rO rI radd rmul ropp expi chalf shalf im).
Notation diag_cp := (diag_cp rO rI radd rmul rsub ropp RT expi chalf shalf im EU).
Notation expi_qsum := (expi_qsum rO rI radd rmul ropp expi chalf shalf im EU).
Notation e_add := (e_add rO rI radd rmul ropp expi chalf shalf im EU).
Notation e_0 := (e_0 rO rI radd rmul ropp expi chalf shalf im EU).
Notation e_even := (FourierProofs.e_even rO rI radd rmul rsub ropp RT expi chalf shalf im EU).
Notation e_mod2 := (EncProofs.e_mod2 rO rI radd rmul rsub ropp RT expi chalf shalf im EU).
Notation run_app := (FourierProofs.run_app rO rI radd rmul ropp expi chalf shalf im).
Notation run_cx := (FourierProofs.run_cx rO rI radd rmul rsub ropp RT expi chalf shalf im).

Lemma e_congr a b n : (exists t, a = b + t * 2 ^ Z.of_nat n)%Z -> expi (angle a n) = expi (angle b n).
Proof. intros (t & ->). rewrite angle_add, e_add, angle_whole, e_even. ring. Qed.
Definition phased (c : body) (x y : list bool) (a : Qc) : Prop := forall psi : amp, run c psi y = rmul (expi a) (psi x).
Lemma phased_nil x : phased [] x x 0%Qc. Proof. intros psi. cbn. rewrite e_0. ring. Qed.
Lemma phased_app c d x y z a b : phased c x y a -> phased d y z b -> phased (c ++ d) x z (a + b)%Qc.
Proof. intros C D psi. rewrite run_app, D, C, e_add. ring. Qed.
Lemma phased_0 c d x y z b : phased c x y 0%Qc -> phased d y z b -> phased (c ++ d) x z b.
Proof. intros C D psi. rewrite run_app, D, C, e_0. ring. Qed.
Lemma phased_ext c x y a b : phased c x y a -> expi a = expi b -> phased c x y b.
Proof. intros C E psi. rewrite C, E. reflexivity. Qed.
Lemma phased_diag N c h x : diag N c h -> length x = N -> phased c x x (h x).
Proof. intros D L psi. apply D, L. Qed.
Lemma phased_to c x y y' a : phased c x y a -> y = y' -> phased c x y' a.
Proof. intros C <-. exact C. Qed.

Section width.
Context (N : nat).
Notation tab := (tab N).
Lemma phased_cx c t G : c <> t -> c < N -> t < N -> phased [qCX c t] (tab G) (tab (fun q => if q =? t then xorb (G q) (G c) else G q)) 0%Qc.
Proof.
  intros NE Hc Ht psi. change (run [qCX c t] psi ?y) with (effect gCX [c; t] psi y). rewrite run_cx, e_0. transitivity (psi (tab G)); [|ring]. apply f_equal.
  apply getbit_ext; [rewrite setbit_length, !tab_length; reflexivity|]. intros q H. rewrite setbit_length, tab_length in H. destruct (Nat.eq_dec q t) as [->|Q].
  - rewrite getbit_set_same by (rewrite tab_length; exact Ht). rewrite !tab_get by assumption. rewrite Nat.eqb_refl. destruct (Nat.eqb_spec c t); [contradiction|]. rewrite xorb_assoc, xorb_nilpotent. apply xorb_false_r.
  - rewrite getbit_set_other by exact Q. rewrite !tab_get by assumption. destruct (Nat.eqb_spec q t); [contradiction|reflexivity].
Qed.
Lemma phased_fan c ts G : NoDup ts -> ~ In c ts -> c < N -> (forall q, In q ts -> q < N) -> phased (fan c ts) (tab G) (tab (fun q => xorb (G q) (mem q ts && G c))) 0%Qc.
Proof.
  intros ND NI Hc. revert G. induction ND as [|t ts NT ND IH]; intros G L.
  - eapply phased_to; [apply phased_nil|]. apply tab_ext. intros q _. cbn. rewrite xorb_false_r. reflexivity.
  - change (fan c (t :: ts)) with ([qCX c t] ++ fan c ts). eapply phased_to; [eapply phased_0; [apply phased_cx|apply IH]|].
    + intros ->. apply NI. left. reflexivity.
    + exact Hc.
    + apply L. left. reflexivity.
    + intros I. apply NI. right. exact I.
    + intros q I. apply L. right. exact I.
    + apply tab_ext. intros q _. cbv beta. destruct (Nat.eqb_spec c t) as [->|NE]; [exfalso; apply NI; left; reflexivity|]. cbn [mem existsb]. fold (mem q ts). destruct (Nat.eqb_spec q t) as [->|Q]; cbn [orb].
      * rewrite (proj2 (mem_not t ts) NT). cbn [andb]. apply xorb_false_r.
      * reflexivity.
Qed.
Lemma phased_between a b ts G : NoDup ts -> ~ In a ts -> ~ In b ts -> a <> b -> a < N -> b < N -> (forall q, In q ts -> q < N) ->
  phased ([qCX a b] ++ fan b ts ++ [qCX a b]) (tab G) (tab (fun q => xorb (G q) (mem q ts && xorb (G b) (G a)))) 0%Qc.
Proof.
  intros ND NA NB NE Ha Hb L. eapply phased_to; [eapply phased_0; [apply phased_cx; assumption|eapply phased_0; [apply phased_fan; assumption|apply phased_cx; assumption]]|].
  apply tab_ext. intros q _. cbv beta. rewrite !Nat.eqb_refl. destruct (Nat.eqb_spec a b); [contradiction|].
  pose proof (proj2 (mem_not a ts) NA) as MA. pose proof (proj2 (mem_not b ts) NB) as MB.
  destruct (Nat.eqb_spec q b) as [->|Q].
  - rewrite MA, MB. cbn [andb]. rewrite !xorb_false_r, xorb_assoc, xorb_nilpotent. apply xorb_false_r.
  - reflexivity.
Qed.
Lemma phased_adder reg m f qs k G : (forall q, In q qs -> ~ In q reg) -> (forall q, In q reg -> q < N) -> (forall q, In q qs -> q < N) ->
  phased (adder reg m f qs k) (tab G) (tab G) (angle (k * dotz (sb_poly f m) (map G qs) * reading true (map G reg)) (length reg)).
Proof.
  intros D L Lq. assert (DG : diag N (adder reg m f qs k) (fun x => qsum (map (fun '(w, q) => angle (k * w * zb (getbit x q) * reading true (read x reg)) (length reg)) (combine (sb_poly f m) qs)))).
  { unfold adder. eapply diag_ext; [apply (diag_flat N _ (fun '(w, q) x => angle (k * w * zb (getbit x q) * reading true (read x reg)) (length reg)))|].
    - intros [w q] I. cbn [multi_controlled_U_g]. apply (diag_rotations rO rI radd rmul rsub ropp RT expi chalf shalf im EU); [apply D, (in_combine_r _ _ _ _ I)|exact L].
    - intros x _. apply f_equal. f_equal. apply map_ext. intros [w q]. reflexivity. }
  eapply phased_ext; [exact (phased_diag N _ _ _ DG (tab_length N G))|]. apply f_equal. rewrite <- dotz_sum. rewrite (NumProofs.combine_map G), map_map. f_equal. apply map_ext_in. intros [w q] I. cbn [fst snd].
  rewrite tab_get by (apply Lq, (in_combine_r _ _ _ _ I)). rewrite read_tab by exact L. reflexivity.
Qed.
Lemma applied_ok reg y (b c : bool) : expi (- applied_phase reg y * zq 2 * (b2q b * b2q c))%Qc = expi (angle (y * zb b * zb c) (length reg)).
Proof.
  assert (T : (applied_phase reg y * zq 2 = qsum (map (rotation y) (seq 0 (length reg))))%Qc).
  { unfold applied_phase. rewrite (qsum_ext _ (fun i => half * rotation y i)%Qc) by (intros; ring). rewrite qsum_scale. pose proof half_2 as H. transitivity (half * zq 2 * qsum (map (rotation y) (seq 0 (length reg))))%Qc; [ring|]. rewrite H. ring. }
  assert (E : expi (applied_phase reg y * zq 2)%Qc = expi (angle (- y) (length reg))).
  { rewrite T. transitivity (expi (angle (y * reading true (repeat true (length reg))) (length reg))).
    - pose proof (angle_number y (repeat true (length reg))) as A. rewrite repeat_length in A. rewrite A. apply expi_qsum. intros i I. apply in_seq in I. replace (nth i (repeat true (length reg)) false) with true.
      + pose proof (e_mod2 (zq y * half ^ i)%Qc true) as M. cbn [b2q] in *. rewrite !Qcmult_1_r in M. rewrite Qcmult_1_r. exact M.
      + symmetry. rewrite (nth_indep _ false true) by (rewrite repeat_length; lia). apply nth_repeat.
    - apply e_congr. exists y. unfold reading. assert (RV : forall n, number (rev (repeat true n)) = (2 ^ Z.of_nat n - 1)%Z).
      { intros n. replace (rev (repeat true n)) with (repeat true n); [induction n as [|n IH]; [reflexivity|]; cbn [repeat number]; rewrite IH, Nat2Z.inj_succ, Z.pow_succ_r by lia; lia|].
        induction n as [|n IH]; [reflexivity|]. cbn [repeat rev]. rewrite <- IH. apply repeat_cons. }
      rewrite RV. ring. }
  destruct b, c; cbn [b2q zb]; rewrite ?Qcmult_0_r, ?Qcmult_0_l, ?Qcmult_0_r, ?Z.mul_0_r, ?Z.mul_0_l, ?Z.mul_0_r.
  - rewrite !Z.mul_1_r. assert (M : rmul (expi (angle (- y) (length reg))) (expi (- applied_phase reg y * zq 2 * (1 * 1))%Qc) = rI).
    { rewrite <- E, <- e_add. transitivity (expi 0%Qc); [apply f_equal; ring|apply e_0]. }
    assert (M' : rmul (expi (angle (- y) (length reg))) (expi (angle y (length reg))) = rI) by (rewrite <- e_add, <- angle_add; replace (- y + y)%Z with 0%Z by ring; rewrite angle_zq, zq_0; transitivity (expi 0%Qc); [apply f_equal; ring|apply e_0]).
    set (u := expi (angle (- y) (length reg))) in *. set (p := expi (- applied_phase reg y * zq 2 * (1 * 1))%Qc) in *. set (v := expi (angle y (length reg))) in *.
    transitivity (rmul (rmul u v) p); [rewrite M'; ring|]. transitivity (rmul (rmul u p) v); [ring|]. rewrite M. ring.
  - rewrite angle_zq, zq_0. apply f_equal. ring.
  - rewrite angle_zq, zq_0. apply f_equal. ring.
  - rewrite angle_zq, zq_0. apply f_equal. ring.
Qed.
Lemma phased_take_back reg m f qs k h G : h < N -> (forall q, In q qs -> q < N) ->
  phased (take_back reg m f qs k h) (tab G) (tab G) (angle (k * dotz (sb_poly f m) (map G qs) * zb (G h)) (length reg)).
Proof.
  intros Lh Lq.
  assert (DG : diag N (take_back reg m f qs k h) (fun x => qsum (map (fun wq => angle (k * fst wq * zb (getbit x (snd wq)) * zb (getbit x h)) (length reg)) (combine (sb_poly f m) qs)))).
  { unfold take_back. eapply diag_ext; [apply (diag_flat N _ (fun wq x => (- applied_phase reg (k * fst wq) * zq 2 * (b2q (getbit x (snd wq)) * b2q (getbit x h)))%Qc)); intros [w q] I; apply diag_cp|].
    intros x _. cbv beta. apply expi_qsum. intros [w q] I. cbn [fst snd]. apply applied_ok. }
  eapply phased_ext; [exact (phased_diag N _ _ _ DG (tab_length N G))|]. apply f_equal. rewrite <- dotz_sum. rewrite (NumProofs.combine_map G), map_map. f_equal. apply map_ext_in. intros [w q] I. cbn [fst snd].
  rewrite tab_get by (apply Lq, (in_combine_r _ _ _ _ I)). rewrite tab_get by exact Lh. reflexivity.
Qed.
End width.
End ring.
