(** hybrid_mult as a whole. *)
From Coq Require Import List ZArith Bool Lia Arith QArith Qcanon Field Ring Ring_theory.
Import ListNotations.
From Verif.Inverse Require Import InvModel InvSpec InvProofs.
From Verif.CtrlOps Require Import CtrlModel CtrlSpec CtrlProofs.
From Verif.QFloat Require Import QFModel QFSpec QFProofs SbpProofs.
From Verif.Fourier Require Import FourierModel FourierSpec RegProofs FourierProofs FourierFinal AdderProofs.
From Verif.Sbp Require Import SbpModel SbpSpec EncProofs NumProofs CircProofs.
From Verif.PhasePoly Require PhaseProofs.
From Verif.Hybrid Require Import HybridModel HybridSpec PhasedProofs CoreProofs HybridFinal.
Local Open Scope nat_scope.
Local Notation value := FourierSpec.value.

Lemma nodup_split {A} (a b : list A) : NoDup (a ++ b) -> NoDup a /\ NoDup b /\ forall q, In q a -> ~ In q b.
Proof.
  induction a as [|x a IH]; cbn [app]; intros H; [split; [constructor|split; [exact H|intros q []]]|]. inversion H as [|? ? NI ND]; subst. destruct (IH ND) as (A1 & B1 & D).
  split; [constructor; [intros I; apply NI, in_or_app; left; exact I|exact A1]|]. split; [exact B1|]. intros q [<-|I] J; [apply NI, in_or_app; right; exact J|exact (D q I J)].
Qed.
Lemma nodup_swap {A} (a b c : list A) : NoDup (a ++ b ++ c) -> NoDup (b ++ a ++ c).
Proof.
  intros H. apply (Permutation.Permutation_NoDup (l := a ++ b ++ c)); [|exact H]. rewrite !app_assoc. apply Permutation.Permutation_app_tail, Permutation.Permutation_app_comm.
Qed.
Lemma layout_swap N a b o qa qb out anc h : layout N a b o qa qb out anc h -> layout N b a o qb qa out anc h.
Proof.
  intros (A & B & C & D & E). split; [exact B|]. split; [exact A|]. split; [exact C|]. split; [apply nodup_swap, D|]. intros q I. apply E. rewrite !in_app_iff in *. tauto.
Qed.
Lemma layout_parts N a b o qa qb out anc h : layout N a b o qa qb out anc h ->
  NoDup (anc :: out) /\ (forall q, In q (anc :: out) -> q < N) /\ NoDup qb /\ (forall q, In q qb -> q < N) /\ (forall q, In q qa -> q < N) /\
  (forall q, In q qa -> ~ In q (anc :: out)) /\ (forall q, In q qb -> ~ In q (anc :: out)) /\ (forall q, In q qa -> ~ In q qb) /\
  (h < N /\ ~ In h (anc :: out) /\ ~ In h qb /\ ~ In h qa).
Proof.
  intros (_ & _ & _ & D & E). apply nodup_split in D as (_ & D & X1). apply nodup_split in D as (D2 & D & X2). apply nodup_split in D as (D3 & D4 & X3).
  assert (AH : anc <> h) by (inversion D4 as [|? ? NI]; intros ->; apply NI; left; reflexivity).
  assert (NA : ~ In anc out) by (intros I; apply (X3 _ I); left; reflexivity). assert (NH : ~ In h out) by (intros I; apply (X3 _ I); right; left; reflexivity).
  assert (I1 : forall q, In q (anc :: out) -> In q (out ++ [anc; h])) by (intros q [<-|I]; apply in_or_app; [right; left; reflexivity|left; exact I]).
  assert (I2 : forall q, In q (anc :: out) -> In q (qb ++ out ++ [anc; h])) by (intros q I; apply in_or_app; right; apply I1, I).
  assert (I3 : In h (out ++ [anc; h])) by (apply in_or_app; right; right; left; reflexivity).
  split; [constructor; assumption|]. split; [intros q I; apply E, in_or_app; right; apply I2, I|]. split; [exact D2|]. split; [intros q I; apply E, in_or_app; right; apply in_or_app; left; exact I|].
  split; [intros q I; apply E, in_or_app; left; exact I|]. split; [intros q I J; exact (X1 q I (I2 q J))|]. split; [intros q I J; exact (X2 q I (I1 q J))|].
  split; [intros q I J; apply (X1 q I), in_or_app; left; exact J|]. split; [apply E, in_or_app; right; apply in_or_app; right; exact I3|]. split; [intros [A|I]; [exact (AH A)|exact (NH I)]|].
  split; [intros I; exact (X2 h I I3)|]. intros I. apply (X1 h I), in_or_app. right. exact I3.
Qed.

Section ring.
Context {R : Type} (rO rI : R) (radd rmul rsub : R -> R -> R) (ropp : R -> R) (RT : ring_theory rO rI radd rmul rsub ropp eq).
Context (expi chalf shalf : Qc -> R) (im : R).
Context (EU : euler rO rI radd rmul ropp expi chalf shalf im).
Add Ring rr8 : RT.
Notation amp := (list bool -> R).
Notation run := (run_circuit Qcplus rO rI radd rmul ropp expi chalf shalf im).
Notation dft := (dft rO rI radd rmul expi chalf).
Notation e_add := (e_add rO rI radd rmul ropp expi chalf shalf im EU).
Notation e_0 := (e_0 rO rI radd rmul ropp expi chalf shalf im EU).
Notation e_1 := (e_1 rO rI radd rmul ropp expi chalf shalf im EU).
Notation e_congr := (e_congr rO rI radd rmul rsub ropp RT expi chalf shalf im EU).
Notation run_app := (FourierProofs.run_app rO rI radd rmul ropp expi chalf shalf im).
Notation diag := (diag rO rI radd rmul ropp expi chalf shalf im).

Lemma diag_z N q : diag N [(Pauli PZ, [q])] (fun x => b2q (getbit x q)).
Proof.
  intros psi x L. change (run [(Pauli PZ, [q])] psi x) with (effect Qcplus rO rI radd rmul ropp expi chalf shalf im (Pauli PZ) [q] psi x). cbn [InvSpec.effect]. unfold on_qubit. cbn [nth pauli_matrix]. destruct (getbit x q) eqn:E; cbn [b2q].
  - rewrite e_1. rewrite <- E, setbit_get. ring.
  - rewrite e_0. rewrite <- E, setbit_get. ring.
Qed.
Lemma diag_fix N o out : length out = size o -> diag N (phase_fix o out) (fun x => angle (- mantissa o (value x out)) (S (length out))).
Proof.
  intros L. unfold phase_fix. eapply (diag_ext rO rI radd rmul ropp expi chalf shalf im).
  - apply (diag_app rO rI radd rmul rsub ropp RT expi chalf shalf im EU N _ _ (fun x => angle (- value x out) (S (length out))) (fun x => if signed o then b2q (getbit x (nth (length out - 1) out 0)) else 0%Qc)).
    + eapply (diag_ext rO rI radd rmul ropp expi chalf shalf im); [apply (diag_flat rO rI radd rmul rsub ropp RT expi chalf shalf im EU); intros i _; apply (diag_p rO rI radd rmul rsub ropp RT expi chalf shalf im EU)|]. cbv beta. intros x _. f_equal.
      rewrite (qsum_ext _ (fun i => (- zq 2 * half ^ (length out + 1)) * (zq 2 ^ i * b2q (nth i (read x out) false)))%Qc).
      * rewrite qsum_scale. pose proof (qsum_number (read x out)) as QN. rewrite read_length in QN. rewrite QN, angle_zq. unfold value. replace (zq (- number (read x out)))%Qc with (- zq (number (read x out)))%Qc by (symmetry; apply zq_opp). rewrite Nat.add_1_r. ring.
      * intros i I. apply in_seq in I. rewrite nth_read by lia. ring.
    + destruct (signed o); [apply diag_z|]. apply (diag_nil rO rI radd rmul rsub ropp RT expi chalf shalf im EU).
  - intros x _. cbv beta. unfold mantissa. destruct (signed o) eqn:S.
    + pose proof (size_signed o S) as E. replace (length out - 1) with (msize o) by lia. rewrite (PhaseProofs.sign_bit o x out S L). destruct (_ <? _)%Z; cbn [negb b2q]; [rewrite Qcplus_0_r; reflexivity|].
      replace 1%Qc with (angle (2 ^ Z.of_nat (length out)) (Datatypes.S (length out))).
      * rewrite <- angle_add. apply f_equal. f_equal. rewrite L. ring.
      * rewrite angle_zq. rewrite zq_pow. pose proof (half_pow (length out)) as HP. rewrite zq_pow in HP. pose proof half_2 as H2. cbn [Qcpower]. transitivity (half * zq 2 * (half ^ length out * zq 2 ^ length out))%Qc; [ring|]. rewrite H2, HP. ring.
    + rewrite Qcplus_0_r. reflexivity.
Qed.

Definition init_ok (i : init_op) (anc : nat) (out : list nat) (psi : amp) : Prop :=
  match i with InitH => blank rO psi out | InitQFT => blank rO psi [anc] | InitNone => True end.
Definition start (i : init_op) (out : list nat) (psi : amp) : amp := match i with InitNone => psi | _ => dft 1 false true out psi end.
Lemma initial_ok i anc out v psi w : initial i anc out = Some v -> register (anc :: out) w -> init_ok i anc out psi ->
  run v psi w = effect Qcplus rO rI radd rmul ropp expi chalf shalf im gH [anc] (start i out psi) w.
Proof.
  destruct i; cbn [initial init_ok start]; intros Hv Rg B.
  - injection Hv as <-. apply (init_h rO rI radd rmul rsub ropp RT expi chalf shalf im EU); assumption.
  - apply (init_qft rO rI radd rmul rsub ropp RT expi chalf shalf im EU _ _ _ _ _ Hv); assumption.
  - injection Hv as <-. reflexivity.
Qed.

Section mult.
Context (N : nat) (x y o : shape) (qx qy out : list nat) (anc h : nat) (LA : layout N x y o qx qy out anc h) (init : init_op) (tolerant : bool) (cl : Z).
Let n := length out.
Let k := (cl * 2 ^ (expo x + expo y - expo o))%Z.
Let P := product x y qx qy k.
Lemma out_register z : length z = N -> register (anc :: out) z.
Proof. intros L. destruct (layout_parts _ _ _ _ _ _ _ _ _ LA) as (A & B & _). split; [exact A|]. intros q I. rewrite L. apply B, I. Qed.
Lemma P_write z b : P (write z out b) = P z.
Proof.
  destruct (layout_parts _ _ _ _ _ _ _ _ _ LA) as (_ & _ & _ & _ & _ & X & Y & _). unfold P, product, value. rewrite !read_write_off; [reflexivity| |].
  - intros q I J. apply (Y q I). right. exact J.
  - intros q I J. apply (X q I). right. exact J.
Qed.
(** without Fourier transform at the end *)
Lemma run_plain c psi z : hybrid_run x y o qx qy out init false tolerant cl anc h = Some c -> length z = N -> getbit z h = false -> init_ok init anc out psi ->
  run c psi z = rmul (expi (angle (P z * reading true (read z out)) n + if tolerant then angle (P z) (S n) else 0)%Qc) (start init out psi z).
Proof.
  intros H L H0 B. unfold hybrid_run in H. destruct ((0 <? msize y) && _) eqn:G; [|discriminate]. apply andb_prop in G as (MY & _). apply Nat.ltb_lt in MY. cbv zeta in H.
  destruct (initial init anc out) as [v|] eqn:I; [|discriminate]. rewrite andb_false_r, andb_true_r, !app_nil_r in H. cbv iota in H.
  match type of H with Some ?b = _ => assert (c = b) as -> by congruence end. clear H. rewrite run_app.
  destruct (layout_parts _ _ _ _ _ _ _ _ _ LA) as (NR & LR & NY & LY & LX & DX & DY & DXY & HH). destruct LA as (SX & SY & SO & _).
  fold k.
  rewrite (sandwich rO rI radd rmul rsub ropp RT expi chalf shalf im EU N anc out (msize o + 1) x y qx qy k (if negb tolerant then Some h else None) NR LR NY LY SY SX LX DX DY DXY) with (phi := start init out psi).
  - apply (f_equal2 rmul); [|reflexivity]. apply f_equal. unfold theta. fold P n. unfold extra. destruct tolerant; cbn [negb]; [rewrite Z.mul_1_r; reflexivity|]. rewrite Z.mul_0_r, angle_0. reflexivity.
  - intros h' E. destruct tolerant; cbn [negb] in E; [discriminate|]. assert (h' = h) as -> by congruence. exact HH.
  - exact MY.
  - rewrite SO. unfold size. destruct (signed o); lia.
  - exact L.
  - intros h' E. destruct tolerant; cbn [negb] in E; [discriminate|]. assert (h' = h) as -> by congruence. exact H0.
  - intros w Lw. apply (initial_ok _ _ _ _ _ _ I); [apply out_register, Lw|exact B].
Qed.
(** with the Fourier transform at the end *)
Lemma run_qft c psi phi z : hybrid_run x y o qx qy out init true tolerant cl anc h = Some c -> length z = N -> init_ok init anc out psi ->
  (forall w, length w = N -> start init out psi w = dft 1 false true out phi w) ->
  run c psi (store z out (value z out + P z)) = rmul (expi (angle (P z) (S n) + if tolerant then 0 else angle (- mantissa o ((value z out + P z) mod 2 ^ Z.of_nat (size o))) (S n))%Qc) (phi z).
Proof.
  intros H L B ST. unfold hybrid_run in H. destruct ((0 <? msize y) && _) eqn:G; [|discriminate]. apply andb_prop in G as (MY & _). apply Nat.ltb_lt in MY. cbv zeta in H.
  destruct (initial init anc out) as [v|] eqn:I; [|discriminate]. rewrite andb_false_r, andb_true_r in H. cbv iota in H.
  destruct (QFT true out false true 1) as [w|] eqn:W; [|discriminate].
  match type of H with Some ?b = _ => assert (c = b) as -> by congruence end. clear H.
  destruct (layout_parts _ _ _ _ _ _ _ _ _ LA) as (NR & LR & NY & LY & LX & DX & DY & DXY & HH). destruct LA as (SX & SY & SO & _).
  fold k. set (core := hybrid_core (anc :: out) (msize o + 1) x y qx qy k None). rewrite run_app. replace (core ++ [qH anc] ++ w ++ (if negb tolerant then phase_fix o out else [])) with ((core ++ [qH anc]) ++ w ++ (if negb tolerant then phase_fix o out else [])) by (rewrite <- !app_assoc; reflexivity).
  rewrite run_app, (run_app w). set (chi := run (core ++ [qH anc]) (run v psi)).
  assert (Rg : register out z) by (destruct (out_register z L) as [A A']; inversion A; split; [assumption|]; intros q J; apply A'; right; exact J).
  assert (E : run w chi (store z out (value z out + P z)) = rmul (expi (angle (P z) (S n))) (phi z)).
  { apply (final_qft rO rI radd rmul rsub ropp RT expi chalf shalf im EU N out w P (fun z => angle (P z) (S n)) chi phi z W L Rg).
    - intros b. apply P_write.
    - intros b. rewrite P_write. reflexivity.
    - intros b. unfold chi. unfold core. rewrite (sandwich rO rI radd rmul rsub ropp RT expi chalf shalf im EU N anc out (msize o + 1) x y qx qy k None NR LR NY LY SY SX LX DX DY DXY) with (phi := start init out psi).
      + rewrite ST by (rewrite write_length; exact L). apply (f_equal2 rmul); [|reflexivity]. apply f_equal. unfold theta. fold P n. unfold extra. rewrite Z.mul_1_r. reflexivity.
      + intros h' E'. discriminate.
      + exact MY.
      + rewrite SO. unfold size. destruct (signed o); lia.
      + rewrite write_length. exact L.
      + intros h' E'. discriminate.
      + intros u Lu. apply (initial_ok _ _ _ _ _ _ I); [apply out_register, Lu|exact B]. }
  destruct tolerant; cbn [negb].
  - cbn [run_circuit]. rewrite Qcplus_0_r. exact E.
  - rewrite (diag_fix N o out SO) by (rewrite store_length; exact L). rewrite E, value_store by exact Rg. fold n. rewrite e_add. replace (size o) with n by exact SO. ring.
Qed.
End mult.
End ring.
