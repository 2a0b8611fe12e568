(** Proofs about linear combinations of unitaries. *)
From Coq Require Import Reals Lra List ZArith Bool Lia QArith Qcanon Ring_theory Ring.
Import ListNotations.
From Verif.Inverse Require Import InvModel InvSpec InvProofs.
From Verif.CtrlOps Require Import CtrlModel CtrlSpec CtrlProofs CtrlComplex.
From Verif.Fourier Require Import FourierModel FourierSpec RegProofs FourierProofs FourierFinal AdderProofs.
From Verif.Qpe Require Import QpeModel QpeSpec QpeProofs QpeMain.
From Verif.Amplify Require Import AmpModel AmpSpec UnitaryProofs RefProofs AmpProofs Conj AmpComplex.
From Verif.Grover Require Import GroverModel GroverSpec TagProofs GroverProofs.
From Verif.Switch Require Import SwitchModel SwitchSpec BitProofs SwitchProofs SwitchFinal.
From Verif.Lcu Require Import LcuModel LcuSpec.
Local Open Scope nat_scope.
Add Ring complex_numbers_l : complex_ring.
Notation cselected := (selected c0 c1 cadd cmul copp cexpi ccos csin ci).
Notation crun_app := (FourierProofs.run_app c0 c1 cadd cmul copp cexpi ccos csin ci).
Notation crun_moved := (QpeProofs.run_moved c0 c1 cadd cmul csub copp complex_ring cexpi ccos csin ci).
Notation crun_ext := (AdderProofs.run_ext c0 c1 cadd cmul copp cexpi ccos csin ci).
Notation cundo := (AdderProofs.undo c0 c1 cadd cmul csub copp complex_ring cexpi ccos csin ci complex_euler).
Notation cbranch := (RefProofs.branch c0 c1 cadd cmul csub copp complex_ring cexpi ccos csin ci).
Notation cbranch_zero := (RefProofs.branch_zero c0 c1 cadd cmul csub copp complex_ring cexpi ccos csin ci).
Notation crun_zero_part := (RefProofs.run_zero_part c0 c1 cadd cmul csub copp complex_ring cexpi ccos csin ci).
Notation cinner_basis := (RefProofs.inner_basis c0 c1 cadd cmul csub copp complex_ring cexpi ccos csin cconj complex_conjugation).
Notation cadjoint := (UnitaryProofs.adjoint c0 c1 cadd cmul csub copp complex_ring cexpi ccos csin ci complex_euler cconj complex_conjugation).
Notation czeroed := (zeroed c0).

Lemma getbit_zeros N q : getbit (repeat false N) q = false.
Proof. unfold getbit. destruct (nth_in_or_default q (repeat false N) false) as [I|E]; [apply repeat_spec in I; exact I|exact E]. Qed.
Lemma read_zeros N qs : read (repeat false N) qs = repeat false (length qs).
Proof. induction qs as [|q qs IH]; [reflexivity|]. cbn [read map length repeat]. rewrite getbit_zeros. f_equal. exact IH. Qed.
Lemma read_zero_on qs x : zero_on qs x = true -> read x qs = repeat false (length qs).
Proof. intros H. pose proof (zero_on_bits qs x) as E. rewrite H in E. apply bits_eqb_true in E. exact E. Qed.
Lemma store_zero_id qs x : NoDup qs -> zero_on qs x = true -> store x qs 0 = x.
Proof. intros ND H. rewrite store_zeros, <- (read_zero_on qs x H). apply write_read, ND. Qed.
Lemma zero_on_false qs x : zero_on qs x = false -> exists q, In q qs /\ getbit x q = true.
Proof. induction qs as [|q qs IH]; [discriminate|]. cbn [zero_on forallb]. destruct (getbit x q) eqn:E; cbn [negb andb]; [intros _; exists q; split; [left; reflexivity|exact E]|]. intros H. destruct (IH H) as (p & I & G). exists p. split; [right; exact I|exact G]. Qed.
Lemma zeroed_zero_part N qs psi : czeroed N qs psi -> forall y, length y = N -> psi y = zero_part c0 qs psi y.
Proof. intros Z y L. unfold zero_part. destruct (zero_on qs y) eqn:E; [reflexivity|]. apply Z; [exact L|apply zero_on_false, E]. Qed.

Section case.
Context (N : nat) (case : list nat) (S : body).
Context (ND : NoDup case) (B : forall q, In q case -> q < N) (WS : within N case S).
Notation s := (prepared N case S).
Let rest := filter (fun q => negb (existsb (Nat.eqb q) case)) (seq 0 N).
Lemma in_rest q : In q rest <-> q < N /\ ~ In q case.
Proof.
  unfold rest. rewrite filter_In, in_seq, negb_true_iff. split.
  - intros [H E]. split; [lia|]. intros I. assert (existsb (Nat.eqb q) case = true) by (apply existsb_exists; exists q; split; [exact I|apply Nat.eqb_refl]). congruence.
  - intros [H NI]. split; [lia|]. destruct (existsb (Nat.eqb q) case) eqn:E; [|reflexivity]. apply existsb_exists in E as (p & I & Q). apply Nat.eqb_eq in Q. subst p. contradiction.
Qed.
Lemma rest_zero y : length y = N -> write y rest (repeat false (length rest)) = write (repeat false N) case (read y case).
Proof.
  intros L. assert (NR : NoDup rest) by (apply NoDup_filter, seq_NoDup).
  assert (Rz : register case (repeat false N)) by (split; [exact ND|rewrite repeat_length; exact B]).
  assert (Ry : register rest y) by (split; [exact NR|intros q I; apply in_rest in I; lia]).
  apply getbit_ext; [rewrite !write_length, repeat_length; exact L|]. intros q Hq. rewrite write_length, L in Hq. destruct (in_dec Nat.eq_dec q case) as [I|NI].
  - rewrite write_other by (intros J; apply in_rest in J; tauto). assert (E := read_write (repeat false N) case (read y case) Rz (read_length _ _)). unfold read in E.
    apply (ext_in_map (l := case)) with (a := q) in E; [symmetry; exact E|exact I].
  - rewrite (write_other (repeat false N)) by exact NI. rewrite getbit_zeros. assert (E := read_write y rest (repeat false (length rest)) Ry (repeat_length _ _)). rewrite <- (read_zeros N rest) in E at 2. unfold read in E.
    apply (ext_in_map (l := rest)) with (a := q) in E; [rewrite E; apply getbit_zeros|apply in_rest; auto].
Qed.
(** the amplitudes do not depend on the other qubits *)
Lemma ket_local z y : length z = N -> length y = N -> zero_on case z = true -> same_off case z y = true -> crun S (cbasis z) y = s (read y case).
Proof.
  intros Lz Ly Zz SO. unfold prepared. rewrite <- rest_zero by exact Ly. set (h := fun w => write w rest (repeat false (length rest))).
  transitivity (crun S (fun w => cbasis (repeat false N) (h w)) y).
  - apply (cbranch N case S); [exact WS|exact Ly|]. intros w Lw Sw. unfold basis, h. rewrite rest_zero by exact Lw. replace (bits_eqb (write (repeat false N) case (read w case)) (repeat false N)) with (bits_eqb w z); [reflexivity|].
    apply eq_true_iff_eq. rewrite !bits_eqb_true. split.
    + intros ->. rewrite (read_zero_on case z Zz), <- (read_zeros N case). apply write_read, ND.
    + intros E. assert (Zw : zero_on case w = true).
      { rewrite <- zero_on_bits. apply bits_eqb_true. fold (read w case). rewrite <- (read_zeros N case), <- E. symmetry. apply read_write; [split; [exact ND|rewrite repeat_length; exact B]|apply read_length]. }
      assert (SZ : same_off case w z = true) by (rewrite same_sym; apply (same_trans case z y w); [exact SO|exact Sw]).
      rewrite (zero_same N case w w ND B Lw Lw (same_off_refl case w) Zw). symmetry. apply (zero_same N case w z ND B Lw Lz SZ Zz).
  - change (write y rest (repeat false (length rest))) with (h y). transitivity (cmul c1 (crun S (cbasis (repeat false N)) (h y))); [|ring].
    apply (crun_moved (fun q => In q case) (fun _ => c1) h) with (N := N).
    + intros w q I. apply write_other. intros J. apply in_rest in J. tauto.
    + intros w q v I. apply write_set. intros J. apply in_rest in J. tauto.
    + reflexivity.
    + apply WS.
    + apply WS.
    + intros w Lw. unfold moved. ring.
Qed.
Lemma prepare psi y : czeroed N case psi -> length y = N -> crun S psi y = cmul (s (read y case)) (psi (store y case 0)).
Proof.
  intros Z L. rewrite (crun_ext N S psi (zero_part c0 case psi) y (proj1 WS) (zeroed_zero_part N case psi Z) L). rewrite (crun_zero_part N case S psi y WS ND B L).
  rewrite (ket_local (store y case 0) y); [ring|unfold store; rewrite write_length; exact L|exact L| |apply store_same].
  rewrite <- zero_on_bits. apply bits_eqb_true. fold (read (store y case 0) case). rewrite store_zeros. apply read_write; [split; [exact ND|rewrite L; exact B]|apply repeat_length].
Qed.
Lemma unprepare v chi x : invert_circuit S = Some v -> length x = N -> zero_on case x = true ->
  crun v chi x = ctotal (all_bits (length case)) (fun b => cmul (cconj (s b)) (chi (write x case b))).
Proof.
  intros Hv L Zx. assert (Rx : register case x) by (split; [exact ND|rewrite L; exact B]).
  rewrite <- (cinner_basis N x (crun v chi) L), (cadjoint N S v (proj1 WS) Hv). unfold inner.
  transitivity (ctotal (all_bits N) (fun y => if same_off case x y then cmul (cconj (s (read y case))) (chi y) else c0)).
  - apply total_ext. intros y I. apply all_bits_length in I. destruct (same_off case x y) eqn:E.
    + rewrite (ket_local x y L I Zx E). reflexivity.
    + rewrite (cbranch_zero N case S (cbasis x) y WS I); [rewrite (UnitaryProofs.cj_0 c0 c1 cadd cmul csub copp complex_ring cexpi ccos csin cconj complex_conjugation); ring|].
      intros w Lw Sw. unfold basis. destruct (bits_eqb w x) eqn:Ew; [|reflexivity]. apply bits_eqb_true in Ew. subst w. rewrite same_sym, E in Sw. discriminate.
  - rewrite (total_branch N case x _ ND B L). apply total_ext. intros b I. apply all_bits_length in I. rewrite read_write by assumption. reflexivity.
Qed.
End case.

Section lcu.
Context (N : nat) (case fresh : list nat) (S : body) (unitary : nat -> option body) (U : nat -> body) (m : nat).
Context (ND : NoDup (case ++ fresh)) (BD : forall q, In q (case ++ fresh) -> q < N) (LF : length fresh = length case) (WS : within N case S).
Context (AM : m <= 2 ^ length case) (BR : forall i, i < m -> unitary i = Some (U i) /\ acts_off N (case ++ fresh) (U i)).
Notation s := (prepared N case S).
Lemma NDc : NoDup case. Proof. apply nodup_l in ND. exact ND. Qed.
Lemma Bc q : In q case -> q < N. Proof. intros I. apply BD, in_or_app; auto. Qed.
Lemma within_off c : within N case c -> acts_off N fresh c.
Proof. intros [W O]. split; [exact W|]. intros o qs q I J K. apply (apart _ _ ND q); [apply (O o qs q I J)|exact K]. Qed.
Lemma zeroed_app qs qs' psi : czeroed N (qs ++ qs') psi -> czeroed N qs psi /\ czeroed N qs' psi.
Proof. intros Z. split; intros x L (q & I & G); (apply Z; [exact L|exists q; split; [apply in_or_app; auto|exact G]]). Qed.
Lemma off_zeroed l c psi : acts_off N l c -> czeroed N l psi -> czeroed N l (crun c psi).
Proof.
  intros A Z x L (q & I & G). apply (keeps_zero c0 c1 cadd cmul csub copp complex_ring cexpi ccos csin ci N l c q psi x A I); [|exact L|exact G].
  apply (zeroed_in c0 N l q psi I Z).
Qed.
Context (sw : body) (HS : q_switch false case fresh None false unitary m = Some sw).
Lemma switch_run psi : czeroed N fresh psi -> czeroed N fresh (crun sw psi) /\ forall x, length x = N -> crun sw psi x = cselected case None m U psi x.
Proof.
  intros Z. apply (switch_effect c0 c1 cadd cmul csub copp complex_ring cexpi ccos csin ci false N case fresh None (called false unitary) U m sw psi LF); cbn [controls]; rewrite ?app_nil_r; try assumption.
  intros i Hi. destruct (BR i Hi) as [E A]. unfold called. rewrite E. auto.
Qed.
Lemma switch_prepared psi y : czeroed N case psi -> czeroed N fresh psi -> length y = N ->
  crun sw (crun S psi) y = cmul (s (read y case)) (let i := Z.to_nat (value y case) in if i <? m then crun (U i) psi (store y case 0) else psi (store y case 0)).
Proof.
  intros Zc Zf L. rewrite (proj2 (switch_run (crun S psi) (off_zeroed fresh S psi (within_off S WS) Zf)) y L). unfold selected. cbv zeta. cbn [enabled andb].
  destruct (Z.to_nat (value y case) <? m) eqn:E; [|apply prepare; [exact NDc|exact Bc|exact WS|exact Zc|exact L]]. apply Nat.ltb_lt in E. destruct (BR _ E) as [_ [W O]].
  apply (crun_moved (fun q => ~ In q case) (fun w => s (read w case)) (fun w => store w case 0)) with (N := N).
  - intros w q NI. apply write_other, NI.
  - intros w q v NI. apply write_set, NI.
  - intros w q v NI. f_equal. unfold read. apply map_ext_in. intros p I. apply getbit_set_other. intros ->. contradiction.
  - exact W.
  - intros o qs q I J K. apply (O o qs q I J), in_or_app. left. exact K.
  - intros w Lw. unfold moved. apply prepare; [exact NDc|exact Bc|exact WS|exact Zc|congruence].
Qed.
Lemma lcu_effect v psi : invert_circuit S = Some v -> czeroed N (case ++ fresh) psi ->
  czeroed N fresh (crun (S ++ sw ++ v) psi) /\ forall x, length x = N -> zero_on case x = true -> crun (S ++ sw ++ v) psi x = combination N case S m U psi x.
Proof.
  intros Hv Z. apply zeroed_app in Z as [Zc Zf]. assert (Wv : within N case v) by (apply (within_inverse N case S v WS); [apply (cundo N S v (proj1 WS) Hv)|exact Hv]). rewrite !crun_app. split.
  - apply off_zeroed; [apply within_off, Wv|]. apply switch_run. apply off_zeroed; [apply within_off, WS|exact Zf].
  - intros x L Zx. assert (Rx : register case x) by (split; [exact NDc|rewrite L; exact Bc]). rewrite (unprepare N case S NDc Bc WS v _ x Hv L Zx). unfold combination. apply total_ext. intros b I. apply all_bits_length in I.
    rewrite switch_prepared; [|exact Zc|exact Zf|rewrite write_length; exact L]. cbv zeta. unfold value. rewrite read_write by assumption.
    replace (store (write x case b) case 0) with x; [ring|]. unfold store. rewrite write_write; [|exact NDc|exact I|apply bits_of_length]. symmetry. apply store_zero_id; [exact NDc|exact Zx].
Qed.
End lcu.
