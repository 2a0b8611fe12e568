(** tag_state. *)
From Coq Require Import List ZArith Bool Lia QArith Qcanon Ring_theory Ring Reals.
Import ListNotations.
From Verif.Inverse Require Import InvModel InvSpec InvProofs.
From Verif.CtrlOps Require Import CtrlModel CtrlSpec CtrlProofs.
From Verif.Fourier Require Import FourierModel FourierSpec RegProofs FourierProofs FourierFinal AdderProofs.
From Verif.Qpe Require Import QpeModel QpeSpec QpeProofs QpeMain.
From Verif.Amplify Require Import AmpModel AmpSpec RefProofs.
From Verif.Grover Require Import GroverModel GroverSpec.
Local Open Scope nat_scope.

Lemma read_app x a b : read x (a ++ b) = read x a ++ read x b. Proof. apply map_app. Qed.
Lemma bits_eqb_app : forall a b c d, length a = length c -> bits_eqb (a ++ b) (c ++ d) = (bits_eqb a c && bits_eqb b d)%bool.
Proof. induction a as [|p a IH]; destruct c as [|q c]; cbn; intros; try discriminate; [reflexivity|]. rewrite IH by lia. rewrite andb_assoc. reflexivity. Qed.
Lemma bin_bits n bits : (0 <= n < 2 ^ Z.of_nat bits)%Z -> bits <> 0 -> bin_rep_reversed n bits = Some (bits_of bits n).
Proof.
  intros H NZ. unfold bin_rep_reversed. destruct (Z.ltb_spec n 0); [lia|]. destruct (Z.leb_spec (2 ^ Z.of_nat bits) n); [lia|]. cbn [orb]. destruct bits; [lia|reflexivity].
Qed.
Lemma tag_bits_fit reg t : fits (reg, t) -> exists b, tag_bits reg t = Some b /\ length b = length reg /\ forall x, read x reg = b <-> holds x (reg, t).
Proof.
  unfold fits, holds, tag_bits, value. cbn [fst snd]. destruct t as [n|s].
  - intros [H NE]. exists (bits_of (length reg) n). split; [apply bin_bits; [exact H|destruct reg; [congruence|discriminate]]|]. split; [apply bits_of_length|]. intros x. split.
    + intros E. rewrite E, number_bits. apply Z.mod_small, H.
    + intros E. subst n. rewrite <- (read_length x reg). symmetry. apply bits_number.
  - intros H. exists (rev s). split; [reflexivity|]. split; [rewrite rev_length; exact H|]. intros x. split; intros E; [rewrite E; apply rev_involutive|rewrite <- E; symmetry; apply rev_involutive].
Qed.
Lemma tag_string_fit : forall d, (forall e, In e d -> fits e) -> exists s, tag_string d = Some s /\ length s = length (concat (map fst d)) /\ forall x, read x (concat (map fst d)) = s <-> tagged d x.
Proof.
  induction d as [|[reg t] d IH]; intros F.
  - exists []. split; [reflexivity|]. split; [reflexivity|]. intros x. split; [intros _ e []|reflexivity].
  - destruct (tag_bits_fit reg t (F _ (or_introl eq_refl))) as (b & Eb & Lb & Hb). destruct IH as (s & Es & Ls & Hs); [intros e I; apply F; right; exact I|].
    exists (b ++ s). cbn [tag_string map fst concat]. rewrite Eb, Es. split; [reflexivity|]. split; [rewrite !app_length; lia|]. intros x. rewrite read_app. split.
    + intros E.
      assert (E1' : read x reg = b).
      { apply (f_equal (firstn (length reg))) in E. rewrite !firstn_app, read_length, Lb, Nat.sub_diag in E. cbn [firstn] in E. rewrite !app_nil_r in E. rewrite <- Lb, firstn_all, Lb in E. rewrite <- (read_length x reg) in E at 1. rewrite firstn_all in E. exact E. }
      rewrite E1' in E. apply app_inv_head in E. intros e [<-|I]; [apply Hb, E1'|apply Hs; assumption].
    + intros T. f_equal; [apply Hb, T; left; reflexivity|apply Hs; intros e I; apply T; right; exact I].
Qed.

Lemma within_1 N qs (o : qop) l : well_formed o -> NoDup l -> length l = arity o -> (forall q, In q l -> q < N) -> (forall q, In q l -> In q qs) -> within N qs [(o, l)].
Proof. intros W ND L B I. split; [apply wf_1; assumption|]. intros o' l' q [E|[]] J. injection E as <- <-. apply I, J. Qed.
Lemma within_app' N qs c d : within N qs c -> within N qs d -> within N qs (c ++ d).
Proof. intros [W1 H1] [W2 H2]. split; [apply FourierFinal.wf_app; assumption|]. intros o l q I J. apply in_app_or in I as [I|I]; [apply (H1 o l q I J)|apply (H2 o l q I J)]. Qed.
Lemma tag_within N d phase c : tag_state d phase = Some c -> NoDup (concat (map fst d)) -> (forall q, In q (concat (map fst d)) -> q < N) -> within N (concat (map fst d)) c.
Proof.
  intros H ND B. unfold tag_state in H. destruct (tag_string d) as [s|]; [|discriminate]. destruct (rev s) as [|b t]; [discriminate|]. destruct (split_last _) as [[front last]|] eqn:E; [|discriminate]. apply split_last_eq in E. rewrite E in *.
  destruct (tag_gate front last (rev t) phase) as [g|] eqn:G; [|discriminate]. injection H as <-. assert (IL : In last (front ++ [last])) by (apply in_or_app; right; left; reflexivity).
  assert (X : within N (front ++ [last]) (if b then [] else [qX last])).
  { destruct b; [split; [constructor|intros o l q []]|]. apply within_1; [constructor|repeat constructor; intros []|reflexivity|intros q [<-|[]]; apply B, IL|intros q [<-|[]]; exact IL]. }
  apply within_app'; [exact X|]. apply within_app'; [|exact X]. clear X.
  assert (W1 : forall o : qop, well_formed o -> arity o = 1 -> within N (front ++ [last]) [(o, [last])]) by (intros o W A; apply within_1; [exact W|repeat constructor; intros []|rewrite A; reflexivity|intros q [<-|[]]; apply B, IL|intros q [<-|[]]; exact IL]).
  assert (W2 : forall o : qop, well_formed o -> arity o = 1 -> length (rev t) = length front -> within N (front ++ [last]) [(Ctrl (rev t) o, front ++ [last])]).
  { intros o W A L. apply within_1; [apply wf_ctrl, W|exact ND|cbn [arity]; rewrite A, app_length, L; reflexivity|exact B|auto]. }
  unfold tag_gate in G. destruct (Qc_eq_bool phase 1).
  - destruct front as [|f fr]; [injection G as <-; apply W1; [constructor|reflexivity]|]. destruct (_ =? _) eqn:L; [|discriminate]. injection G as <-. apply Nat.eqb_eq in L. apply (W2 (Pauli PZ)); [constructor|reflexivity|exact L].
  - destruct (_ =? _) eqn:L; [|discriminate]. apply Nat.eqb_eq in L. destruct front as [|f fr]; [injection G as <-; apply W1; [constructor|reflexivity]|]. injection G as <-. apply (W2 (gP phase)); [constructor|reflexivity|exact L].
Qed.

Section ring.
Context {R : Type} (rO rI : R) (radd rmul rsub : R -> R -> R) (ropp : R -> R).
Context (RT : ring_theory rO rI radd rmul rsub ropp eq).
Context (expi chalf shalf : Qc -> R) (im : R) (EU : euler rO rI radd rmul ropp expi chalf shalf im).
Add Ring tag_numbers : RT.
Notation run := (run_circuit Qcplus rO rI radd rmul ropp expi chalf shalf im).
Notation effect := (InvSpec.effect Qcplus rO rI radd rmul ropp expi chalf shalf im).
Notation run_cons := (FourierProofs.run_cons rO rI radd rmul ropp expi chalf shalf im).
Notation run_app := (FourierProofs.run_app rO rI radd rmul ropp expi chalf shalf im).
Notation run_p := (FourierProofs.run_p rO rI radd rmul rsub ropp RT expi chalf shalf im EU).
Notation run_x := (RefProofs.run_x rO rI radd rmul rsub ropp RT expi chalf shalf im).
Notation run_z := (RefProofs.run_z rO rI radd rmul rsub ropp RT expi chalf shalf im).
Notation e_1 := (CtrlProofs.e_1 rO rI radd rmul ropp expi chalf shalf im EU).
Notation e_0 := (CtrlProofs.e_0 rO rI radd rmul ropp expi chalf shalf im EU).
Lemma ctrl_any ctrl o front last psi x : length ctrl = length front -> effect (Ctrl ctrl o) (front ++ [last]) psi x = if bits_eqb (read x front) ctrl then effect o [last] psi x else psi x.
Proof.
  intros L. cbn [InvSpec.effect]. rewrite L, firstn_app, Nat.sub_diag, firstn_all, app_nil_r, skipn_app, Nat.sub_diag, skipn_all. reflexivity.
Qed.
Lemma run_tag_gate front last ctrl phase c psi x : tag_gate front last ctrl phase = Some c -> length ctrl = length front ->
  run c psi x = if (bits_eqb (read x front) ctrl && getbit x last)%bool then rmul (expi phase) (psi x) else psi x.
Proof.
  intros H L. unfold tag_gate in H. apply Nat.eqb_eq in L as L'. rewrite L' in H. destruct (Qc_eq_bool phase 1) eqn:EP.
  - apply Qc_eq_bool_correct in EP. subst phase. rewrite e_1. destruct front as [|f fr].
    + injection H as <-. destruct ctrl; [|discriminate]. cbn [read map bits_eqb andb]. unfold run_circuit. cbn [fold_left]. rewrite run_z. destruct (getbit x last); ring.
    + injection H as <-. unfold run_circuit. cbn [fold_left]. change (f :: fr ++ [last]) with ((f :: fr) ++ [last]). rewrite ctrl_any by exact L. rewrite run_z.
      destruct (bits_eqb _ _), (getbit x last); cbn [andb]; ring.
  - assert (P : forall b, rmul (expi (phase * b2q b)%Qc) (psi x) = if b then rmul (expi phase) (psi x) else psi x).
    { intros []; cbn [b2q]; [rewrite Qcmult_1_r; reflexivity|rewrite Qcmult_0_r, e_0; ring]. }
    destruct front as [|f fr].
    + injection H as <-. destruct ctrl; [|discriminate]. cbn [read map bits_eqb andb]. unfold run_circuit, qP. cbn [fold_left]. rewrite run_p. apply P.
    + injection H as <-. unfold run_circuit. cbn [fold_left]. change (f :: fr ++ [last]) with ((f :: fr) ++ [last]). rewrite ctrl_any by exact L. rewrite run_p, P.
      destruct (bits_eqb _ _), (getbit x last); reflexivity.
Qed.
Lemma run_tag d phase c s psi x : tag_state d phase = Some c -> tag_string d = Some s -> length s = length (concat (map fst d)) -> register (concat (map fst d)) x ->
  run c psi x = if bits_eqb (read x (concat (map fst d))) s then rmul (expi phase) (psi x) else psi x.
Proof.
  intros H Es Ls Rg. unfold tag_state in H. rewrite Es in H. destruct (rev s) as [|b t] eqn:Er; [discriminate|]. destruct (split_last _) as [[front last]|] eqn:Esp; [|discriminate].
  apply split_last_eq in Esp. rewrite Esp in *. assert (E : s = rev t ++ [b]) by (rewrite <- (rev_involutive s), Er; reflexivity). subst s. rewrite !app_length in Ls. cbn [length] in Ls.
  assert (Lt : length (rev t) = length front) by lia. destruct (tag_gate front last (rev t) phase) as [g|] eqn:Eg; [|discriminate].
  assert (NI : ~ In last front) by (destruct Rg as [ND _]; apply NoDup_remove_2 in ND; rewrite app_nil_r in ND; exact ND). assert (Hl : last < length x) by (apply Rg, in_or_app; right; left; reflexivity).
  assert (RS : forall v, read (setbit x last v) front = read x front).
  { intros v. unfold read. apply map_ext_in. intros q I. apply getbit_set_other. intros ->. contradiction. }
  rewrite read_app, bits_eqb_app by (rewrite read_length; lia). cbn [read map bits_eqb]. rewrite andb_true_r. destruct b.
  - cbn [app] in H. rewrite app_nil_r in H. injection H as <-. rewrite (run_tag_gate _ _ _ _ _ _ _ Eg Lt). destruct (bits_eqb _ _), (getbit x last); reflexivity.
  - injection H as <-. change (map (getbit x) front) with (read x front). unfold qX. rewrite run_cons, run_app. rewrite run_cons. unfold run_circuit at 1. cbn [fold_left]. rewrite run_x.
    rewrite (run_tag_gate _ _ _ _ _ _ _ Eg Lt), RS, getbit_set_same by exact Hl. rewrite run_x, setbit_twice, getbit_set_same, negb_involutive, setbit_get by exact Hl.
    destruct (bits_eqb _ _), (getbit x last); reflexivity.
Qed.
End ring.
