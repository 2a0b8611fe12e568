(** Grover's algorithm over the complex numbers. *)
From Coq Require Import Reals Lra List ZArith Bool Lia QArith Qcanon Ring_theory Ring.
Import ListNotations.
From Verif.Inverse Require Import InvModel InvSpec InvProofs.
From Verif.CtrlOps Require Import CtrlModel CtrlSpec CtrlProofs CtrlComplex.
From Verif.Fourier Require Import FourierModel FourierSpec RegProofs FourierProofs FourierFinal AdderProofs.
From Verif.Qpe Require Import QpeModel QpeSpec QpeProofs QpeMain.
From Verif.Hybrid Require Import HybridModel HybridSpec HybridFinal.
From Verif.Amplify Require Import AmpModel AmpSpec UnitaryProofs RefProofs AmpProofs Conj AmpComplex.
From Verif.Grover Require Import GroverModel GroverSpec.
Local Open Scope nat_scope.
Add Ring complex_numbers_g : complex_ring.
Notation ctotal := (total c0 cadd).

Lemma h_all_eq a : h_all a = map qH (chosen a None).
Proof. unfold h_all, chosen. rewrite flattened_registers. reflexivity. Qed.
Lemma grover_amplify a oracle k c : grovers_alg a oracle k 1%Qc = Some c -> exists d, amplitude_amplification a (h_all a) oracle k None = Some d /\ c = h_all a ++ d.
Proof.
  unfold grovers_alg, amplitude_amplification, diffuser. destruct k.
  - intros H. injection H as <-. exists []. rewrite app_nil_r. split; reflexivity.
  - destruct (reflection a (Some (h_all a)) 1 None); [|discriminate]. intros H. injection H as <-. eexists. split; reflexivity.
Qed.
Lemma h_within N qs : (forall q, In q qs -> q < N) -> within N qs (map qH qs).
Proof.
  intros B. split.
  - assert (G : forall l, (forall q, In q l -> q < N) -> wf_circuit N (map qH l)).
    { induction l as [|q l IH]; intros Bl; [apply (wf_app_nil N) || (intros i []) || constructor|]. change (map qH (q :: l)) with ([qH q] ++ map qH l). apply FourierFinal.wf_app; [apply FourierFinal.wf_h, Bl; left; reflexivity|apply IH; intros; apply Bl; right; assumption]. }
    apply G, B.
  - intros o l q I Iq. apply in_map_iff in I as (p & E & Ip). injection E as <- <-. destruct Iq as [<-|[]]. exact Ip.
Qed.
(** a sum over the basis states that differ from z in qs only *)
Lemma total_branch N qs z f : NoDup qs -> (forall q, In q qs -> q < N) -> length z = N ->
  ctotal (all_bits N) (fun x => if same_off qs z x then f x else c0) = ctotal (all_bits (length qs)) (fun b => f (write z qs b)).
Proof.
  intros ND B Lz. assert (Rz : register qs z) by (split; [exact ND|rewrite Lz; exact B]).
  transitivity (ctotal (all_bits N) (fun x => ctotal (all_bits (length qs)) (fun b => if bits_eqb x (write z qs b) then f x else c0))).
  - apply total_ext. intros x I. apply all_bits_length in I. rewrite (FourierProofs.total_pick c0 c1 cadd cmul csub copp complex_ring (length qs) (read x qs)).
    + destruct (same_off qs z x) eqn:S.
      * unfold same_off in S. apply bits_eqb_eq in S. assert (E : x = write z qs (read x qs)).
        { rewrite <- (write_write z qs (repeat false (length qs)) (read x qs)), S, write_write, write_read by (rewrite ?repeat_length, ?read_length; auto). reflexivity. }
        rewrite <- E. replace (bits_eqb x x) with true by (symmetry; apply bits_eqb_eq; reflexivity). reflexivity.
      * destruct (bits_eqb x _) eqn:E; [|reflexivity]. apply bits_eqb_eq in E. exfalso. rewrite E in S. unfold same_off in S.
        rewrite write_write in S by (rewrite ?repeat_length, ?read_length; auto). rewrite (proj2 (bits_eqb_eq _ _) eq_refl) in S. discriminate.
    + apply read_length.
    + intros b Lb NE. destruct (bits_eqb x (write z qs b)) eqn:E; [|reflexivity]. apply bits_eqb_eq in E. exfalso. apply NE. rewrite E. symmetry. apply read_write; [exact Rz|exact Lb].
  - rewrite (FourierProofs.total_swap c0 c1 cadd cmul csub copp complex_ring). apply total_ext. intros b I. apply all_bits_length in I.
    rewrite (FourierProofs.total_pick c0 c1 cadd cmul csub copp complex_ring N (write z qs b)).
    + rewrite (proj2 (bits_eqb_eq _ _) eq_refl). reflexivity.
    + rewrite write_length. exact Lz.
    + intros x Lx NE. destruct (bits_eqb x _) eqn:E; [|reflexivity]. apply bits_eqb_eq in E. contradiction.
Qed.
Definition root : R := cos (CtrlComplex.angle q_half / 2).
Lemma root_2 : (root * root = / 2)%R.
Proof.
  pose proof (FourierProofs.rt_2 c0 c1 cadd cmul csub copp complex_ring cexpi ccos csin ci complex_euler) as H. unfold FourierProofs.rt, ccos, cadd, cmul, c1 in H. cbn in H. injection H as H _. fold root in H. lra.
Qed.
Lemma root_pos : (0 < root)%R.
Proof.
  unfold root. replace (CtrlComplex.angle q_half / 2)%R with (PI / 4)%R; [rewrite cos_PI4; apply Rdiv_lt_0_compat; [lra|apply sqrt_lt_R0; lra]|].
  unfold CtrlComplex.angle. cbn. unfold Q2R. cbn. field.
Qed.
Lemma power_re r n : FourierSpec.power c1 cmul (re r) n = re (r ^ n).
Proof. induction n as [|n IH]; [reflexivity|]. cbn [FourierSpec.power pow]. rewrite IH, re_mul. reflexivity. Qed.
Lemma root_pow n : (root ^ n * root ^ n = / INR (2 ^ n))%R.
Proof.
  induction n as [|n IH]; [cbn; field|]. cbn [pow Nat.pow]. rewrite mult_INR. replace (root * root ^ n * (root * root ^ n))%R with ((root * root) * (root ^ n * root ^ n))%R by ring.
  rewrite IH, root_2. rewrite Rinv_mult. reflexivity.
Qed.
(** the superposition that h_all prepares *)
Lemma uniform N qs z x : NoDup qs -> (forall q, In q qs -> q < N) -> length z = N -> zero_on qs z = true -> length x = N ->
  crun (map qH qs) (cbasis z) x = if same_off qs z x then re (root ^ length qs) else c0.
Proof.
  intros ND B Lz Zz Lx. rewrite (HybridFinal.run_hs c0 c1 cadd cmul csub copp complex_ring cexpi ccos csin ci complex_euler).
  - change (FourierProofs.rt ccos) with (re root). rewrite power_re. unfold basis, zeros. rewrite same_sym. unfold same_off.
    assert (Ez : write z qs (repeat false (length qs)) = z).
    { transitivity (write z qs (read z qs)); [|apply write_read, ND]. f_equal. rewrite zero_on_true in Zz. clear - Zz. unfold read. induction qs as [|q qs IH]; [reflexivity|]. cbn [length repeat map]. rewrite (Zz q (or_introl eq_refl)), IH by (intros; apply Zz; right; assumption). reflexivity. }
    rewrite Ez. destruct (bits_eqb _ z); ring.
  - split; [exact ND|rewrite Lx; exact B].
  - intros y q I G. unfold basis. destruct (bits_eqb y z) eqn:E; [|reflexivity]. apply bits_eqb_eq in E. subst y. rewrite zero_on_true in Zz. rewrite Zz in G by exact I. discriminate.
Qed.
Lemma total_count {A} (l : list A) (f : A -> bool) (c : R) : ctotal l (fun b => if f b then re c else c0) = re (INR (length (filter f l)) * c).
Proof.
  induction l as [|b l IH]; cbn [total fold_right filter length]; [unfold re, c0; cbn; f_equal; ring|]. unfold total in IH. rewrite IH. destruct (f b); [|ring].
  cbn [length]. rewrite S_INR, <- re_add. f_equal. ring.
Qed.
Section grover.
Context (N : nat) (a : list qarg) (oracle : body) (w : list bool -> bool) (z : list bool).
Let qs := chosen a None.
Let m := length qs.
Context (NE : a <> []) (ND : NoDup qs) (B : forall q, In q qs -> q < N) (Wo : within N qs oracle).
Context (OR : forall psi x, length x = N -> crun oracle psi x = if w x then copp (psi x) else psi x).
Context (Lz : length z = N) (Zz : zero_on qs z = true).
Let u := h_all a.
Let Psi := crun u (cbasis z).
Definition good_part (x : list bool) : cplx := if w x then Psi x else c0.
Definition bad_part (x : list bool) : cplx := if w x then c0 else Psi x.
Lemma u_within : within N qs u. Proof. unfold u. rewrite h_all_eq. apply h_within, B. Qed.
Lemma parts_tag : ctags N oracle Psi good_part bad_part.
Proof.
  intros x L. rewrite !OR by exact L. unfold good_part, bad_part. destruct (w x); repeat split; ring.
Qed.
Lemma Psi_val x : length x = N -> Psi x = if same_off qs z x then re (root ^ m) else c0.
Proof. intros L. unfold Psi, u. rewrite h_all_eq. apply uniform with (N := N); assumption. Qed.
Lemma share_val : cinner N good_part good_part = re (INR (winners w z qs) * / INR (2 ^ m)).
Proof.
  unfold inner. transitivity (ctotal (all_bits N) (fun x => if same_off qs z x then (if w x then re (/ INR (2 ^ m)) else c0) else c0)).
  - apply total_ext. intros x I. apply all_bits_length in I. unfold good_part. rewrite Psi_val by exact I. destruct (w x), (same_off qs z x); try (unfold c0, cmul, cconj, re; cbn; f_equal; ring).
    rewrite conj_re, <- re_mul, root_pow. reflexivity.
  - rewrite total_branch by assumption. apply total_count.
Qed.
Context (k : nat) (c : body) (H : grovers_alg a oracle k 1%Qc = Some c) (theta : R) (HT : (sin theta * sin theta = INR (winners w z qs) / INR (2 ^ m))%R).
Lemma grover_state : exists s al be, (s = 1 \/ s = -1)%R /\ (sin theta * al = sin (INR (2 * k + 1) * theta))%R /\ (cos theta * be = cos (INR (2 * k + 1) * theta))%R /\
  forall x, length x = N -> crun c (cbasis z) x = cadd (cmul (re (s * al)) (good_part x)) (cmul (re (s * be)) (bad_part x)).
Proof.
  destruct (grover_amplify a oracle k c H) as (d & HA & ->). unfold amplitude_amplification in HA. destruct k as [|k'].
  - injection HA as <-. exists 1%R, 1%R, 1%R. cbn [Nat.mul Nat.add INR]. rewrite !Rmult_1_l, !Rmult_1_r. split; [left; reflexivity|]. split; [reflexivity|]. split; [reflexivity|]. intros x L. rewrite app_nil_r.
    fold u. fold Psi. rewrite (proj1 (parts_tag x L)). change (re 1) with c1. ring.
  - destruct (reflection a (Some (h_all a)) 1%Qc None) as [r|] eqn:HR; [|discriminate]. clear H. remember (S k') as j eqn:Ej. assert (Hd : d = concat (repeat (oracle ++ r) j)) by congruence. subst d. clear HA Ej. fold u in HR.
    assert (SH : cinner N good_part good_part = re (sin theta * sin theta)) by (rewrite share_val, HT; reflexivity).
    set (sg := (if Nat.odd (length (first_entry a)) then 1 else -1)%R).
    assert (G : forall j, exists al be, (sin theta * al = sin (INR (2 * j + 1) * theta))%R /\ (cos theta * be = cos (INR (2 * j + 1) * theta))%R /\
      forall x, length x = N -> crun (concat (repeat (oracle ++ r) j)) Psi x = cadd (cmul (re (sg ^ j * al)) (good_part x)) (cmul (re (sg ^ j * be)) (bad_part x))).
    { clear j. induction j as [|j (al & be & HA & HB & E)].
      - exists 1%R, 1%R. cbn [Nat.mul Nat.add INR repeat concat pow]. rewrite !Rmult_1_l, !Rmult_1_r. split; [reflexivity|]. split; [reflexivity|]. intros x L. rewrite re_1. unfold run_circuit. cbn [fold_left].
        rewrite (proj1 (parts_tag x L)). ring.
      - exists (cos (2 * theta) * al + 2 * (cos theta * cos theta) * be)%R, (cos (2 * theta) * be - 2 * (sin theta * sin theta) * al)%R. split; [|split].
        3: { intros x L. rewrite repeat_end, (FourierProofs.run_app c0 c1 cadd cmul copp cexpi ccos csin ci).
             rewrite (step_c N a u oracle r z HR NE ND B u_within Wo Lz Zz good_part bad_part parts_tag theta SH (sg ^ j * al) (sg ^ j * be) _ x L E). cbn [pow]. fold sg. f_equal; f_equal; f_equal; ring. }
        + replace (INR (2 * S j + 1) * theta)%R with (INR (2 * j + 1) * theta + 2 * theta)%R by (rewrite !plus_INR, !mult_INR, (S_INR j); cbn [INR]; ring).
          rewrite sin_plus, sin_2a, <- HA, <- HB. ring.
        + replace (INR (2 * S j + 1) * theta)%R with (INR (2 * j + 1) * theta + 2 * theta)%R by (rewrite !plus_INR, !mult_INR, (S_INR j); cbn [INR]; ring).
          rewrite cos_plus, sin_2a, <- HA, <- HB. ring. }
    destruct (G j) as (al & be & HA & HB & E). exists (sg ^ j)%R, al, be. split; [|split; [exact HA|split; [exact HB|]]].
    + unfold sg. destruct (Nat.odd _); [left; apply pow1|]. clear. induction j as [|j [E|E]]; [left; reflexivity|right|left]; cbn [pow]; rewrite E; ring.
    + intros x L. rewrite (FourierProofs.run_app c0 c1 cadd cmul copp cexpi ccos csin ci). apply E, L.
Qed.
End grover.
