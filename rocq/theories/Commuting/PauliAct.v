(** Pauli operators p X^xs Z^zs acting on states, and their conjugation by the gates. *)
From Coq Require Import Permutation Ring.
From Verif.Operators Require Import PauliProofs CommuteProofs.
From Verif.Commuting Require Import Gf2Proofs BasisProofs DiagSpec.
Local Open Scope nat_scope.
Add Ring gaussianD : gring.

Definition sg (b : bool) : G := if b then gneg g1 else g1.
Lemma sg_xor a b : sg (xorb a b) = gmul (sg a) (sg b). Proof. destruct a, b; reflexivity. Qed.
Fixpoint shift_from (k : nat) (xs : nat -> bool) (x : list bool) : list bool := match x with [] => [] | b :: x => xorb b (xs k) :: shift_from (S k) xs x end.
Fixpoint dot_from (k : nat) (zs : nat -> bool) (y : list bool) : bool := match y with [] => false | b :: y => xorb (zs k && b) (dot_from (S k) zs y) end.
Notation shift := (shift_from 0).
Notation dot := (dot_from 0).
Definition updf (f : nat -> bool) (q : nat) (b : bool) : nat -> bool := fun j => if j =? q then b else f j.

Lemma shift_length xs : forall x k, length (shift_from k xs x) = length x.
Proof. induction x as [|b x IH]; intros k; cbn; auto. Qed.
Lemma bit_shift xs : forall x k q, q < length x -> bit (shift_from k xs x) q = xorb (bit x q) (xs (k + q)).
Proof.
  induction x as [|b x IH]; intros k q H; cbn in H; [lia|]. destruct q as [|q]; cbn [shift_from].
  - rewrite Nat.add_0_r. reflexivity.
  - replace (k + S q) with (S k + q) by lia. apply IH. lia.
Qed.
Lemma shift_ext xs xs' : forall x k, (forall q, q < length x -> xs (k + q) = xs' (k + q)) -> shift_from k xs x = shift_from k xs' x.
Proof.
  induction x as [|b x IH]; intros k H; cbn; [reflexivity|]. f_equal.
  - specialize (H 0). rewrite Nat.add_0_r in H. rewrite H by (cbn; lia). reflexivity.
  - apply IH. intros q Hq. replace (S k + q) with (k + S q) by lia. apply H. cbn. lia.
Qed.
Lemma dot_ext zs zs' : forall x k, (forall q, q < length x -> zs (k + q) = zs' (k + q)) -> dot_from k zs x = dot_from k zs' x.
Proof.
  induction x as [|b x IH]; intros k H; cbn; [reflexivity|]. f_equal.
  - specialize (H 0). rewrite Nat.add_0_r in H. rewrite H by (cbn; lia). reflexivity.
  - apply IH. intros q Hq. replace (S k + q) with (k + S q) by lia. apply H. cbn. lia.
Qed.
Lemma shift_setb xs : forall x k q b, shift_from k xs (setb x q b) = setb (shift_from k xs x) q (xorb b (xs (k + q))).
Proof.
  induction x as [|c x IH]; intros k q b; [destruct q; reflexivity|]. destruct q as [|q]; cbn [setb shift_from].
  - rewrite Nat.add_0_r. reflexivity.
  - rewrite IH. replace (S k + q) with (k + S q) by lia. reflexivity.
Qed.
Lemma shift_updf xs : forall x k q b, q < length x -> shift_from k (updf xs (k + q) b) x = setb (shift_from k xs x) q (xorb (bit x q) b).
Proof.
  induction x as [|c x IH]; intros k q b H; cbn in H; [lia|]. destruct q as [|q]; cbn [shift_from setb].
  - rewrite Nat.add_0_r. f_equal; [unfold updf; rewrite Nat.eqb_refl; reflexivity|]. apply shift_ext. intros q _. unfold updf. destruct (Nat.eqb_spec (S k + q) k); [lia|reflexivity].
  - f_equal; [unfold updf; destruct (Nat.eqb_spec k (k + S q)); [lia|reflexivity]|]. replace (k + S q) with (S k + q) by lia. apply IH. lia.
Qed.
Lemma dot_setb zs : forall y k q b, q < length y -> dot_from k zs (setb y q b) = xorb (dot_from k zs y) (zs (k + q) && xorb b (bit y q)).
Proof.
  induction y as [|c y IH]; intros k q b H; cbn in H; [lia|]. destruct q as [|q]; cbn [setb dot_from].
  - rewrite Nat.add_0_r. unfold bit. cbn [nth]. destruct (zs k), b, c, (dot_from (S k) zs y); reflexivity.
  - rewrite IH by lia. replace (S k + q) with (k + S q) by lia. unfold bit. cbn [nth]. apply (eq_sym (xorb_assoc _ _ _)).
Qed.
Lemma dot_updf zs : forall y k q b, q < length y -> dot_from k (updf zs (k + q) b) y = xorb (dot_from k zs y) (xorb b (zs (k + q)) && bit y q).
Proof.
  induction y as [|c y IH]; intros k q b H; cbn in H; [lia|]. destruct q as [|q]; cbn [dot_from].
  - rewrite Nat.add_0_r. rewrite (dot_ext _ zs) by (intros q _; unfold updf; destruct (Nat.eqb_spec (S k + q) k); [lia|reflexivity]).
    unfold updf at 1. rewrite Nat.eqb_refl. unfold bit. cbn [nth]. destruct (zs k), b, c, (dot_from (S k) zs y); reflexivity.
  - unfold updf at 1. destruct (Nat.eqb_spec k (k + S q)); [lia|]. replace (k + S q) with (S k + q) by lia. rewrite IH by lia. unfold bit. cbn [nth]. apply (eq_sym (xorb_assoc _ _ _)).
Qed.
Lemma shift_updf0 xs x q b : q < length x -> shift (updf xs q b) x = setb (shift xs x) q (xorb (bit x q) b). Proof. exact (shift_updf xs x 0 q b). Qed.
Lemma shift_setb0 xs x q b : shift xs (setb x q b) = setb (shift xs x) q (xorb b (xs q)). Proof. exact (shift_setb xs x 0 q b). Qed.
Lemma dot_setb0 zs y q b : q < length y -> dot zs (setb y q b) = xorb (dot zs y) (zs q && xorb b (bit y q)). Proof. exact (dot_setb zs y 0 q b). Qed.
Lemma dot_updf0 zs y q b : q < length y -> dot (updf zs q b) y = xorb (dot zs y) (xorb b (zs q) && bit y q). Proof. exact (dot_updf zs y 0 q b). Qed.
Lemma setb_setb : forall x q a b, setb (setb x q a) q b = setb x q b.
Proof. induction x as [|c x IH]; intros [|q] a b; cbn; try reflexivity. rewrite IH. reflexivity. Qed.
Lemma shift_self : forall x k, shift_from k (fun _ => false) x = x.
Proof. induction x as [|b x IH]; intros k; cbn; [reflexivity|]. rewrite IH, xorb_false_r. reflexivity. Qed.

(** ** tableaux *)
Definition tab := (G * (nat -> bool) * (nat -> bool))%type.
Definition act (T : tab) (v : state) : state := fun x => let '(p, xs, zs) := T in gmul (gmul p (sg (dot zs (shift xs x)))) (v (shift xs x)).
Definition tstep (T : tab) (g : gate) : tab :=
  let '(p, xs, zs) := T in
  match g with
  | GH q => (gmul p (sg (xs q && zs q)), updf xs q (zs q), updf zs q (xs q))
  | GS q => (gmul p (if xs q then gi else g1), xs, updf zs q (xorb (zs q) (xs q)))
  | GCZ a b => (gmul p (sg (xs a && xs b)), xs, updf (updf zs a (xorb (zs a) (xs b))) b (xorb (zs b) (xs a)))
  end.
Ltac gcalc := repeat match goal with v : G |- _ => destruct v end; unfold gmul, gadd, gneg, g1, g0, gi; cbn [fst snd]; f_equal; ring.
Lemma step_act n g T v x : gate_ok n g -> length x = n -> run1 g (act T v) x = act (tstep T g) (run1 g v) x.
Proof.
  destruct T as [[p xs] zs]. intros Ok Lx. destruct g as [q|q|a b]; cbn [gate_ok] in Ok; unfold run1, tstep, act.
  - assert (Lq : q < length x) by lia. set (w := shift xs x). assert (Lw : q < length w) by (unfold w; rewrite shift_length; exact Lq).
    assert (Bw : bit w q = xorb (bit x q) (xs q)) by (unfold w; apply (bit_shift xs x 0 q Lq)).
    rewrite !(shift_setb0 xs x q). fold w. rewrite !(dot_setb0 zs w q) by exact Lw.
    rewrite (shift_updf0 xs x q (zs q) Lq). fold w. rewrite (dot_updf0 zs _ q) by (rewrite setb_length; exact Lw). rewrite (dot_setb0 zs w q) by exact Lw.
    rewrite !setb_setb, bit_setb_same by exact Lw. rewrite Bw. destruct (xs q), (zs q), (bit x q), (dot zs w); cbn [xorb andb sg]; ring.
  - assert (Lq : q < length x) by lia. set (w := shift xs x). assert (Lw : q < length w) by (unfold w; rewrite shift_length; exact Lq).
    assert (Bw : bit w q = xorb (bit x q) (xs q)) by (unfold w; apply (bit_shift xs x 0 q Lq)).
    rewrite (dot_updf0 zs w q) by exact Lw. rewrite Bw. generalize (v w) as u. intros u. destruct (xs q), (zs q), (bit x q), (dot zs w); cbn [xorb andb sg]; gcalc.
  - destruct Ok as (Ha & Hb & N). assert (La : a < length x) by lia. assert (Lb : b < length x) by lia. set (w := shift xs x).
    assert (Lwa : a < length w) by (unfold w; rewrite shift_length; exact La). assert (Lwb : b < length w) by (unfold w; rewrite shift_length; exact Lb).
    assert (Ba : bit w a = xorb (bit x a) (xs a)) by (unfold w; apply (bit_shift xs x 0 a La)).
    assert (Bb : bit w b = xorb (bit x b) (xs b)) by (unfold w; apply (bit_shift xs x 0 b Lb)).
    rewrite (dot_updf0 _ w b) by exact Lwb. rewrite (dot_updf0 zs w a) by exact Lwa. unfold updf. destruct (Nat.eqb_spec b a); [congruence|].
    rewrite Ba, Bb. generalize (v w) as u. intros u. destruct (xs a), (xs b), (zs a), (zs b), (bit x a), (bit x b), (dot zs w); cbn [xorb andb sg]; ring.
Qed.
Definition seq_on (n : nat) (v w : state) : Prop := forall x, length x = n -> v x = w x.
Lemma run1_ext n g v w : seq_on n v w -> seq_on n (run1 g v) (run1 g w).
Proof. intros H x Lx. destruct g; cbn [run1]; rewrite ?(H x) by exact Lx; rewrite ?(H (setb x q false)), ?(H (setb x q true)) by (rewrite setb_length; exact Lx); reflexivity. Qed.
Lemma run_ext n gs : forall v w, seq_on n v w -> seq_on n (run gs v) (run gs w).
Proof. induction gs as [|g gs IH]; intros v w H; [exact H|]. apply (IH (run1 g v) (run1 g w)), run1_ext, H. Qed.
Lemma run_act n gs : forall T v, (forall g, In g gs -> gate_ok n g) -> seq_on n (run gs (act T v)) (act (fold_left tstep gs T) (run gs v)).
Proof.
  induction gs as [|g gs IH]; intros T v Ok x Lx; [reflexivity|]. cbn [run fold_left].
  rewrite <- (IH (tstep T g) (run1 g v)) by (auto; intros h Hh; apply Ok; right; exact Hh).
  apply (run_ext n gs); [|exact Lx]. intros y Ly. apply (step_act n); [apply Ok; left; reflexivity|exact Ly].
Qed.
(** equal tableaux on n qubits *)
Definition teq (n : nat) (T T' : tab) : Prop :=
  let '(p, xs, zs) := T in let '(p', xs', zs') := T' in p = p' /\ forall q, q < n -> xs q = xs' q /\ zs q = zs' q.
Lemma act_ext n T T' v : teq n T T' -> seq_on n (act T v) (act T' v).
Proof.
  destruct T as [[p xs] zs], T' as [[p' xs'] zs']. intros [-> H] x Lx. unfold act. rewrite (shift_ext xs xs') by (intros q Hq; apply H; lia).
  rewrite (dot_ext zs zs') by (intros q Hq; rewrite shift_length in Hq; apply H; lia). reflexivity.
Qed.

(** ** terms of Pauli letters *)
Definition iY (F : nat -> factor) (k : nat) : G := if xbit (F k) && zbit (F k) then gi else g1.
Lemma tensor_pauli F m : forall k r c, (forall q, is_pauli (F q) = true) -> length r = m -> length c = m ->
  tensor (map F (seq k m)) r c = if beqs (shift_from k (fun q => xbit (F q)) r) c then gmul (gprod (seq k m) (iY F)) (sg (dot_from k (fun q => zbit (F q)) c)) else g0.
Proof.
  induction m as [|m IH]; intros k [|x r] [|y c] P Lr Lc; try discriminate; [reflexivity|]. cbn in Lr, Lc. cbn [seq map tensor shift_from beqs gprod dot_from]. rewrite IH by (auto; lia).
  rewrite sg_xor. specialize (P k). unfold iY at 2. destruct (F k); try discriminate; cbn [xbit zbit andb]; destruct x, y; cbn [xorb eqb andb mat1 sg]; destruct (beqs _ c); ring.
Qed.
Definition tabof (n : nat) (t : term) : tab := (gprod (seq 0 n) (iY (get t)), fun q => xbit (get t q), fun q => zbit (get t q)).
Lemma bitstrings_strings n : bitstrings n = strings n. Proof. induction n as [|n IH]; cbn; [reflexivity|]. rewrite IH. reflexivity. Qed.
Lemma gsum_ind (l : list (list bool)) x (f : list bool -> G) : NoDup l -> In x l -> gsum l (fun m => if beqs x m then f m else g0) = f x.
Proof.
  induction l as [|y l IH]; intros ND H; [contradiction|]. inversion ND; subst. cbn [gsum]. destruct (beqs x y) eqn:E.
  - apply beqs_eq in E. subst. rewrite (gsum_ext _ _ (fun _ => g0)), gsum_0; [ring|]. intros z Hz. destruct (beqs y z) eqn:E; [apply beqs_eq in E; subst; contradiction|reflexivity].
  - rewrite IH; [ring|assumption|]. destruct H as [<-|H]; [|exact H]. rewrite beqs_refl in E. discriminate.
Qed.
Lemma mapply_term n t v : pauli t -> seq_on n (mapply n (tmat n t) v) (act (tabof n t) v).
Proof.
  intros P x Lx. unfold mapply, tmat, factors, tabof, act.
  rewrite (gsum_ext _ _ (fun y => if beqs (shift (fun q => xbit (get t q)) x) y then gmul (gmul (gprod (seq 0 n) (iY (get t))) (sg (dot (fun q => zbit (get t q)) y))) (v y) else g0)).
  - rewrite gsum_ind; [reflexivity| |]; rewrite bitstrings_strings; [apply strings_NoDup|apply strings_In; rewrite shift_length; exact Lx].
  - intros y Hy. rewrite bitstrings_strings in Hy. apply strings_In in Hy. rewrite tensor_pauli by (auto; lia). destruct (beqs _ y); [reflexivity|]. apply gmul_0_l.
Qed.
