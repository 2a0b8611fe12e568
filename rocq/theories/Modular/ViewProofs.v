(** Parts of a register as parts of a number. *)
From Coq Require Import List ZArith Bool Arith Lia.
Import ListNotations.
From Verif.Inverse Require Import InvSpec InvProofs.
From Verif.CtrlOps Require Import CtrlSpec CtrlProofs.
From Verif.Fourier Require Import FourierSpec RegProofs.
From Verif.Modular Require Import ModModel.
Local Open Scope Z_scope.

Notation two n := (2 ^ Z.of_nat n).
Lemma two_pos n : 0 < two n. Proof. apply Z.pow_pos_nonneg; lia. Qed.
Lemma two_add a b : two (a + b) = two a * two b. Proof. rewrite Nat2Z.inj_add, Z.pow_add_r; lia. Qed.
Lemma two_S a : two (S a) = 2 * two a. Proof. rewrite Nat2Z.inj_succ, Z.pow_succ_r; lia. Qed.

Lemma store_length x qs z : length (store x qs z) = length x. Proof. apply write_length. Qed.
Lemma store_other x qs z p : ~ In p qs -> getbit (store x qs z) p = getbit x p. Proof. apply write_other. Qed.
Lemma value_range x qs : 0 <= value x qs < two (length qs).
Proof. unfold value. rewrite <- (read_length x qs). apply number_range. Qed.
Lemma value_store x qs z : register qs x -> value (store x qs z) qs = z mod two (length qs).
Proof. intros R. unfold value, store. rewrite read_write by (auto; apply bits_of_length). apply number_bits. Qed.
Lemma value_store_off x qs z ps : (forall p, In p ps -> ~ In p qs) -> value (store x qs z) ps = value x ps.
Proof. intros H. unfold value, store. rewrite read_write_off by exact H. reflexivity. Qed.
Lemma store_store x qs a b : NoDup qs -> store (store x qs a) qs b = store x qs b.
Proof. intros H. unfold store. apply write_write; auto; apply bits_of_length. Qed.
Lemma store_value x qs : NoDup qs -> store x qs (value x qs) = x.
Proof.
  intros H. unfold store, value. rewrite <- (read_length x qs), bits_number. apply write_read, H.
Qed.
Lemma store_mod x qs z : store x qs (z mod two (length qs)) = store x qs z.
Proof. unfold store. rewrite bits_mod. reflexivity. Qed.
Lemma store_same_value x qs z : NoDup qs -> z mod two (length qs) = value x qs -> store x qs z = x.
Proof. intros H E. rewrite <- store_mod, E. apply store_value, H. Qed.
(** two states are equal if the register agrees and everything else does *)
Lemma store_ext x qs z y : register qs x -> length y = length x -> value y qs = z mod two (length qs) ->
  (forall p, ~ In p qs -> getbit y p = getbit x p) -> store x qs z = y.
Proof.
  intros R L V O. unfold store. apply write_ext; auto; [apply bits_of_length|].
  apply number_inj; [rewrite read_length, bits_of_length; reflexivity|]. rewrite number_bits. exact V.
Qed.
Lemma store_comm x ps qs a b : register ps x -> register qs x -> (forall p, In p ps -> ~ In p qs) -> store (store x ps a) qs b = store (store x qs b) ps a.
Proof.
  intros P Q D. apply store_ext; [apply (register_length qs x); auto; rewrite store_length; auto|rewrite !store_length; reflexivity| |].
  - rewrite value_store_off by (intros q Iq Ip; apply (D q); auto). apply value_store, Q.
  - intros p H. destruct (in_dec Nat.eq_dec p ps) as [I|I].
    + assert (E : read (store (store x qs b) ps a) ps = read (store x ps a) ps).
      { unfold store. rewrite (read_write x) by (auto; apply bits_of_length). apply read_write; [|apply bits_of_length]. apply (register_length ps x); auto. rewrite write_length; auto. }
      unfold read in E. clear - E I. induction ps as [|c ps IH]; [destruct I|]. cbn [map] in E. injection E as E1 E2.
      assert (G : forall l (f g : nat -> bool), map f l = map g l -> forall z, In z l -> f z = g z).
      { induction l as [|d l IHl]; cbn; [tauto|]. intros f g E z [<-|Iz]; injection E; auto; intros; eapply IHl; eauto. }
      destruct I as [<-|I]; [exact E1|]. exact (G ps _ _ E2 p I).
    + rewrite !store_other by auto. reflexivity.
Qed.
Lemma value_app x a b : value x (a ++ b) = value x a + two (length a) * value x b.
Proof. unfold value, read. rewrite map_app, number_app, map_length. reflexivity. Qed.
Lemma value_nil x : value x [] = 0. Proof. reflexivity. Qed.
Lemma value_cons x q qs : value x (q :: qs) = (if getbit x q then 1 else 0) + 2 * value x qs. Proof. reflexivity. Qed.
Lemma value_one x q : value x [q] = if getbit x q then 1 else 0. Proof. rewrite value_cons, value_nil. lia. Qed.

Lemma nodup_l {A} (a b : list A) : NoDup (a ++ b) -> NoDup a.
Proof. induction a as [|c a IH]; cbn; intros H; constructor; inversion H; subst; [|auto]. intros I. apply H2, in_or_app. auto. Qed.
Lemma nodup_r {A} (a b : list A) : NoDup (a ++ b) -> NoDup b.
Proof. induction a as [|c a IH]; cbn; intros H; auto. inversion H; auto. Qed.
Lemma register_app a b x : register (a ++ b) x -> register a x /\ register b x /\ (forall q, In q a -> ~ In q b).
Proof.
  intros [N F]. split; [|split].
  - split; [exact (nodup_l _ _ N)|]. intros; apply F, in_or_app; auto.
  - split; [exact (nodup_r _ _ N)|]. intros; apply F, in_or_app; auto.
  - intros q Ia Ib. induction a as [|c a IH]; [destruct Ia|]. cbn in N. inversion N as [|? ? H1 H2]; subst. destruct Ia as [->|Ia].
    + apply H1, in_or_app; auto.
    + apply IH; auto. intros; apply F; right; auto.
Qed.
Lemma app_register a b x : register a x -> register b x -> (forall q, In q a -> ~ In q b) -> register (a ++ b) x.
Proof.
  intros [N F] [N' F'] D. split; [|intros q I; apply in_app_or in I; destruct I; auto].
  clear F F'. induction a as [|c a IH]; cbn; auto. inversion N; subst. constructor.
  - intros I. apply in_app_or in I. destruct I as [I|I]; [auto|]. apply (D c); [left|]; auto.
  - apply IH; auto. intros q I. apply D. right. exact I.
Qed.

Lemma mixed_range a r h A B C : 0 <= a < A -> 0 <= r < B -> 0 <= h < C -> 0 <= a + A * r + A * B * h < A * (B * C).
Proof.
  intros Ha Hr Hh. assert (A * r <= A * (B - 1)) by (apply Z.mul_le_mono_nonneg_l; lia).
  assert (A * B * h <= A * B * (C - 1)) by (apply Z.mul_le_mono_nonneg_l; [apply Z.mul_nonneg_nonneg|]; lia).
  assert (0 <= A * B * h) by (repeat apply Z.mul_nonneg_nonneg; lia). assert (0 <= A * r) by (apply Z.mul_nonneg_nonneg; lia). lia.
Qed.
(** writing the middle of a register *)
Lemma store_part x lo mid hi z : register (lo ++ mid ++ hi) x ->
  store x mid z = store x (lo ++ mid ++ hi) (value x lo + two (length lo) * (z mod two (length mid)) + two (length lo + length mid) * value x hi).
Proof.
  intros R. symmetry. destruct (register_app _ _ _ R) as (Rl & Rmh & D1). destruct (register_app _ _ _ Rmh) as (Rm & Rh & D2).
  apply store_ext; [exact R|apply store_length| |].
  - rewrite !value_app, (value_store_off x mid z lo), (value_store_off x mid z hi), value_store; auto.
    + rewrite !app_length, (Z.mod_small (_ + _ + _)); [rewrite two_add; ring|].
      pose proof (value_range x lo). pose proof (value_range x hi). pose proof (Z.mod_pos_bound z _ (two_pos (length mid))).
      rewrite !two_add in *. pose proof (two_pos (length lo)). pose proof (two_pos (length mid)). pose proof (two_pos (length hi)).
      apply mixed_range; auto.
    + intros p I J. apply (D2 p); auto.
    + intros p I J. apply (D1 p); auto. apply in_or_app; auto.
  - intros p H. apply store_other. intros I. apply H, in_or_app. right. apply in_or_app. auto.
Qed.
Lemma split_value w lo mid hi x : register (lo ++ mid ++ hi) x -> 0 <= w < two (length (lo ++ mid ++ hi)) ->
  value (store x (lo ++ mid ++ hi) w) lo = w mod two (length lo) /\
  value (store x (lo ++ mid ++ hi) w) mid = w / two (length lo) mod two (length mid) /\
  value (store x (lo ++ mid ++ hi) w) hi = w / two (length lo + length mid).
Proof.
  intros R W. assert (V := value_store x _ w R). rewrite Z.mod_small in V by exact W.
  set (y := store x _ w) in *. rewrite !value_app in V. rewrite two_add.
  pose proof (value_range y lo). pose proof (value_range y mid). pose proof (two_pos (length lo)). pose proof (two_pos (length mid)).
  assert (E1 : w / two (length lo) = value y mid + two (length mid) * value y hi) by (symmetry; apply (Z.div_unique w _ _ (value y lo)); [left; auto|rewrite <- V; ring]).
  split; [|split].
  - apply (Z.mod_unique w _ (value y mid + two (length mid) * value y hi)); [left; auto|rewrite <- V; ring].
  - rewrite E1. apply (Z.mod_unique _ _ (value y hi)); [left; auto|ring].
  - rewrite <- Z.div_div by lia. rewrite E1. apply (Z.div_unique _ _ _ (value y mid)); [left; auto|ring].
Qed.
Lemma bit_store x qs w j : register qs x -> (j < length qs)%nat -> getbit (store x qs w) (nth j qs 0%nat) = Z.testbit w (Z.of_nat j).
Proof.
  intros R J. assert (E : read (store x qs w) qs = bits_of (length qs) w) by (apply read_write; [exact R|apply bits_of_length]).
  apply (f_equal (fun l => nth j l (getbit (store x qs w) 0%nat))) in E. unfold read in E. rewrite map_nth in E. rewrite E. unfold bits_of.
  rewrite (nth_indep _ _ (Z.testbit w (Z.of_nat 0))) by (rewrite map_length, seq_length; exact J).
  rewrite (map_nth (fun i => Z.testbit w (Z.of_nat i))), seq_nth by exact J. reflexivity.
Qed.

Lemma execute_app p q x : execute (p ++ q) x = execute q (execute p x).
Proof. apply fold_left_app. Qed.
Lemma execute_cons s p x : execute (s :: p) x = execute p (perform x s).
Proof. reflexivity. Qed.
Lemma perform_length x s : length (perform x s) = length x.
Proof. destruct s; cbn; try destruct (forallb _ _); rewrite ?store_length, ?setbit_length; reflexivity. Qed.
Lemma execute_length : forall p x, length (execute p x) = length x.
Proof. induction p as [|s p IH]; intros x; [reflexivity|]. rewrite execute_cons, IH. apply perform_length. Qed.

(** steps that [inverted] undoes *)
Definition valid_step (L : nat) (s : step) : Prop :=
  match s with
  | Add c a t | Sub c a t => NoDup t /\ (forall q, In q t -> (q < L)%nat) /\ (forall q, In q t -> ~ In q c /\ match a with Cl _ => True | Qu qs => ~ In q qs end)
  | Swp c a b => a <> b /\ (a < L)%nat /\ (b < L)%nat /\ ~ In a c /\ ~ In b c
  | Cx a b => a <> b /\ (a < L)%nat /\ (b < L)%nat
  | Flip a => (a < L)%nat
  end.
Definition valid (L : nat) (p : list step) : Prop := Forall (valid_step L) p.
Lemma forallb_off x y (c : list nat) : (forall q, In q c -> getbit y q = getbit x q) -> forallb (getbit y) c = forallb (getbit x) c.
Proof. induction c as [|q c IH]; intros H; cbn; auto. rewrite H, IH; auto; [intros; apply H; right; auto|left; auto]. Qed.
Lemma amount_off x y a : (forall q, match a with Cl _ => False | Qu qs => In q qs end -> getbit y q = getbit x q) -> amount y a = amount x a.
Proof. destruct a as [z|qs]; intros H; cbn; auto. unfold value, read. f_equal. apply map_ext_in. exact H. Qed.
Lemma undo_ok x s : valid_step (length x) s -> perform (perform x s) (undo_step s) = x.
Proof.
  destruct s as [c a t|c a t|c a b|a b|a]; cbn [valid_step undo_step].
  1,2: intros (N & F & D); cbn [perform]; destruct (forallb (getbit x) c) eqn:C; [|rewrite C; reflexivity].
  1,2: assert (R : register t x) by (split; auto).
  1,2: rewrite (forallb_off x (store x t _)) by (intros q I; apply store_other; intros J; apply (proj1 (D q J)); exact I); rewrite C.
  1,2: rewrite (amount_off x (store x t _)) by (destruct a as [z|qs]; [tauto|]; intros q I; apply store_other; intros J; apply (proj2 (D q J)); exact I).
  1,2: rewrite store_store by exact N; apply store_same_value; [exact N|]; rewrite value_store by exact R.
  - rewrite Zminus_mod_idemp_l. replace (value x t + amount x a - amount x a) with (value x t) by ring. apply Z.mod_small, value_range.
  - rewrite Zplus_mod_idemp_l. replace (value x t - amount x a + amount x a) with (value x t) by ring. apply Z.mod_small, value_range.
  - intros (N & A & B & Ca & Cb). cbn [perform]. destruct (forallb (getbit x) c) eqn:C; [|rewrite C; reflexivity].
    rewrite (forallb_off x) by (intros q I; rewrite !getbit_set_other; congruence). rewrite C.
    apply getbit_ext; [rewrite !setbit_length; reflexivity|]. intros p _.
    destruct (Nat.eq_dec p b) as [->|Pb].
    + rewrite getbit_set_same by (rewrite !setbit_length; exact B). rewrite getbit_set_other by congruence. apply getbit_set_same, A.
    + rewrite getbit_set_other by congruence. destruct (Nat.eq_dec p a) as [->|Pa].
      * rewrite getbit_set_same by (rewrite !setbit_length; exact A). apply getbit_set_same. rewrite setbit_length. exact B.
      * rewrite !getbit_set_other by congruence. reflexivity.
  - intros (N & A & B). cbn [perform]. rewrite getbit_set_other by congruence. rewrite getbit_set_same by exact B. rewrite setbit_twice.
    rewrite <- xorb_assoc, xorb_nilpotent, xorb_false_l. apply setbit_get.
  - intros A. cbn [perform]. rewrite getbit_set_same by exact A. rewrite setbit_twice, negb_involutive. apply setbit_get.
Qed.
Lemma inverted_undoes : forall p x, valid (length x) p -> execute (inverted p) (execute p x) = x.
Proof.
  induction p as [|s p IH]; intros x V; [reflexivity|]. inversion V as [|? ? Vs Vp]; subst. rewrite execute_cons. unfold inverted. cbn [map rev].
  rewrite execute_app. fold (inverted p). rewrite IH by (rewrite perform_length; exact Vp). cbn [execute fold_left]. apply undo_ok, Vs.
Qed.
Lemma valid_app L p q : valid L p -> valid L q -> valid L (p ++ q).
Proof. apply Forall_app_2 || (intros; apply Forall_app; auto). Qed.
Lemma undo_valid L s : valid_step L s -> valid_step L (undo_step s).
Proof. destruct s; cbn; auto. Qed.
Lemma valid_inverted L p : valid L p -> valid L (inverted p).
Proof. intros V. apply Forall_rev. apply Forall_map. revert V. apply Forall_impl. intros s. apply undo_valid. Qed.
Lemma undo_undo s : undo_step (undo_step s) = s. Proof. destruct s; reflexivity. Qed.
Lemma inverted_inverted p : inverted (inverted p) = p.
Proof. unfold inverted. rewrite map_rev, rev_involutive, map_map. rewrite <- (map_id p) at 2. apply map_ext. intros; apply undo_undo. Qed.
Lemma redo p x : valid (length x) p -> execute p (execute (inverted p) x) = x.
Proof. intros V. rewrite <- (inverted_inverted p) at 1. apply inverted_undoes, valid_inverted, V. Qed.
