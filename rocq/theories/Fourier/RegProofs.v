(** Registers: reading, writing, numbers. *)
From Coq Require Import List ZArith Bool Lia Arith QArith Qcanon Field.
Import ListNotations.
From Verif.Inverse Require Import InvSpec InvProofs.
From Verif.CtrlOps Require Import CtrlModel CtrlSpec CtrlProofs.
From Verif.Fourier Require Import FourierModel FourierSpec.
Local Open Scope nat_scope.

(** * write and read *)
Lemma write_length x : forall qs b, length (write x qs b) = length x.
Proof. induction qs as [|q qs IH]; intros [|a b]; cbn [write]; auto. rewrite setbit_length. apply IH. Qed.
Lemma write_other x : forall qs b p, ~ In p qs -> getbit (write x qs b) p = getbit x p.
Proof.
  induction qs as [|q qs IH]; intros [|a b] p H; cbn [write]; auto. cbn [In] in H. rewrite getbit_set_other by (intros ->; apply H; auto). apply IH. auto.
Qed.
Lemma read_write x : forall qs b, register qs x -> length b = length qs -> read (write x qs b) qs = b.
Proof.
  induction qs as [|q qs IH]; intros [|a b] [ND F] L; cbn [write read map length] in *; try discriminate; auto. inversion ND as [|? ? N D]; subst.
  rewrite getbit_set_same by (rewrite write_length; apply F; left; reflexivity). f_equal. rewrite <- (IH b) at 2; [|split; [exact D|intros; apply F; right; auto]|lia].
  apply map_ext_in. intros p Ip. apply getbit_set_other. intros ->. contradiction.
Qed.
Lemma read_write_off x : forall qs b ps, (forall p, In p ps -> ~ In p qs) -> read (write x qs b) ps = read x ps.
Proof. intros qs b ps H. apply map_ext_in. intros p Ip. apply write_other, H, Ip. Qed.
Lemma setbit_comm : forall x p q a b, p <> q -> setbit (setbit x p a) q b = setbit (setbit x q b) p a.
Proof. induction x as [|c x IH]; intros [|p] [|q] a b H; cbn; auto; try lia. f_equal. apply IH. lia. Qed.
Lemma write_set x : forall qs b q a, ~ In q qs -> write (setbit x q a) qs b = setbit (write x qs b) q a.
Proof. induction qs as [|p qs IH]; intros [|c b] q a H; cbn [write]; auto. cbn [In] in H. rewrite IH by auto. apply setbit_comm. intros ->; apply H; auto. Qed.
Lemma write_write x : forall qs b c, NoDup qs -> length b = length qs -> length c = length qs -> write (write x qs b) qs c = write x qs c.
Proof.
  induction qs as [|q qs IH]; intros [|a b] [|d c] ND L M; cbn [write length] in *; try discriminate; auto. inversion ND as [|? ? N D]; subst.
  rewrite write_set, setbit_twice, IH by (auto; lia). reflexivity.
Qed.
Lemma write_read x : forall qs, NoDup qs -> write x qs (read x qs) = x.
Proof.
  induction qs as [|q qs IH]; intros ND; cbn [write read map]; auto. inversion ND as [|? ? N D]; subst. fold (read x qs). rewrite IH by exact D. apply setbit_get.
Qed.
Lemma register_cons q qs x : register (q :: qs) x -> ~ In q qs /\ register qs x /\ q < length x.
Proof. intros [ND F]. inversion ND; subst. split; auto. split; [split; auto; intros; apply F; right; auto|apply F; left; auto]. Qed.
Lemma register_rev qs x : register qs x -> register (rev qs) x.
Proof. intros [ND F]. split; [apply NoDup_rev, ND|]. intros q I. apply F, in_rev, I. Qed.
Lemma register_length qs x y : length x = length y -> register qs x -> register qs y.
Proof. intros L [ND F]. split; [exact ND|]. rewrite <- L. exact F. Qed.
Lemma read_length x qs : length (read x qs) = length qs.
Proof. apply map_length. Qed.
Lemma read_rev x qs : read x (rev qs) = rev (read x qs).
Proof. apply map_rev. Qed.
(** writing a register in another order *)
Lemma write_ext x qs b y : register qs x -> length b = length qs -> length y = length x ->
  read y qs = b -> (forall p, ~ In p qs -> getbit y p = getbit x p) -> write x qs b = y.
Proof.
  intros Rg L Ly Ry O. apply getbit_ext; [rewrite write_length; auto|]. intros p _. destruct (in_dec Nat.eq_dec p qs) as [I|NI].
  - destruct (In_nth _ _ 0 I) as (j & Hj & <-).
    assert (G : forall z, getbit z (nth j qs 0) = nth j (read z qs) false).
    { intros z. unfold read. rewrite (nth_indep _ false (getbit z 0)) by (rewrite map_length; exact Hj). symmetry. apply (map_nth (getbit z)). }
    rewrite !G, Ry, read_write by auto. reflexivity.
  - rewrite write_other by exact NI. symmetry. apply O, NI.
Qed.
Lemma write_rev x qs b : register qs x -> length b = length qs -> write x (rev qs) (rev b) = write x qs b.
Proof.
  intros Rg L. apply write_ext; [apply register_rev, Rg|rewrite !rev_length; exact L|apply write_length| |].
  - rewrite read_rev, read_write by auto. reflexivity.
  - intros p NI. apply write_other. intros I. apply NI. rewrite <- in_rev. exact I.
Qed.

(** * numbers *)
Definition b2z (b : bool) : Z := if b then 1%Z else 0%Z.
(** most significant first *)
Fixpoint big (b : list bool) : Z := match b with [] => 0%Z | a :: b => (b2z a * 2 ^ Z.of_nat (length b) + big b)%Z end.
Lemma number_app : forall a b, number (a ++ b) = (number a + 2 ^ Z.of_nat (length a) * number b)%Z.
Proof.
  induction a as [|c a IH]; intros b; cbn [app number length]; [change (2 ^ Z.of_nat 0)%Z with 1%Z; lia|]. rewrite IH, Nat2Z.inj_succ, Z.pow_succ_r by lia. ring.
Qed.
Lemma number_rev : forall b, number (rev b) = big b.
Proof.
  induction b as [|a b IH]; [reflexivity|]. cbn [rev big]. rewrite number_app, IH, rev_length. cbn [number]. unfold b2z. destruct a; ring.
Qed.
Lemma big_rev b : big (rev b) = number b.
Proof. rewrite <- number_rev, rev_involutive. reflexivity. Qed.
Lemma number_range : forall b, (0 <= number b < 2 ^ Z.of_nat (length b))%Z.
Proof.
  induction b as [|a b IH]; cbn [number length]; [change (2 ^ Z.of_nat 0)%Z with 1%Z; lia|]. rewrite Nat2Z.inj_succ, Z.pow_succ_r by lia. destruct a; lia.
Qed.
Lemma bits_of_length n z : length (bits_of n z) = n.
Proof. unfold bits_of. rewrite map_length, seq_length. reflexivity. Qed.
Lemma bits_of_S n z : bits_of (S n) z = Z.odd z :: bits_of n (z / 2)%Z.
Proof.
  unfold bits_of. cbn [seq map]. f_equal. rewrite <- seq_shift, map_map. apply map_ext. intros i.
  rewrite Nat2Z.inj_succ, <- Z.div2_div, Z.div2_spec, Z.shiftr_spec by lia. f_equal.
Qed.
Lemma number_bits n : forall z, number (bits_of n z) = (z mod 2 ^ Z.of_nat n)%Z.
Proof.
  induction n as [|n IH]; intros z; [cbn; symmetry; apply Z.mod_1_r|]. rewrite bits_of_S. cbn [number]. rewrite IH, Nat2Z.inj_succ, Z.pow_succ_r by lia.
  assert (0 < 2 ^ Z.of_nat n)%Z by (apply Z.pow_pos_nonneg; lia). 
  rewrite Z.rem_mul_r by lia. f_equal. rewrite Zmod_odd. reflexivity.
Qed.
Lemma bits_number : forall b, bits_of (length b) (number b) = b.
Proof.
  induction b as [|a b IH]; [reflexivity|]. cbn [length]. rewrite bits_of_S. cbn [number]. f_equal.
  - rewrite Z.odd_add_mul_2. destruct a; reflexivity.
  - rewrite (Z.mul_comm 2), Z.div_add by lia. replace ((if a then 1 else 0) / 2 + number b)%Z with (number b) by (destruct a; reflexivity). exact IH.
Qed.
Lemma bits_mod n z : bits_of n (z mod 2 ^ Z.of_nat n)%Z = bits_of n z.
Proof.
  rewrite <- number_bits. rewrite <- (bits_of_length n z) at 1. apply bits_number.
Qed.
Lemma number_inj b c : length b = length c -> number b = number c -> b = c.
Proof. intros L E. rewrite <- (bits_number b), <- (bits_number c), L, E. reflexivity. Qed.
