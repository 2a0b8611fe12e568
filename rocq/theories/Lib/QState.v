(** Gates as matrices acting on selected qubits of an n-qubit amplitude vector, over any commutative ring
    of amplitudes.  Gates need not be unitary, so projections (a fixed measurement outcome) are covered. *)
From Coq Require Export List Bool Arith Lia Ring_theory.
From Coq Require Import Ring FinFun.
Export ListNotations.
Local Open Scope nat_scope.

Record comring := {
  car :> Type;
  zero : car; one : car; add : car -> car -> car; mul : car -> car -> car; sub : car -> car -> car; opp : car -> car;
  laws : ring_theory zero one add mul sub opp eq }.
Arguments zero {_}. Arguments one {_}. Arguments add {_}. Arguments mul {_}. Arguments sub {_}. Arguments opp {_}.

Definition bit (x : list bool) (q : nat) : bool := nth q x false.
Fixpoint setb (x : list bool) (q : nat) (v : bool) : list bool :=
  match x, q with [], _ => [] | _ :: x, O => v :: x | h :: x, S q => h :: setb x q v end.
(** the bits of x at the qubits qs, and x with those bits replaced *)
Definition sel (x : list bool) (qs : list nat) : list bool := map (bit x) qs.
Fixpoint upd (x : list bool) (qs : list nat) (ys : list bool) : list bool :=
  match qs, ys with q :: qs, y :: ys => upd (setb x q y) qs ys | _, _ => x end.
Fixpoint strings (n : nat) : list (list bool) :=
  match n with O => [[]] | S n => map (cons false) (strings n) ++ map (cons true) (strings n) end.
Fixpoint beqs (a b : list bool) : bool := match a, b with [], [] => true | x :: a, y :: b => eqb x y && beqs a b | _, _ => false end.

(** ** bits *)
Lemma setb_length x q v : length (setb x q v) = length x.
Proof. revert q. induction x as [|h x IH]; intros [|q]; cbn; auto. Qed.
Lemma bit_setb_same x q v : q < length x -> bit (setb x q v) q = v.
Proof. revert q. induction x as [|h x IH]; intros [|q] H; cbn in *; try lia; [reflexivity|]. apply IH. lia. Qed.
Lemma bit_setb_other x q i v : q <> i -> bit (setb x q v) i = bit x i.
Proof. revert q i. induction x as [|h x IH]; intros [|q] [|i] H; cbn in *; try congruence; try reflexivity. apply IH. congruence. Qed.
Lemma upd_length qs : forall x ys, length (upd x qs ys) = length x.
Proof. induction qs as [|q qs IH]; intros x [|y ys]; cbn; try reflexivity. rewrite IH. apply setb_length. Qed.
Lemma bit_upd_out qs : forall x ys i, ~ In i qs -> bit (upd x qs ys) i = bit x i.
Proof. induction qs as [|q qs IH]; intros x [|y ys] i H; cbn [upd]; try reflexivity. rewrite IH by (intros Hi; apply H; right; exact Hi). apply bit_setb_other. intros ->. apply H. left. reflexivity. Qed.
Lemma bit_upd_in qs : forall x ys k, NoDup qs -> length ys = length qs -> k < length qs -> (forall q, In q qs -> q < length x) -> bit (upd x qs ys) (nth k qs 0) = nth k ys false.
Proof.
  induction qs as [|q qs IH]; intros x [|y ys] k N L Hk F; cbn in L; try lia; cbn in Hk; try lia. inversion N; subst. cbn [upd]. destruct k as [|k]; cbn [nth].
  - rewrite bit_upd_out by assumption. apply bit_setb_same. apply F. left. reflexivity.
  - apply IH; auto; try lia. intros r Hr. rewrite setb_length. apply F. right. exact Hr.
Qed.
Lemma bits_ext x y : length x = length y -> (forall i, i < length x -> bit x i = bit y i) -> x = y.
Proof. intros L H. apply (nth_ext x y false false L). exact H. Qed.
Lemma sel_length x qs : length (sel x qs) = length qs. Proof. apply map_length. Qed.
Lemma nth_sel x qs k : k < length qs -> nth k (sel x qs) false = bit x (nth k qs 0).
Proof. intros H. unfold sel. rewrite (nth_indep _ false (bit x 0)) by (rewrite map_length; exact H). apply map_nth. Qed.
Lemma sel_upd_same x qs ys : NoDup qs -> length ys = length qs -> (forall q, In q qs -> q < length x) -> sel (upd x qs ys) qs = ys.
Proof.
  intros N L F. apply (nth_ext _ _ false false); [rewrite sel_length; congruence|]. rewrite sel_length. intros k Hk. rewrite nth_sel by exact Hk. apply bit_upd_in; assumption.
Qed.
Lemma sel_upd_disj x qs ys qs' : (forall q, In q qs' -> ~ In q qs) -> sel (upd x qs ys) qs' = sel x qs'.
Proof. intros D. apply map_ext_in. intros q Hq. apply bit_upd_out. apply D. exact Hq. Qed.
Lemma in_nth_ex (q : nat) qs : In q qs -> exists k, k < length qs /\ nth k qs 0 = q.
Proof. intros H. apply (In_nth _ _ 0) in H. exact H. Qed.
Lemma upd_sel x qs : NoDup qs -> (forall q, In q qs -> q < length x) -> upd x qs (sel x qs) = x.
Proof.
  intros N F. apply bits_ext; [apply upd_length|]. rewrite upd_length. intros i Hi. destruct (in_dec Nat.eq_dec i qs) as [H|H].
  - destruct (in_nth_ex _ _ H) as (k & Hk & <-). rewrite bit_upd_in by (auto; apply sel_length). apply nth_sel. exact Hk.
  - apply bit_upd_out. exact H.
Qed.
Lemma upd_upd x qs ys zs : NoDup qs -> length ys = length qs -> length zs = length qs -> (forall q, In q qs -> q < length x) -> upd (upd x qs ys) qs zs = upd x qs zs.
Proof.
  intros N L L' F. apply bits_ext; [rewrite !upd_length; reflexivity|]. rewrite !upd_length. intros i Hi. destruct (in_dec Nat.eq_dec i qs) as [H|H].
  - destruct (in_nth_ex _ _ H) as (k & Hk & <-). rewrite !bit_upd_in; auto. intros q Hq. rewrite upd_length. auto.
  - rewrite !bit_upd_out by exact H. reflexivity.
Qed.
Lemma upd_comm x qs ys qs' ys' : NoDup qs -> NoDup qs' -> length ys = length qs -> length ys' = length qs' ->
  (forall q, In q qs -> q < length x) -> (forall q, In q qs' -> q < length x) -> (forall q, In q qs' -> ~ In q qs) ->
  upd (upd x qs ys) qs' ys' = upd (upd x qs' ys') qs ys.
Proof.
  intros N N' L L' F F' D. apply bits_ext; [rewrite !upd_length; reflexivity|]. rewrite !upd_length. intros i Hi.
  destruct (in_dec Nat.eq_dec i qs) as [H|H].
  - assert (H' : ~ In i qs') by (intros H'; exact (D i H' H)). rewrite (bit_upd_out qs') by exact H'. destruct (in_nth_ex _ _ H) as (k & Hk & <-).
    rewrite !bit_upd_in; auto. intros q Hq. rewrite upd_length. auto.
  - rewrite (bit_upd_out qs (upd x qs' ys')) by exact H. destruct (in_dec Nat.eq_dec i qs') as [H'|H'].
    + destruct (in_nth_ex _ _ H') as (k & Hk & <-). rewrite !bit_upd_in; auto. intros q Hq. rewrite upd_length. auto.
    + rewrite !bit_upd_out by assumption. reflexivity.
Qed.
Lemma strings_In n x : In x (strings n) <-> length x = n.
Proof.
  revert x. induction n as [|n IH]; intros x; cbn; [split; [intros [<-|[]]; reflexivity|destruct x; [auto|discriminate]]|].
  rewrite in_app_iff, !in_map_iff. split.
  - intros [(y & <- & Hy)|(y & <- & Hy)]; apply IH in Hy; cbn; congruence.
  - destruct x as [|[] x]; [discriminate| |]; intros [= Hx]; apply IH in Hx; [right|left]; exists x; auto.
Qed.
Lemma strings_NoDup n : NoDup (strings n).
Proof.
  induction n as [|n IH]; cbn; [repeat constructor; intros []|].
  assert (ND : forall b, NoDup (map (cons b) (strings n))) by (intros b; apply Injective_map_NoDup; [intros x y; congruence|exact IH]).
  assert (Disj : forall x, In x (map (cons false) (strings n)) -> ~ In x (map (cons true) (strings n))) by (intros x H H'; apply in_map_iff in H, H'; destruct H as (? & <- & _), H' as (? & [=] & _)).
  revert Disj. generalize (ND false). generalize (map (cons false) (strings n)). intros l Hl. induction l as [|x l IHl]; intros Disj; [apply ND|]. inversion Hl; subst. cbn. constructor.
  - rewrite in_app_iff. intros [H|H]; [contradiction|]. apply (Disj x); [left; reflexivity|exact H].
  - apply IHl; [assumption|]. intros y Hy. apply Disj. right. exact Hy.
Qed.
Lemma beqs_eq a : forall b, beqs a b = true <-> a = b.
Proof. induction a as [|x a IH]; intros [|y b]; cbn; try (split; congruence). rewrite andb_true_iff, IH, eqb_true_iff. split; [intros [-> ->]; reflexivity|intros [= -> ->]; auto]. Qed.
Lemma beqs_refl a : beqs a a = true. Proof. apply beqs_eq. reflexivity. Qed.

Section vectors.
Variable R : comring.
Add Ring Rring : (laws R).
Definition vec := list bool -> R.
(** [m row column] *)
Definition mat := list bool -> list bool -> R.
Fixpoint rsum {A} (l : list A) (f : A -> R) : R := match l with [] => zero | x :: l => add (f x) (rsum l f) end.
(** apply the matrix m to the qubits qs *)
Definition ap (m : mat) (qs : list nat) (v : vec) : vec :=
  fun x => rsum (strings (length qs)) (fun y => mul (m (sel x qs) y) (v (upd x qs y))).
(** equality of n-qubit vectors *)
Definition veq (n : nat) (v w : vec) : Prop := forall x, length x = n -> v x = w x.
Definition idm : mat := fun r c => if beqs r c then one else zero.
Definition swapm : mat := fun r c => match r, c with [a; b], [c; d] => if eqb a d && eqb b c then one else zero | _, _ => zero end.
(** v with qubit i renamed to p i *)
Definition relist (n : nat) (p : nat -> nat) (x : list bool) : list bool := map (fun i => bit x (p i)) (seq 0 n).
(** qubit q is in the state |0> *)
Definition is0 (n : nat) (q : nat) (v : vec) : Prop := forall x, length x = n -> bit x q = true -> v x = zero.

Lemma rsum_ext {A} (l : list A) f g : (forall x, In x l -> f x = g x) -> rsum l f = rsum l g.
Proof. induction l as [|x l IH]; intros H; cbn; [reflexivity|]. rewrite (H x) by (left; reflexivity). f_equal. apply IH. intros y Hy. apply H. right. exact Hy. Qed.
Lemma rsum_0 {A} (l : list A) : rsum l (fun _ => zero) = zero.
Proof. induction l as [|x l IH]; cbn; [reflexivity|]. rewrite IH. ring. Qed.
Lemma rsum_add {A} (l : list A) f g : rsum l (fun x => add (f x) (g x)) = add (rsum l f) (rsum l g).
Proof. induction l as [|x l IH]; cbn; [ring|]. rewrite IH. ring. Qed.
Lemma rsum_scale {A} (l : list A) k f : rsum l (fun x => mul k (f x)) = mul k (rsum l f).
Proof. induction l as [|x l IH]; cbn; [ring|]. rewrite IH. ring. Qed.
Lemma rsum_scale_r {A} (l : list A) k f : rsum l (fun x => mul (f x) k) = mul (rsum l f) k.
Proof. induction l as [|x l IH]; cbn; [ring|]. rewrite IH. ring. Qed.
Lemma rsum_swap {A B} (l : list A) (l' : list B) f : rsum l (fun x => rsum l' (f x)) = rsum l' (fun y => rsum l (fun x => f x y)).
Proof. induction l as [|x l IH]; cbn; [symmetry; apply rsum_0|]. rewrite IH, <- rsum_add. reflexivity. Qed.
Lemma rsum_indicator (l : list (list bool)) x (f : list bool -> R) : NoDup l -> In x l -> rsum l (fun m => if beqs x m then f m else zero) = f x.
Proof.
  induction l as [|y l IH]; intros ND H; [contradiction|]. inversion ND; subst. cbn [rsum]. destruct (beqs x y) eqn:E.
  - apply beqs_eq in E. subst. rewrite (rsum_ext _ _ (fun _ => zero)), rsum_0; [ring|]. intros z Hz. destruct (beqs y z) eqn:E; [apply beqs_eq in E; subst; contradiction|reflexivity].
  - rewrite IH; [ring|assumption|]. destruct H as [<-|H]; [|exact H]. rewrite beqs_refl in E. discriminate.
Qed.
Lemma veq_refl n v : veq n v v. Proof. intros x _. reflexivity. Qed.
Lemma veq_sym n v w : veq n v w -> veq n w v. Proof. intros H x Lx. symmetry. apply H. exact Lx. Qed.
Lemma veq_trans n u v w : veq n u v -> veq n v w -> veq n u w. Proof. intros H H' x Lx. rewrite H by exact Lx. apply H'. exact Lx. Qed.
Lemma ap_ext n m qs v w : veq n v w -> veq n (ap m qs v) (ap m qs w).
Proof. intros H x Lx. unfold ap. apply rsum_ext. intros y _. rewrite H by (rewrite upd_length; exact Lx). reflexivity. Qed.

Definition okq (n : nat) (qs : list nat) : Prop := NoDup qs /\ forall q, In q qs -> q < n.
Lemma ap_comm n m qs m' qs' v : okq n qs -> okq n qs' -> (forall q, In q qs' -> ~ In q qs) -> veq n (ap m qs (ap m' qs' v)) (ap m' qs' (ap m qs v)).
Proof.
  intros [N F] [N' F'] D x Lx. unfold ap.
  transitivity (rsum (strings (length qs)) (fun y => rsum (strings (length qs')) (fun y' => mul (mul (m (sel x qs) y) (m' (sel x qs') y')) (v (upd (upd x qs y) qs' y'))))).
  - apply rsum_ext. intros y _. rewrite <- rsum_scale. apply rsum_ext. intros y' _. rewrite sel_upd_disj by exact D. ring.
  - rewrite rsum_swap. apply rsum_ext. intros y' Hy'. apply strings_In in Hy'. rewrite <- rsum_scale. apply rsum_ext. intros y Hy. apply strings_In in Hy.
    rewrite sel_upd_disj by (intros q Hq Hq'; exact (D q Hq' Hq)). rewrite (upd_comm x qs y qs' y'); auto; try (intros q Hq; rewrite Lx; auto). ring.
Qed.
Lemma ap_mul n m m' qs v : okq n qs -> veq n (ap m qs (ap m' qs v)) (ap (fun r c => rsum (strings (length qs)) (fun k => mul (m r k) (m' k c))) qs v).
Proof.
  intros [N F] x Lx. unfold ap.
  transitivity (rsum (strings (length qs)) (fun y => rsum (strings (length qs)) (fun z => mul (mul (m (sel x qs) y) (m' y z)) (v (upd x qs z))))).
  - apply rsum_ext. intros y Hy. apply strings_In in Hy. rewrite <- rsum_scale. apply rsum_ext. intros z Hz. apply strings_In in Hz.
    rewrite sel_upd_same by (auto; intros; rewrite Lx; auto). rewrite upd_upd by (auto; intros; rewrite Lx; auto). ring.
  - rewrite rsum_swap. apply rsum_ext. intros z _. rewrite <- rsum_scale_r. reflexivity.
Qed.
Lemma ap_mat_ext n m m' qs v : (forall r c, length r = length qs -> length c = length qs -> m r c = m' r c) -> veq n (ap m qs v) (ap m' qs v).
Proof. intros H x Lx. unfold ap. apply rsum_ext. intros y Hy. apply strings_In in Hy. rewrite H; [reflexivity|apply sel_length|exact Hy]. Qed.
Lemma ap_id n qs v : okq n qs -> veq n (ap idm qs v) v.
Proof.
  intros [N F] x Lx. unfold ap, idm. rewrite (rsum_ext _ _ (fun y => if beqs (sel x qs) y then v (upd x qs y) else zero)).
  - rewrite (rsum_indicator _ (sel x qs) (fun y => v (upd x qs y))) by (try apply strings_NoDup; apply strings_In, sel_length). rewrite upd_sel; [reflexivity|exact N|]. intros; rewrite Lx; auto.
  - intros y _. destruct (beqs (sel x qs) y); ring.
Qed.

(** ** renaming *)
Lemma relist_length n p x : length (relist n p x) = n. Proof. unfold relist. rewrite map_length, seq_length. reflexivity. Qed.
Lemma bit_relist n p x i : i < n -> bit (relist n p x) i = bit x (p i).
Proof.
  intros H. unfold relist, bit at 1. rewrite (nth_indep _ false (bit x (p 0))) by (rewrite map_length, seq_length; exact H).
  rewrite (map_nth (fun i => bit x (p i))). rewrite seq_nth by exact H. reflexivity.
Qed.
Definition permutes (n : nat) (p : nat -> nat) : Prop := (forall i, i < n -> p i < n) /\ (forall i j, i < n -> j < n -> p i = p j -> i = j).
Lemma ap_relabel n p m qs v : permutes n p -> okq n qs ->
  veq n (ap m (map p qs) (fun x => v (relist n p x))) (fun x => ap m qs v (relist n p x)).
Proof.
  intros [B I] [N F] x Lx. unfold ap. rewrite map_length. apply rsum_ext. intros y Hy. apply strings_In in Hy. f_equal.
  - f_equal. unfold sel. rewrite map_map. apply map_ext_in. intros q Hq. symmetry. apply bit_relist. auto.
  - f_equal. apply bits_ext; [rewrite upd_length, !relist_length; reflexivity|]. rewrite relist_length. intros i Hi. rewrite bit_relist by exact Hi.
    assert (Np : NoDup (map p qs)).
    { clear - I N F. induction qs as [|q qs IH]; cbn; [constructor|]. inversion N; subst. constructor.
      - intros H. apply in_map_iff in H. destruct H as (r & E & Hr). apply I in E; [subst; contradiction|apply F; right; exact Hr|apply F; left; reflexivity].
      - apply IH; [assumption|]. intros r Hr. apply F. right. exact Hr. }
    destruct (in_dec Nat.eq_dec i qs) as [H|H].
    + destruct (in_nth_ex _ _ H) as (k & Hk & <-).
      rewrite bit_upd_in by (try rewrite relist_length; auto).
      replace (p (nth k qs 0)) with (nth k (map p qs) 0) by (rewrite (nth_indep _ 0 (p 0)) by (rewrite map_length; exact Hk); apply map_nth).
      apply bit_upd_in; rewrite ?map_length; auto. intros q Hq. apply in_map_iff in Hq. destruct Hq as (r & <- & Hr). rewrite Lx. apply B. auto.
    + rewrite (bit_upd_out qs) by exact H. rewrite bit_relist by exact Hi. apply bit_upd_out. intros H'. apply in_map_iff in H'. destruct H' as (r & E & Hr). apply I in E; [subst; contradiction|auto|exact Hi].
Qed.
Definition transp (a b i : nat) : nat := if i =? a then b else if i =? b then a else i.
Lemma transp_permutes n a b : a < n -> b < n -> permutes n (transp a b).
Proof.
  intros Ha Hb. split; intros i; unfold transp.
  - intros Hi. destruct (Nat.eqb_spec i a), (Nat.eqb_spec i b); auto.
  - intros j Hi Hj. destruct (Nat.eqb_spec i a), (Nat.eqb_spec i b), (Nat.eqb_spec j a), (Nat.eqb_spec j b); subst; congruence.
Qed.
Lemma ap_swap n a b v : a < n -> b < n -> a <> b -> veq n (ap swapm [a; b] v) (fun x => v (relist n (transp a b) x)).
Proof.
  intros Ha Hb Hab x Lx. unfold ap. cbn [length]. rewrite (rsum_ext _ _ (fun y => if beqs [bit x b; bit x a] y then v (upd x [a; b] y) else zero)).
  - rewrite (rsum_indicator _ _ (fun y => v (upd x [a; b] y))) by (try apply strings_NoDup; apply strings_In; reflexivity). f_equal.
    apply bits_ext; [rewrite upd_length, relist_length; exact Lx|]. rewrite upd_length. intros i Hi. rewrite bit_relist by lia.
    assert (N : NoDup [a; b]) by (repeat constructor; cbn; intuition). assert (F : forall q, In q [a; b] -> q < length x) by (intros q [<-|[<-|[]]]; lia).
    unfold transp. destruct (Nat.eqb_spec i a) as [->|Na]; [exact (bit_upd_in [a; b] x [bit x b; bit x a] 0 N eq_refl ltac:(cbn; lia) F)|].
    destruct (Nat.eqb_spec i b) as [->|Nb]; [exact (bit_upd_in [a; b] x [bit x b; bit x a] 1 N eq_refl ltac:(cbn; lia) F)|].
    apply bit_upd_out. cbn. intuition.
  - intros y Hy. apply strings_In in Hy. destruct y as [|y1 [|y2 [|y3 y]]]; try discriminate. cbn [sel map swapm beqs]. destruct (bit x a), (bit x b), y1, y2; cbn [eqb andb]; ring.
Qed.
(** moving a gate through a swap *)
Lemma ap_swap_gate n a b m qs v : a < n -> b < n -> a <> b -> okq n qs ->
  veq n (ap swapm [a; b] (ap m qs v)) (ap m (map (transp a b) qs) (ap swapm [a; b] v)).
Proof.
  intros Ha Hb Hab O. apply (veq_trans n _ _ _ (ap_swap n a b (ap m qs v) Ha Hb Hab)).
  apply (veq_trans n _ (ap m (map (transp a b) qs) (fun x => v (relist n (transp a b) x)))).
  - apply veq_sym. apply ap_relabel; [apply transp_permutes; assumption|exact O].
  - apply ap_ext. apply veq_sym. apply ap_swap; assumption.
Qed.
(** ** qubits in |0> *)
Lemma is0_ext n q v w : veq n v w -> is0 n q v -> is0 n q w.
Proof. intros E H x Lx Hx. rewrite <- E by exact Lx. apply H; assumption. Qed.
Lemma is0_other n q m qs v : ~ In q qs -> is0 n q v -> is0 n q (ap m qs v).
Proof.
  intros D H x Lx Hx. unfold ap. rewrite (rsum_ext _ _ (fun _ => zero)), rsum_0; [reflexivity|]. intros y _. rewrite H; [ring|rewrite upd_length; exact Lx|]. rewrite bit_upd_out by exact D. exact Hx.
Qed.
End vectors.
Arguments rsum {R A}. Arguments ap {R}. Arguments veq {R}. Arguments idm {R}. Arguments swapm {R}. Arguments is0 {R}.
