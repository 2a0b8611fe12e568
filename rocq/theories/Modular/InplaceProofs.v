(** Multiplication in place. *)
From Coq Require Import List ZArith Znumtheory Bool Arith Lia.
Import ListNotations.
From Verif.Inverse Require Import InvSpec InvProofs.
From Verif.CtrlOps Require Import CtrlSpec CtrlProofs.
From Verif.Fourier Require Import FourierSpec RegProofs.
From Verif.ModTools Require Import ModToolsModel ModToolsProofs.
From Verif.Modular Require Import ModModel ModSpec ViewProofs ModAddProofs ReduceProofs MontProofs MultiplyProofs.
Local Open Scope Z_scope.

(** ** the programs can be inverted *)
Lemma nth_skip_off (l : list nat) j d : NoDup l -> (j < length l)%nat -> ~ In (nth j l d) (skipn (j + 1) l).
Proof.
  revert j. induction l as [|a l IH]; intros [|j] N J; cbn in *; try lia; inversion N; subst; auto. apply IH; auto. lia.
Qed.
Lemma in_skipn {A} (a : A) k l : In a (skipn k l) -> In a l.
Proof. intros I. rewrite <- (firstn_skipn k l). apply in_or_app. auto. Qed.
Lemma in_firstn {A} (a : A) k l : In a (firstn k l) -> In a l.
Proof. intros I. rewrite <- (firstn_skipn k l). apply in_or_app. auto. Qed.
Lemma nodup_skipn {A} k (l : list A) : NoDup l -> NoDup (skipn k l).
Proof. intros N. rewrite <- (firstn_skipn k l) in N. exact (nodup_r _ _ N). Qed.
Lemma nodup_firstn {A} k (l : list A) : NoDup l -> NoDup (firstn k l).
Proof. intros N. rewrite <- (firstn_skipn k l) in N. exact (nodup_l _ _ N). Qed.
Lemma valid_flat_map {A} L (f : A -> list step) l : (forall a, In a l -> valid L (f a)) -> valid L (flat_map f l).
Proof. induction l as [|a l IH]; intros H; [constructor|]. cbn. apply valid_app; [apply H; left; auto|apply IH; intros; apply H; right; auto]. Qed.
Lemma valid_one L s : valid_step L s -> valid L [s].
Proof. intros H. constructor; [exact H|constructor]. Qed.
Lemma valid_bubble L qs : NoDup qs -> (forall q, In q qs -> (q < L)%nat) -> valid L (bubble qs).
Proof.
  induction qs as [|a [|b qs] IH]; intros N F; [constructor..|]. change (bubble (a :: b :: qs)) with ([Swp [] a b] ++ bubble (b :: qs)). inversion N; subst.
  apply valid_app; [|apply IH; auto; intros; apply F; right; auto]. apply valid_one. cbn. repeat split; auto; [intros ->; apply H1; left; auto|apply F; left; auto|apply F; right; left; auto].
Qed.
Lemma valid_reduction L qf N m n : NoDup qf -> (forall q, In q qf -> (q < L)%nat) -> length qf = (m + 1 + n)%nat -> (0 < n)%nat -> valid L (q_montgomery_reduction qf N m).
Proof.
  intros ND F Len Hn. unfold q_montgomery_reduction. apply valid_app; [|apply valid_app; [|apply valid_app]].
  - apply valid_flat_map. intros j I. apply in_seq in I. cbn [inverted map rev app undo_step]. apply valid_one. cbn. split; [apply nodup_skipn, ND|].
    split; [intros q J; apply F, (in_skipn _ _ _ J)|]. intros q J. split; [|exact Logic.I]. intros [<-|[]]. revert J. apply nth_skip_off; auto. lia.
  - apply valid_one. cbn. split; [apply nodup_firstn, nodup_skipn, ND|]. split; [intros q J; apply F, (in_skipn _ m), (in_firstn _ _ _ J)|].
    intros q J. split; [|exact Logic.I]. intros [E|[]]. destruct (exists_last (l := qf)) as (l & a & ->); [intros ->; cbn in Len; lia|].
    rewrite last_last in E. subst q. rewrite app_length in *. cbn [length] in *. rewrite skipn_app in J. replace (m - length l)%nat with 0%nat in J by lia. cbn [skipn] in J.
    replace (length l + 1 - 1 - m)%nat with (length (skipn m l)) in J by (rewrite skipn_length; lia). rewrite firstn_app, firstn_all, Nat.sub_diag, app_nil_r in J.
    apply in_skipn in J. apply (NoDup_remove_2 _ _ _ ND). rewrite app_nil_r. exact J.
  - apply valid_bubble; [apply NoDup_rev, nodup_skipn, ND|]. intros q J. apply F, (in_skipn _ m), in_rev, J.
  - apply valid_one. cbn. split; [|split; apply F, nth_In; lia]. intros E. apply NoDup_nth in E; auto; lia.
Qed.
Lemma valid_multiply x X y N m mont res aux p : register (aux ++ res ++ y) x -> length aux = (m + 1)%nat -> (0 < length res)%nat ->
  cq_montgomery_multiply X y N m mont res aux = Some p -> valid (length x) p.
Proof.
  intros R La Hr. unfold cq_montgomery_multiply. destruct (modinv N (Z.shiftl (Z.shiftl 1 (Z.of_nat m)) 1)) as [N1|]; [|discriminate]. intros E.
  assert (E' := f_equal (fun o => match o with Some z => z | None => [] end) E). cbv beta iota zeta in E'. subst p. clear E.
  assert (R' := R). rewrite app_assoc in R'. destruct (register_app _ _ _ R') as (RT & Ry & Off).
  apply valid_app; [|apply valid_app].
  - apply valid_flat_map. intros i I. apply in_seq in I. apply valid_one. cbn. split; [apply (proj1 RT)|]. split; [apply (proj2 RT)|]. intros q J. split; [|exact Logic.I].
    intros [<-|[]]. apply (Off _ J). apply nth_In. lia.
  - apply (valid_reduction _ _ _ _ (length res)); [apply (proj1 RT)|apply (proj2 RT)|rewrite app_length; lia|exact Hr].
  - apply valid_flat_map. intros i I. apply in_seq in I. cbn [inverted map rev app undo_step]. apply valid_one. cbn. destruct (register_app _ _ _ RT) as (Ra & _ & _).
    split; [apply (proj1 Ra)|]. split; [apply (proj2 Ra)|]. intros q J. split; [|exact Logic.I]. intros [<-|[]]. apply (Off (nth (length y - i - 1) y 0%nat)); [apply in_or_app; auto|apply nth_In; lia].
Qed.

(** ** swapping registers *)
Lemma swap_run c : forall a b x, length a = length b -> register (a ++ b) x -> (forall q, In q (a ++ b) -> ~ In q c) ->
  execute (swap_regs c a b) x = if forallb (getbit x) c then write (write x a (read x b)) b (read x a) else x.
Proof.
  induction a as [|p a IH]; intros [|q b] x L R O; try discriminate.
  - cbn. destruct (forallb _ c); reflexivity.
  - cbn [length] in L. injection L as L. assert (R' : register (a ++ b) x /\ p <> q /\ ~ In p a /\ ~ In p b /\ ~ In q a /\ ~ In q b).
    { destruct R as [N F]. cbn [app] in N. inversion N as [|? ? N1 N2]; subst. pose proof (NoDup_remove_1 _ _ _ N2) as N3. pose proof (NoDup_remove_2 _ _ _ N2) as N4.
      rewrite in_app_iff in N1, N4. cbn [In] in N1. split; [split; [exact N3|]|].
      - intros z I. apply F. cbn. right. apply in_app_or in I. apply in_or_app. cbn. tauto.
      - repeat split; tauto || (intros ->; tauto). }
    destruct R' as (R' & N & Np & Np' & Nq & Nq'). change (swap_regs c (p :: a) (q :: b)) with (Swp c p q :: swap_regs c a b). rewrite execute_cons. cbn [perform].
    assert (Oc : forall z, In z c -> z <> p /\ z <> q).
    { intros z I. split; intros ->; [apply (O p)|apply (O q)]; auto; [left; auto|apply in_or_app; right; left; auto]. }
    assert (Oab : forall z, In z (a ++ b) -> ~ In z c).
    { intros z I. apply O. cbn. right. apply in_app_or in I. apply in_or_app. cbn. tauto. }
    destruct (forallb (getbit x) c) eqn:C; [|rewrite IH by auto; rewrite C; reflexivity].
    set (x1 := setbit (setbit x p (getbit x q)) q (getbit x p)).
    rewrite IH; auto; [|apply (register_length _ x); [unfold x1; rewrite !setbit_length; reflexivity|exact R']].
    rewrite (forallb_off x x1) by (intros z I; unfold x1; destruct (Oc z I); rewrite !getbit_set_other; auto). rewrite C.
    assert (E : forall l, ~ In p l -> ~ In q l -> read x1 l = read x l).
    { intros l P Q. apply map_ext_in. intros z I. unfold x1. rewrite !getbit_set_other; auto; intros ->; auto. }
    rewrite !E by auto. cbn [read map]. fold (read x a) (read x b). cbn [write]. unfold x1. rewrite !write_set by auto. reflexivity.
Qed.
Lemma swap_values c a b x : length a = length b -> register (a ++ b) x -> (forall q, In q (a ++ b) -> ~ In q c) -> forallb (getbit x) c = true ->
  execute (swap_regs c a b) x = store (store x a (value x b)) b (value x a).
Proof.
  intros L R O C. rewrite swap_run, C by auto. unfold store, value.
  assert (Ea : bits_of (length a) (number (read x b)) = read x b) by (rewrite L; rewrite <- (bits_number (read x b)) at 2; rewrite read_length; reflexivity).
  assert (Eb : bits_of (length b) (number (read x a)) = read x a) by (rewrite <- L; rewrite <- (bits_number (read x a)) at 2; rewrite read_length; reflexivity).
  rewrite Ea, Eb. reflexivity.
Qed.

Definition guarded (tmp y : list nat) (ctrl : option nat) := match ctrl with None => [] | Some c => [Flip c] ++ swap_regs [c] tmp y ++ [Flip c] end.
Lemma guarded_on tmp y ctrl z : length tmp = length y -> register (tmp ++ y) z -> (forall q, In q (tmp ++ y) -> ~ In q (opt_control ctrl)) ->
  (forall q, In q (opt_control ctrl) -> (q < length z)%nat) -> forallb (getbit z) (opt_control ctrl) = true -> execute (guarded tmp y ctrl) z = z.
Proof.
  intros L R O F. unfold guarded. destruct ctrl as [k|]; [|reflexivity]. cbn [opt_control forallb] in *. rewrite andb_true_r. intros C. rewrite !execute_app. cbn [execute fold_left perform]. rewrite C. cbn [negb].
  fold (execute (swap_regs [k] tmp y) (setbit z k false)). assert (K : (k < length z)%nat) by (apply F; left; auto).
  rewrite swap_run; [|exact L|apply (register_length _ z); [rewrite setbit_length; reflexivity|exact R]|exact O]. cbn [forallb]. rewrite getbit_set_same by exact K. cbn [andb].
  rewrite getbit_set_same by exact K. cbn [negb]. rewrite setbit_twice, <- C. apply setbit_get.
Qed.
Lemma guarded_off tmp y ctrl z : length tmp = length y -> register (tmp ++ y) z -> (forall q, In q (tmp ++ y) -> ~ In q (opt_control ctrl)) ->
  (forall q, In q (opt_control ctrl) -> (q < length z)%nat) -> forallb (getbit z) (opt_control ctrl) = false ->
  execute (guarded tmp y ctrl) z = store (store z tmp (value z y)) y (value z tmp).
Proof.
  intros L R O F. unfold guarded. destruct ctrl as [k|]; [|discriminate]. cbn [opt_control forallb] in *. rewrite andb_true_r. intros C. rewrite !execute_app. cbn [execute fold_left perform]. rewrite C. cbn [negb].
  fold (execute (swap_regs [k] tmp y) (setbit z k true)). assert (K : (k < length z)%nat) by (apply F; left; auto).
  assert (Ky : ~ In k y) by (intros I; apply (O k); [apply in_or_app; auto|left; auto]). assert (Kt : ~ In k tmp) by (intros I; apply (O k); [apply in_or_app; auto|left; auto]).
  assert (Ev : forall l, ~ In k l -> value (setbit z k true) l = value z l) by (intros l H; unfold value, read; f_equal; apply map_ext_in; intros q I; apply getbit_set_other; intros ->; auto).
  rewrite swap_values; [|exact L|apply (register_length _ z); [rewrite setbit_length; reflexivity|exact R]|exact O|cbn [forallb]; rewrite getbit_set_same by exact K; reflexivity].
  rewrite !Ev by auto. rewrite !store_other by auto. rewrite getbit_set_same by exact K. cbn [negb]. unfold store. rewrite !write_set by auto. rewrite setbit_twice.
  set (W := write _ _ _). assert (EW : getbit W k = false) by (unfold W; rewrite !write_other by auto; exact C). rewrite <- EW. apply setbit_get.
Qed.

Section layout.
Context (x : list bool) (y tmp aux aux' : list nat) (ctrl : option nat).
Let n := length y.
Let c := opt_control ctrl.
Context (Rg : register (y ++ tmp ++ aux ++ aux' ++ c) x).
Lemma off_all0 q : (In q y -> ~ In q tmp /\ ~ In q aux /\ ~ In q aux' /\ ~ In q c) /\ (In q tmp -> ~ In q aux /\ ~ In q aux' /\ ~ In q c) /\ (In q aux -> ~ In q aux' /\ ~ In q c) /\ (In q aux' -> ~ In q c).
Proof.
  destruct (register_app _ _ _ Rg) as (R1 & R1' & D1). destruct (register_app _ _ _ R1') as (R2 & R2' & D2). destruct (register_app _ _ _ R2') as (R3 & R3' & D3).
  destruct (register_app _ _ _ R3') as (R4 & R4' & D4). specialize (D1 q). specialize (D2 q). specialize (D3 q). specialize (D4 q). repeat rewrite in_app_iff in D1. repeat rewrite in_app_iff in D2. repeat rewrite in_app_iff in D3.
  split; [intros I; specialize (D1 I); tauto|]. split; [intros I; specialize (D2 I); tauto|]. split; [intros I; specialize (D3 I); tauto|exact D4].
Qed.
Lemma regs0 : register y x /\ register tmp x /\ register aux x /\ register aux' x.
Proof.
  destruct (register_app _ _ _ Rg) as (R1 & R1' & D1). destruct (register_app _ _ _ R1') as (R2 & R2' & D2). destruct (register_app _ _ _ R2') as (R3 & R3' & D3).
  destruct (register_app _ _ _ R3') as (R4 & R4' & D4). auto.
Qed.
Lemma Rfor0 z : length z = length x -> register (aux ++ tmp ++ y) z.
Proof.
  intros L. apply (register_length _ x); [auto|]. destruct regs0 as (R1 & R2 & R3 & R4). apply app_register; [exact R3|apply app_register; auto|].
  - intros q I J. destruct (off_all0 q) as (A & _). tauto.
  - intros q I J. apply in_app_or in J. destruct (off_all0 q) as (A & B & _). tauto.
Qed.
Lemma Rback0 z : length z = length x -> register (aux' ++ y ++ tmp) z.
Proof.
  intros L. apply (register_length _ x); [auto|]. destruct regs0 as (R1 & R2 & R3 & R4). apply app_register; [exact R4|apply app_register; auto|].
  - intros q I J. destruct (off_all0 q) as (A & _). tauto.
  - intros q I J. apply in_app_or in J. destruct (off_all0 q) as (A & B & _). tauto.
Qed.
Lemma moved0 z l : length z = length x -> register l x -> register l z. Proof. intros L R. apply (register_length _ x); auto. Qed.
Lemma off_c0 q : In q (tmp ++ y) -> ~ In q c.
Proof. intros I. apply in_app_or in I. destruct (off_all0 q). tauto. Qed.
Lemma Rswap0 z : length z = length x -> register (tmp ++ y) z.
Proof. intros L. destruct regs0 as (Ry & Rt & _). apply moved0; auto. apply app_register; auto. intros q I J. destruct (off_all0 q). tauto. Qed.
Context (Lt : length tmp = n).
Lemma guard_on0 z : length z = length x -> forallb (getbit z) c = true -> execute (guarded tmp y ctrl) z = z.
Proof. intros L C. apply guarded_on; auto; [apply Rswap0, L|exact off_c0|]. intros q I. rewrite L. apply (proj2 Rg). rewrite !in_app_iff. auto. Qed.
Lemma guard_off0 z : length z = length x -> forallb (getbit z) c = false -> execute (guarded tmp y ctrl) z = store (store z tmp (value z y)) y (value z tmp).
Proof. intros L C. apply guarded_off; auto; [apply Rswap0, L|exact off_c0|]. intros q I. rewrite L. apply (proj2 Rg). rewrite !in_app_iff. auto. Qed.
End layout.

Section inplace.
Context (x : list bool) (y tmp aux aux' : list nat) (N X : Z) (m : nat) (ctrl : option nat).
Let n := length y.
Let c := opt_control ctrl.
Context (Rg : register (y ++ tmp ++ aux ++ aux' ++ c) x) (Lt : length tmp = n) (La : length aux = (m + 1)%nat) (La' : length aux' = (m + 1)%nat)
        (Odd : Z.odd N = true) (HN : 3 <= N <= two n) (Zt : value x tmp = 0) (Za : value x aux = 0) (Za' : value x aux' = 0) (HX : 0 <= X) (Cop : Z.gcd X N = 1).
Lemma n_pos : (0 < n)%nat.
Proof. pose proof HN as H. clear - H. destruct (Nat.eq_dec n 0) as [E|E]; [rewrite E in H; change (two 0) with 1 in H; lia|lia]. Qed.
Lemma sep l l1 l2 l3 : register (l1 ++ l2 ++ l3) x -> l = l2 -> register l x.
Proof. intros R ->. apply (register_app _ _ _ (proj1 (proj2 (register_app _ _ _ R)))). Qed.
Lemma off_all q : (In q y -> ~ In q tmp /\ ~ In q aux /\ ~ In q aux' /\ ~ In q c) /\ (In q tmp -> ~ In q aux /\ ~ In q aux' /\ ~ In q c) /\ (In q aux -> ~ In q aux' /\ ~ In q c) /\ (In q aux' -> ~ In q c).
Proof.
  destruct (register_app _ _ _ Rg) as (R1 & R1' & D1). destruct (register_app _ _ _ R1') as (R2 & R2' & D2). destruct (register_app _ _ _ R2') as (R3 & R3' & D3).
  destruct (register_app _ _ _ R3') as (R4 & R4' & D4). specialize (D1 q). specialize (D2 q). specialize (D3 q). specialize (D4 q). repeat rewrite in_app_iff in D1. repeat rewrite in_app_iff in D2. repeat rewrite in_app_iff in D3.
  split; [intros I; specialize (D1 I); tauto|]. split; [intros I; specialize (D2 I); tauto|]. split; [intros I; specialize (D3 I); tauto|exact D4].
Qed.
Lemma regs : register y x /\ register tmp x /\ register aux x /\ register aux' x.
Proof.
  destruct (register_app _ _ _ Rg) as (R1 & R1' & D1). destruct (register_app _ _ _ R1') as (R2 & R2' & D2). destruct (register_app _ _ _ R2') as (R3 & R3' & D3).
  destruct (register_app _ _ _ R3') as (R4 & R4' & D4). auto.
Qed.
Lemma Rfor z : length z = length x -> register (aux ++ tmp ++ y) z.
Proof.
  intros L. apply (register_length _ x); [auto|]. destruct regs as (R1 & R2 & R3 & R4). apply app_register; [exact R3|apply app_register; auto|].
  - intros q I J. destruct (off_all q) as (A & _). tauto.
  - intros q I J. apply in_app_or in J. destruct (off_all q) as (A & B & _). tauto.
Qed.
Lemma Rback z : length z = length x -> register (aux' ++ y ++ tmp) z.
Proof.
  intros L. apply (register_length _ x); [auto|]. destruct regs as (R1 & R2 & R3 & R4). apply app_register; [exact R4|apply app_register; auto|].
  - intros q I J. destruct (off_all q) as (A & _). tauto.
  - intros q I J. apply in_app_or in J. destruct (off_all q) as (A & B & _). tauto.
Qed.
Definition X1 : Z := match modinv X N with Some r => r | None => 0 end.
Lemma X1_spec : modinv X N = Some X1 /\ 0 <= X1 < N /\ (X * X1) mod N = 1.
Proof. unfold X1. destruct (modinv_spec X N) as (r & E & H); [lia|lia|exact Cop|]. rewrite E. auto. Qed.
Definition prod : Z := (X * value x y) mod N.
Definition v := value x y.
(** the sums of the partial products of both directions *)
Context (B1 : selected_sum x y (fun j => ((X * two m) mod N * two j) mod N) < N * two m)
        (B2 : selected_sum (store x y prod) y (fun j => ((X1 * two m) mod N * two j) mod N) < N * two m).

Lemma result_unique S k : 0 <= S < N -> (S * two m) mod N = ((k * two m) mod N * v) mod N -> S = (k * v) mod N.
Proof.
  intros HS E. rewrite <- (Z.mod_small S N) by exact HS. apply (two_cancel N m); [exact Odd|lia|]. rewrite E, Zmult_mod_idemp_l. f_equal. ring.
Qed.

Definition forward_p := match cq_montgomery_multiply X y N m false tmp aux with Some p => p | None => [] end.
Definition backward_p := match cq_montgomery_multiply X1 tmp N m false y aux' with Some p => p | None => [] end.
Lemma forward_some : cq_montgomery_multiply X y N m false tmp aux = Some forward_p.
Proof.
  destruct (multiply_shape y aux tmp N X m false) as (N1 & _ & E); auto; try (rewrite Lt); try (fold n; lia); try exact n_pos.
  unfold forward_p. rewrite E. reflexivity.
Qed.
Lemma backward_some : cq_montgomery_multiply X1 tmp N m false y aux' = Some backward_p.
Proof.
  destruct (multiply_shape tmp aux' y N X1 m false) as (N1 & _ & E); auto; try (fold n; lia); try exact n_pos.
  unfold backward_p. rewrite E. reflexivity.
Qed.

Lemma value_bit z l j : register l z -> (j < length l)%nat -> getbit z (nth j l 0%nat) = Z.testbit (value z l) (Z.of_nat j).
Proof. intros R J. rewrite <- (store_value z l) at 1 by apply (proj1 R). apply bit_store; auto. Qed.
Lemma bit_sum_value z l z' l' f : register l z -> register l' z' -> length l = length l' -> value z l = value z' l' ->
  bit_sum z l f (seq 0 (length l)) = bit_sum z' l' f (seq 0 (length l')).
Proof.
  intros R R' L V. rewrite L. apply sumf_ext. intros j I. apply in_seq in I. rewrite !value_bit by (auto; lia). rewrite V. reflexivity.
Qed.
Lemma zero_store z l : register l z -> value z l = 0 -> store z l 0 = z.
Proof. intros R V. rewrite <- V. apply store_value, (proj1 R). Qed.
Lemma len1 l w : length (store x l w) = length x. Proof. apply store_length. Qed.
Lemma moved z l : length z = length x -> register l x -> register l z. Proof. intros L R. apply (register_length _ x); auto. Qed.

Lemma forward_on : v < N -> execute forward_p x = store x tmp prod.
Proof.
  intros Hv. destruct (multiply_fits x y aux tmp N X m false) as (p & S & E & R & HS & C); auto; try (apply Rfor; reflexivity); try (rewrite Lt); try (fold n; lia); try exact n_pos; try exact B1.
  rewrite forward_some in E. injection E as <-. rewrite R. f_equal. apply result_unique; auto.
Qed.
Lemma backward_on : 0 <= v < N -> execute (inverted backward_p) (store x tmp prod) = store (store x tmp prod) y 0.
Proof.
  intros Hv. destruct regs as (Ry & Rt & Ra & Ra'). set (x1 := store x tmp prod). set (x2 := store x1 y 0).
  assert (L1 : length x1 = length x) by apply len1. assert (L2 : length x2 = length x) by (unfold x2; rewrite store_length; exact L1).
  assert (P : 0 <= prod < N) by (apply Z.mod_pos_bound; lia).
  assert (Vt : value x1 tmp = prod) by (unfold x1; rewrite value_store, Lt by exact Rt; apply Z.mod_small; lia).
  assert (Vt2 : value x2 tmp = prod) by (unfold x2; rewrite value_store_off; [exact Vt|]; intros q I J; destruct (off_all q); tauto).
  assert (Vy1 : value x1 y = v) by (unfold x1; rewrite value_store_off; [reflexivity|]; intros q I J; destruct (off_all q); tauto).
  assert (Vy2 : value x2 y = 0) by (unfold x2; rewrite value_store by (apply moved; auto); apply Z.mod_0_l; pose proof (two_pos (length y)); lia).
  assert (Va2 : value x2 aux' = 0).
  { unfold x2, x1. rewrite !value_store_off; [exact Za'| |]; intros q I J; destruct (off_all q); tauto. }
  assert (E : execute backward_p x2 = x1).
  { destruct (multiply_fits x2 tmp aux' y N X1 m false) as (p & S & E & R & HS & C); auto; try (apply Rback; exact L2); try (fold n; lia); try exact n_pos.
    - replace (pieces x2 tmp N X1 m false) with (selected_sum (store x y prod) y (fun j => ((X1 * two m) mod N * two j) mod N)); [exact B2|].
      rewrite selected_sumf. unfold pieces. apply bit_sum_value; auto; try (apply moved; auto; apply len1).
      rewrite Vt2. rewrite value_store by exact Ry. apply Z.mod_small. fold n. lia.
    - rewrite backward_some in E. injection E as <-. rewrite R. replace S with v.
      + unfold x2. rewrite store_store by apply (proj1 Ry). rewrite <- Vy1. apply store_value, (proj1 Ry).
      + rewrite <- (Z.mod_small S N) by exact HS. rewrite <- (Z.mod_small v N) by exact Hv. apply (two_cancel N m); [exact Odd|lia|]. rewrite C, Vt2. unfold enc, prod. cbv iota.
        rewrite Zmult_mod_idemp_l, Zmult_mod_idemp_r. fold v. replace (X1 * two m * (X * v)) with (X * X1 * (v * two m)) by ring.
        rewrite <- (Zmult_mod_idemp_l (X * X1)), (proj2 (proj2 X1_spec)). f_equal. ring. }
  rewrite <- E. apply inverted_undoes. rewrite L2. apply (valid_multiply x X1 tmp N m false y aux'); [apply Rback; reflexivity|exact La'|exact n_pos|exact backward_some].
Qed.
Lemma off_c q : In q (tmp ++ y) -> ~ In q c.
Proof. intros I. apply in_app_or in I. destruct (off_all q). tauto. Qed.
Lemma Rswap z : length z = length x -> register (tmp ++ y) z.
Proof. intros L. destruct regs as (Ry & Rt & _). apply moved; auto. apply app_register; auto. intros q I J. destruct (off_all q). tauto. Qed.
Lemma final_swap : v < N -> forallb (getbit x) c = true ->
  execute (swap_regs c tmp y) (store (store x tmp prod) y 0) = store x y prod.
Proof.
  intros Hv C. destruct regs as (Ry & Rt & Ra & Ra'). assert (P : 0 <= prod < N) by (apply Z.mod_pos_bound; lia).
  set (x1 := store x tmp prod). set (x2 := store x1 y 0). assert (L2 : length x2 = length x) by (unfold x2, x1; rewrite !store_length; reflexivity).
  assert (D : forall q, In q y -> ~ In q tmp) by (intros q I J; destruct (off_all q); tauto).
  rewrite swap_values; [|exact Lt|apply Rswap, L2|exact off_c|].
  - replace (value x2 y) with 0 by (unfold x2; rewrite value_store by (apply moved; auto; apply len1); symmetry; apply Z.mod_0_l; pose proof (two_pos (length y)); lia).
    replace (value x2 tmp) with prod.
    + unfold x2. rewrite (store_comm x1 y tmp); [|apply moved; auto; apply len1|apply moved; auto; apply len1|exact D]. rewrite store_store by apply (proj1 Ry).
      unfold x1. rewrite store_store by apply (proj1 Rt). rewrite (zero_store x tmp Rt Zt). reflexivity.
    + unfold x2. rewrite value_store_off by (intros q I J; apply (D q J I)). unfold x1. rewrite value_store, Lt by exact Rt. symmetry. apply Z.mod_small. lia.
  - rewrite <- C. apply forallb_off. intros q I. unfold x2, x1. rewrite !store_other; [reflexivity| |]; intros J; destruct (off_all q); tauto.
Qed.
Lemma guard_on z : length z = length x -> forallb (getbit z) c = true -> execute (guarded tmp y ctrl) z = z.
Proof. intros L C. apply guarded_on; auto; [apply Rswap, L|exact off_c|]. intros q I. rewrite L. apply (proj2 Rg). rewrite !in_app_iff. auto. Qed.
Lemma guard_off z : length z = length x -> forallb (getbit z) c = false -> execute (guarded tmp y ctrl) z = store (store z tmp (value z y)) y (value z tmp).
Proof. intros L C. apply guarded_off; auto; [apply Rswap, L|exact off_c|]. intros q I. rewrite L. apply (proj2 Rg). rewrite !in_app_iff. auto. Qed.
Definition whole := guarded tmp y ctrl ++ forward_p ++ guarded tmp y ctrl ++ inverted backward_p ++ swap_regs c tmp y.
Lemma whole_on : 0 <= v < N -> forallb (getbit x) c = true -> execute whole x = store x y prod.
Proof.
  intros Hv C. unfold whole. rewrite !execute_app. rewrite (guard_on x) by auto. rewrite forward_on by (unfold v in *; lia).
  rewrite guard_on; [|apply len1|rewrite <- C; apply forallb_off; intros q I; apply store_other; intros J; destruct (off_all q); tauto].
  rewrite backward_on by exact Hv. apply final_swap; auto. unfold v in *; lia.
Qed.
End inplace.

Section disabled.
Context (x : list bool) (y tmp aux aux' : list nat) (N X : Z) (m : nat) (ctrl : option nat).
Let n := length y.
Let c := opt_control ctrl.
Context (Rg : register (y ++ tmp ++ aux ++ aux' ++ c) x) (Lt : length tmp = n) (La : length aux = (m + 1)%nat) (La' : length aux' = (m + 1)%nat)
        (Odd : Z.odd N = true) (HN : 3 <= N <= two n) (Zt : value x tmp = 0) (Za : value x aux = 0) (Za' : value x aux' = 0) (Cop : 0 <= X /\ Z.gcd X N = 1).
Lemma whole_off : forallb (getbit x) c = false -> execute (whole y tmp aux aux' N X m ctrl) x = x.
Proof.
  intros C. destruct (regs0 x y tmp aux aux' ctrl Rg) as (Ry & Rt & Ra & Ra'). assert (O := off_all0 x y tmp aux aux' ctrl Rg). fold c in O.
  assert (Np : (0 < n)%nat) by (eapply (n_pos y N); eassumption). pose proof (two_pos n) as Tn.
  unfold whole. rewrite !execute_app.
  assert (D : forall q, In q y -> ~ In q tmp) by (intros q I J; destruct (O q); tauto).
  assert (D' : forall q, In q tmp -> ~ In q y) by (intros q I J; destruct (O q); tauto).
  set (u := value x y). pose proof (value_range x y) as U. fold u n in U.
  rewrite (guard_off0 x y tmp aux aux' ctrl Rg Lt x) by auto. fold u. rewrite Zt. fold c in C.
  set (xs := store (store x tmp u) y 0). assert (Ls : length xs = length x) by (unfold xs; rewrite !store_length; reflexivity).
  assert (Vy : value xs y = 0) by (unfold xs; rewrite value_store by (apply (register_length _ x); [rewrite store_length|]; auto); apply Z.mod_0_l; fold n; lia).
  assert (Vt : value xs tmp = u) by (unfold xs; rewrite value_store_off by exact D'; rewrite value_store, Lt by exact Rt; apply Z.mod_small; exact U).
  assert (Va : value xs aux = 0) by (unfold xs; rewrite !value_store_off; [exact Za| |]; intros q I J; destruct (O q); tauto).
  set (w := twist N n u). assert (W : 0 <= w < two n) by (apply Z.mod_pos_bound; lia).
  assert (EF : execute (forward_p y tmp aux N X m) xs = store xs tmp w).
  { destruct (multiply_upper xs y aux tmp N X m false) as (p & E & R); auto; try (rewrite Lt); try (fold n; lia).
    - eapply (Rfor0 x y tmp aux aux'); eassumption.
    - unfold forward_p. rewrite E, R. fold n. rewrite Vt. unfold w. rewrite Lt. reflexivity. }
  rewrite EF. assert (EX : store xs tmp w = store (store x tmp w) y 0).
  { unfold xs. rewrite store_comm; [|apply (register_length _ x); [rewrite store_length|]; auto..|exact D]. rewrite store_store by apply (proj1 Rt). reflexivity. }
  rewrite EX. clear EF. set (xt := store (store x tmp w) y 0). assert (Lx : length xt = length x) by (unfold xt; rewrite !store_length; reflexivity).
  assert (Cx : forall z, (forall q, In q c -> getbit z q = getbit x q) -> forallb (getbit z) c = false) by (intros z H; rewrite <- C; apply forallb_off, H).
  rewrite (guard_off0 x y tmp aux aux' ctrl); auto; [|apply Cx; intros q I; unfold xt; rewrite !store_other; auto; intros J; destruct (O q); tauto].
  replace (value xt y) with 0 by (symmetry; unfold xt; rewrite value_store by (apply (register_length _ x); [rewrite store_length|]; auto); apply Z.mod_0_l; fold n; lia).
  replace (value xt tmp) with w by (symmetry; unfold xt; rewrite value_store_off by exact D'; rewrite value_store, Lt by exact Rt; apply Z.mod_small; exact W).
  assert (EY : store (store xt tmp 0) y w = store x y w).
  { unfold xt. rewrite (store_comm (store x tmp w) y tmp); [|apply (register_length _ x); [rewrite store_length|]; auto..|exact D]. rewrite store_store by apply (proj1 Ry).
    rewrite store_store by apply (proj1 Rt). rewrite zero_store by auto. reflexivity. }
  rewrite EY. clear EY EX.
  assert (EB : execute (backward_p y tmp aux' N X m) x = store x y w).
  { destruct (multiply_upper x tmp aux' y N (X1 N X) m false) as (p & E & R); auto; try (fold n; lia).
    - eapply (Rback0 x y tmp aux aux'); [eassumption|reflexivity].
    - unfold backward_p. rewrite E, R. reflexivity. }
  assert (V : valid (length x) (backward_p y tmp aux' N X m)).
  { apply (valid_multiply x (X1 N X) tmp N m false y aux'); auto; [eapply (Rback0 x y tmp aux aux'); [eassumption|reflexivity]|].
    eapply backward_some; eassumption. }
  rewrite <- EB, inverted_undoes by exact V. rewrite swap_run; [fold c; rewrite C; reflexivity|exact Lt|eapply (Rswap0 x y tmp aux aux'); [eassumption|reflexivity]|].
  intros q I. eapply (off_c0 x y tmp aux aux'); eassumption.
Qed.
End disabled.
