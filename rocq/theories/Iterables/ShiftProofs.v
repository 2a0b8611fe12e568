From Coq Require Import ZArith List Bool Arith Lia Permutation.
From Verif.Iterables Require Import IterModel IterSpec IterProofs.
Import ListNotations.

Lemma NoDup_app_remove_l : forall (a b : list nat), NoDup (a ++ b) -> NoDup b.
Proof. induction a; cbn; intros; auto. inversion H; subst. auto. Qed.
Lemma NoDup_app_remove_r : forall (a b : list nat), NoDup (a ++ b) -> NoDup a.
Proof. induction a; cbn; intros; [constructor|]. inversion H; subst. constructor; eauto. intros I. apply H2, in_or_app. now left. Qed.
(** * shift by one *)
Lemma shift_one_rot : forall {A} ids (st : nat -> A), NoDup ids -> ids <> [] -> rearranged ids (rot (length ids)) st (run_swaps (shift_one ids) st).
Proof.
  intros A ids st ND NE. unfold shift_one. assert (LN : 0 < length ids) by (destruct ids; [easy|cbn; lia]).
  destruct (Nat.log2_spec (length ids) LN) as [H1 H2]. set (n := Nat.log2 (length ids)) in *. rewrite Nat.pow_succ_r' in H2. set (m := 2 ^ n) in *.
  assert (M0 : 0 < m) by (pose proof (Nat.pow_nonzero 2 n); unfold m; lia).
  assert (Sp : ids = firstn m ids ++ skipn m ids) by (symmetry; apply firstn_skipn).
  assert (Lf : length (firstn m ids) = m) by (rewrite firstn_length; lia). assert (Ls : length (skipn m ids) = length ids - m) by apply skipn_length.
  assert (NDf : NoDup (firstn m ids) /\ NoDup (skipn m ids) /\ forall x, In x (firstn m ids) -> ~ In x (skipn m ids)).
  { rewrite Sp in ND. split; [|split]. now apply NoDup_app_remove_r in ND. now apply NoDup_app_remove_l in ND.
    intros x I1 I2. apply in_split in I1 as (a & b & E). rewrite E, <- app_assoc in ND. apply NoDup_app_remove_l in ND. cbn in ND. inversion ND; subst. apply H3, in_or_app. now right. }
  destruct NDf as (ND1 & ND2 & DJ).
  assert (NF : forall i, i < m -> nth i (firstn m ids) 0 = nth i ids 0). { intros. rewrite Sp at 2. now rewrite app_nth1 by lia. }
  assert (NS : forall i, nth i (skipn m ids) 0 = nth (m + i) ids 0). { intros. rewrite Sp at 2. rewrite app_nth2 by lia. f_equal. lia. }
  assert (H0 : In (at_ ids 0) (firstn m ids)). { unfold at_. rewrite <- NF by lia. apply nth_In. lia. }
  assert (ND3 : NoDup (at_ ids 0 :: skipn m ids)). { constructor; auto. }
  rewrite run_app.
  destruct (ladder_rot (firstn m ids) n st ND1 Lf) as [R1 O1]. rewrite Lf in R1.
  set (st1 := run_swaps (singular_shift (firstn m ids) false) st) in *.
  destruct (saeedi_rot (at_ ids 0 :: skipn m ids) st1 ND3) as [R2 O2]. set (st2 := run_swaps (singular_shift (at_ ids 0 :: skipn m ids) true) st1) in *.
  cbn [length] in R2. rewrite Ls in R2.
  split.
  - intros i Li. unfold rot. set (N := length ids) in *.
    assert (RA : forall N x, x < N -> x mod N = x) by (intros; apply Nat.mod_small; lia).
    assert (RB : forall N i, 0 < i -> i <= N -> (i + (N - 1)) mod N = i - 1). { intros M k K1 K2. replace (k + (M - 1)) with (k - 1 + 1 * M) by lia. rewrite Nat.mod_add by lia. apply RA. lia. }
    destruct (Nat.eq_dec i 0) as [->|I0].
    + specialize (R2 0 (ltac:(lia))). cbn [nth] in R2. fold (at_ ids 0). rewrite R2. unfold rot. cbn [plus]. rewrite !RA by lia.
      destruct (Nat.eq_dec N m) as [E|E].
      * replace (S (N - m) - 1) with 0 by lia. cbn [nth]. unfold at_. rewrite <- (NF 0) by lia. rewrite R1 by lia. unfold rot. cbn [plus]. rewrite RA by lia. rewrite NF by lia. now rewrite E.
      * replace (S (N - m) - 1) with (S (N - m - 1)) by lia. cbn [nth]. rewrite NS. rewrite O1; [do 2 f_equal; lia|]. intros I. apply (DJ _ I). rewrite <- NS. apply nth_In. lia.
    + rewrite RB by lia. destruct (lt_dec i m) as [Im|Im].
      * rewrite O2. { rewrite <- NF by lia. rewrite R1 by lia. unfold rot. rewrite RB by lia. now rewrite NF by lia. }
        intros [E|I]. { unfold at_ in E. apply (proj1 (NoDup_nth ids 0) ND) in E; lia. }
        rewrite <- NF in I by lia. apply (DJ (nth i (firstn m ids) 0)); auto. apply nth_In. lia.
      * specialize (R2 (S (i - m)) (ltac:(lia))). cbn [nth] in R2. rewrite NS in R2. replace (m + (i - m)) with i in R2 by lia. rewrite R2. unfold rot. rewrite RB by lia.
        destruct (Nat.eq_dec i m) as [->|Em].
        -- rewrite Nat.sub_diag. cbn [nth Nat.sub]. unfold at_. rewrite <- (NF 0) by lia. rewrite R1 by lia. unfold rot. cbn [plus]. rewrite RA by lia. now rewrite NF by lia.
        -- replace (S (i - m) - 1) with (S (i - m - 1)) by lia. cbn [nth]. rewrite NS. rewrite O1; [do 2 f_equal; lia|]. intros I. apply (DJ _ I). rewrite <- NS. apply nth_In. lia.
  - intros x Nx. unfold st2. rewrite O2. apply O1. intros I. apply Nx. rewrite Sp. apply in_or_app. now left.
    intros [<-|I]; apply Nx; [apply nth_In; lia|]. rewrite Sp. apply in_or_app. now right.
Qed.

(** * cycles *)
Definition cyc (f : nat -> nat) (c : list nat) : Prop := forall i, i < length c -> f (nth i c 0) = nth (S i mod length c) c 0.
Definition chain (f : nat -> nat) (c : list nat) : Prop := forall i, S i < length c -> f (nth i c 0) = nth (S i) c 0.
Definition keys (pi : list (nat * nat)) : list nat := map fst pi.
Lemma lookup_in : forall f pi k, (forall p, In p pi -> snd p = f (fst p)) -> lookup k pi = if has k pi then Some (f k) else None.
Proof.
  intros f pi k. unfold lookup, has. induction pi as [|[a b] pi IH]; intros; [reflexivity|]. cbn. destruct (a =? k) eqn:E.
  - apply Nat.eqb_eq in E. subst. specialize (H (k, b) (or_introl eq_refl)). cbn in *. now subst.
  - apply IH. intros. apply H. now right.
Qed.
Lemma has_in : forall k pi, has k pi = true <-> In k (keys pi).
Proof.
  intros. unfold has, keys. rewrite existsb_exists, in_map_iff. split; intros ([a b] & H1 & H2); exists (a, b); cbn in *.
  apply Nat.eqb_eq in H2. auto. subst. split; auto. apply Nat.eqb_refl.
Qed.
Lemma del_keys : forall k x pi, In x (keys (delete k pi)) <-> In x (keys pi) /\ x <> k.
Proof.
  intros. unfold keys, delete. rewrite !in_map_iff. split.
  - intros ([a b] & <- & I). apply filter_In in I as [I N]. cbn in *. apply negb_true_iff, Nat.eqb_neq in N. split; auto. now exists (a, b).
  - intros [([a b] & <- & I) N]. cbn in *. exists (a, b). split; auto. apply filter_In. split; auto. cbn. now apply negb_true_iff, Nat.eqb_neq.
Qed.
Lemma filter_nodup : forall {X} (g : X -> bool) (h : X -> nat) l, NoDup (map h l) -> NoDup (map h (filter g l)).
Proof.
  induction l as [|a l IH]; cbn; intros; [constructor|]. inversion H; subst. destruct (g a); cbn; auto. constructor; auto.
  rewrite in_map_iff in *. intros (x & E & I). apply H2. exists x. apply filter_In in I as [I _]. auto.
Qed.
Lemma filter_len : forall {X} (g : X -> bool) l, length (filter g l) <= length l.
Proof. induction l; cbn; [lia|]. destruct (g a); cbn; lia. Qed.
Lemma del_len : forall k pi, In k (keys pi) -> length (delete k pi) < length pi.
Proof.
  unfold keys, delete. induction pi as [|[a b] pi IH]; cbn; [easy|]. intros [->|I].
  - rewrite Nat.eqb_refl. cbn. pose proof (filter_len (fun p : nat * nat => negb (fst p =? k)) pi). lia.
  - specialize (IH I). destruct (negb (a =? k)); cbn; lia.
Qed.
Section cycles.
Variable f : nat -> nat.
Definition dict_ok (pi : list (nat * nat)) : Prop := NoDup (keys pi) /\ (forall p, In p pi -> snd p = f (fst p)).
Lemma dict_del : forall k pi, dict_ok pi -> dict_ok (delete k pi).
Proof. intros k pi [H1 H2]. split. now apply filter_nodup. intros p I. apply H2. unfold delete in I. apply filter_In in I. tauto. Qed.
Lemma nth_snoc : forall (c : list nat) x i, nth i (c ++ [x]) 0 = if i <? length c then nth i c 0 else if i =? length c then x else 0.
Proof.
  intros. destruct (i <? length c) eqn:E; [apply Nat.ltb_lt in E; now rewrite app_nth1|apply Nat.ltb_ge in E].
  rewrite app_nth2 by lia. destruct (i =? length c) eqn:E1; [apply Nat.eqb_eq in E1; subst; now rewrite Nat.sub_diag|apply Nat.eqb_neq in E1].
  destruct (i - length c) as [|k] eqn:E2; [lia|]. cbn. now destruct k.
Qed.
Lemma one_cycle_ok : forall fuel pi this cycle K, length pi < fuel -> dict_ok pi -> In this (keys pi) ->
  (forall x, In x K <-> In x (keys pi) \/ In x cycle) -> (forall x, In x (keys pi) -> ~ In x cycle) -> NoDup cycle ->
  chain f (cycle ++ [this]) -> (forall x, In x K -> In (f x) K) -> (forall x y, In x K -> In y K -> f x = f y -> x = y) ->
  exists c pi', one_cycle fuel pi this (f this) cycle = Some (c, pi') /\ dict_ok pi' /\ NoDup c /\ c <> [] /\ cyc f c /\
    (forall x, In x K <-> In x (keys pi') \/ In x c) /\ (forall x, In x (keys pi') -> ~ In x c) /\ length pi' < length pi.
Proof.
  induction fuel as [|fuel IH]; intros pi this cycle K LF D IT HK DJ ND CH CL INJ; [lia|].
  cbn [one_cycle]. pose proof (proj2 (has_in this pi) IT) as HT. rewrite HT. cbn zeta.
  rewrite (lookup_in f) by apply (dict_del this pi D). 
  assert (LD := del_len this pi IT).
  assert (HK' : forall x, In x K <-> In x (keys (delete this pi)) \/ In x (cycle ++ [this])).
  { intros x. rewrite HK, del_keys, in_app_iff. cbn. destruct (Nat.eq_dec x this); [subst; tauto|]. assert (this <> x) by auto. tauto. }
  assert (DJ' : forall x, In x (keys (delete this pi)) -> ~ In x (cycle ++ [this])).
  { intros x I J. apply del_keys in I as [I N]. apply in_app_iff in J as [J|[J|[]]]; [now apply (DJ x)|auto]. }
  assert (ND' : NoDup (cycle ++ [this])).
  { apply NoDup_rev in ND. rewrite <- (rev_involutive (cycle ++ [this])). apply NoDup_rev. rewrite rev_app_distr. cbn. constructor; auto. rewrite <- in_rev. now apply DJ. }
  assert (KT : In (f this) K) by (apply CL, HK; auto).
  destruct (has (f this) (delete this pi)) eqn:HN.
  - apply has_in in HN. destruct (IH (delete this pi) (f this) (cycle ++ [this]) K) as (c & pi' & E & P1 & P2 & P3 & P4 & P5 & P6 & P7); auto.
    + lia.
    + now apply dict_del.
    + intros i Hi. rewrite app_length in Hi. cbn in Hi. rewrite !(nth_snoc (cycle ++ [this])). rewrite app_length. cbn [length].
      destruct (i <? length cycle + 1) eqn:E1; [|apply Nat.ltb_ge in E1; rewrite app_length in Hi; cbn in Hi; lia].
      destruct (S i <? length cycle + 1) eqn:E2.
      * apply Nat.ltb_lt in E2. apply CH. rewrite app_length. cbn. lia.
      * apply Nat.ltb_lt in E1. apply Nat.ltb_ge in E2. assert (i = length cycle) by lia. subst i. rewrite nth_snoc, Nat.ltb_irrefl, Nat.eqb_refl.
        replace (S (length cycle) =? length cycle + 1) with true by (symmetry; apply Nat.eqb_eq; lia). reflexivity.
    + exists c, pi'. repeat (split; [assumption|]). lia.
  - exists (cycle ++ [this]), (delete this pi). split; [reflexivity|]. split; [now apply dict_del|]. split; [auto|]. split; [now destruct cycle|]. split; [|split; [auto|split; auto]].
    assert (FT : In (f this) (cycle ++ [this])). { destruct (proj1 (HK' _) KT) as [I|I]; auto. apply has_in in I. congruence. }
    assert (F0 : f this = nth 0 (cycle ++ [this]) 0).
    { apply In_nth with (d := 0) in FT as (j & Lj & Ej). destruct j as [|j]; [auto|]. exfalso.
      assert (Ej' : f (nth j (cycle ++ [this]) 0) = f this) by (rewrite <- Ej; apply CH; lia).
      apply INJ in Ej'; [|apply HK'; right; apply nth_In; lia|apply HK; auto].
      rewrite app_length in Lj. cbn in Lj. assert (E : nth (length cycle) (cycle ++ [this]) 0 = this) by (rewrite nth_snoc, Nat.ltb_irrefl, Nat.eqb_refl; reflexivity).
      rewrite <- E in Ej' at 2. apply (proj1 (NoDup_nth _ 0) ND') in Ej'; rewrite ?app_length; cbn; lia. }
    intros i Hi. rewrite app_length in *. cbn [length] in *. destruct (Nat.eq_dec i (length cycle)) as [->|NEi].
    + rewrite nth_snoc, Nat.ltb_irrefl, Nat.eqb_refl. rewrite F0. replace (S (length cycle)) with (length cycle + 1) by lia. now rewrite Nat.mod_same by lia.
    + rewrite Nat.mod_small by lia. apply CH. rewrite app_length. cbn. lia.
Qed.
Definition good (cs : list (list nat)) : Prop := Forall (fun c => c <> [] /\ cyc f c) cs /\ NoDup (concat cs).
Lemma NoDup_app_intro : forall (a b : list nat), NoDup a -> NoDup b -> (forall x, In x a -> ~ In x b) -> NoDup (a ++ b).
Proof. induction a; cbn; intros; auto. inversion H; subst. constructor. rewrite in_app_iff. intros [I|I]; auto. apply (H1 a); auto. apply IHa; auto. Qed.
Lemma cycles_of_ok : forall fuel pi, length pi < fuel -> dict_ok pi -> (forall x, In x (keys pi) -> In (f x) (keys pi)) ->
  (forall x y, In x (keys pi) -> In y (keys pi) -> f x = f y -> x = y) ->
  exists cs, cycles_of fuel pi = Some cs /\ good cs /\ forall x, In x (concat cs) <-> In x (keys pi).
Proof.
  induction fuel as [|fuel IH]; intros pi LF D CL INJ; [lia|]. destruct pi as [|[e0 this] pi].
  - exists []. split; [reflexivity|]. split; [split; constructor|]. cbn. tauto.
  - set (P := (e0, this) :: pi) in *. assert (K0 : In e0 (keys P)) by (left; reflexivity).
    assert (ET : this = f e0) by (apply (proj2 D (e0, this)); left; reflexivity).
    assert (KT : In this (keys P)) by (rewrite ET; auto).
    change (cycles_of (S fuel) P) with (match lookup this P with Some next => match one_cycle (S (length P)) P this next [] with
          | Some (c, pi) => match cycles_of fuel pi with Some cs => Some (c :: cs) | None => None end | None => None end | None => None end).
    rewrite (lookup_in f) by apply D. rewrite (proj2 (has_in this P) KT).
    destruct (one_cycle_ok (S (length P)) P this [] (keys P)) as (c & pi' & E & D' & NDc & NEc & CC & HK & DJ & LL); auto.
    { intros x. cbn [In]. tauto. } { constructor. } { intros i Hi. cbn in Hi. lia. }
    rewrite E. destruct (IH pi') as (cs & E2 & [G1 G2] & HC); auto.
    + unfold P in LF, LL. cbn in *. lia.
    + intros x I. assert (KX : In x (keys P)) by (apply HK; auto). specialize (CL x KX). apply HK in CL as [C|C]; auto. exfalso.
      (* f x on the cycle: x is on it as well *)
      apply In_nth with (d := 0) in C as (j & Lj & Ej).
      assert (EX : exists i, i < length c /\ f (nth i c 0) = nth j c 0).
      { destruct j as [|j]. exists (length c - 1). split; [lia|]. rewrite CC by lia. replace (S (length c - 1)) with (length c) by lia. now rewrite Nat.mod_same by lia.
        exists j. split; [lia|]. rewrite CC by lia. now rewrite Nat.mod_small by lia. }
      destruct EX as (i & Li & Ei). rewrite Ej in Ei. assert (IC : In (nth i c 0) c) by now apply nth_In.
      apply INJ in Ei; auto. subst x. now apply (DJ _ I). apply HK. now right.
    + intros. apply INJ; auto; apply HK; auto.
    + rewrite E2. exists (c :: cs). split; [reflexivity|]. split; [split|].
      * constructor; auto.
      * cbn. apply NoDup_app_intro; auto. intros x I J. apply HC in J. now apply (DJ x).
      * intros x. cbn [concat]. rewrite in_app_iff, HC, HK. tauto.
Qed.
End cycles.

(** * permutations *)
Lemma index_of_nth : forall l x, In x l -> index_of x l < length l /\ nth (index_of x l) l 0 = x.
Proof. induction l as [|a l IH]; cbn; intros; [easy|]. destruct (a =? x) eqn:E. apply Nat.eqb_eq in E. subst. split; [lia|reflexivity]. apply Nat.eqb_neq in E. destruct H; [easy|]. destruct (IH x H). split; [lia|auto]. Qed.
Lemma perm_all : forall p i, is_perm p -> i < length p -> In i p.
Proof.
  intros p i [ND R] L. assert (P : Permutation p (seq 0 (length p))).
  { apply NoDup_Permutation_bis; auto. rewrite seq_length. lia. intros x I. apply in_seq. specialize (R x I). lia. }
  apply (Permutation_in i (Permutation_sym P)). apply in_seq. lia.
Qed.
Lemma combine_keys : forall {X Y} (a : list X) (b : list Y), length a = length b -> map fst (combine a b) = a.
Proof. induction a; destruct b; cbn; intros; try lia; [reflexivity|]. f_equal. apply IHa. lia. Qed.
Lemma cyc_moves : forall {A} f cs ids (st : nat -> A), NoDup ids -> good f cs -> (forall x, In x (concat cs) -> x < length ids) ->
  let st' := run_swaps (flat_map (fun c => shift_cycle (map (at_ ids) c)) cs) st in
  (forall x, In x (concat cs) -> st' (at_ ids (f x)) = st (at_ ids x)) /\ (forall y, (forall x, In x (concat cs) -> y <> at_ ids x) -> st' y = st y).
Proof.
  intros A f cs ids. induction cs as [|c cs IH]; intros st ND [F NDC] R; cbn zeta.
  - split; [easy|reflexivity].
  - cbn [flat_map]. rewrite run_app. inversion F as [|? ? [NE CC] F2]; subst. cbn [concat] in *.
    assert (NDc : NoDup c) by now apply NoDup_app_remove_r in NDC. assert (NDr : NoDup (concat cs)) by now apply NoDup_app_remove_l in NDC.
    assert (DJ : forall x, In x c -> ~ In x (concat cs)).
    { intros x I1 I2. apply in_split in I1 as (a & b & E). rewrite E, <- app_assoc in NDC. apply NoDup_app_remove_l in NDC. cbn in NDC. inversion NDC; subst. apply H1, in_or_app. now right. }
    assert (Rc : forall x, In x c -> x < length ids) by (intros; apply R, in_or_app; auto).
    set (st1 := run_swaps (shift_cycle (map (at_ ids) c)) st).
    assert (Q : (forall x, In x c -> st1 (at_ ids (f x)) = st (at_ ids x)) /\ (forall y, (forall x, In x c -> y <> at_ ids x) -> st1 y = st y)).
    { assert (NDm : NoDup (map (at_ ids) c)).
      { apply NoDup_nth with (d := 0). rewrite map_length. intros i j Li Lj E.
        rewrite (nth_indep _ 0 (at_ ids 0)), (nth_indep _ 0 (at_ ids 0)) in E by (rewrite map_length; auto).
        rewrite !map_nth in E. apply at_inj in E; auto. apply (proj1 (NoDup_nth c 0) NDc) in E; auto. apply Rc, nth_In; auto. apply Rc, nth_In; auto. }
      unfold st1, shift_cycle. rewrite map_length. destruct (Nat.eq_dec (length c) 1) as [L1|L1].
      - rewrite L1. cbn [Nat.eqb]. destruct c as [|x [|]]; cbn in L1; try lia. split; [|reflexivity]. intros y [<-|[]]. specialize (CC 0). cbn in CC. rewrite CC by lia. reflexivity.
      - assert (Lc : 1 < length c) by (destruct c as [|? [|]]; cbn in *; [easy|lia|lia]). rewrite Nat.mod_small by lia. cbn [Nat.eqb].
        destruct (shift_one_rot (map (at_ ids) c) st NDm) as [H1 H2]; [destruct c; easy|]. rewrite map_length in H1. split.
        + intros x I. apply In_nth with (d := 0) in I as (i & Li & <-). rewrite CC by auto. set (j := S i mod length c).
          assert (Lj : j < length c) by (apply Nat.mod_upper_bound; lia). specialize (H1 j Lj).
          assert (RJ : rot (length c) j = i).
          { unfold rot, j. destruct (Nat.eq_dec (S i) (length c)) as [E|E]. rewrite E, Nat.mod_same by lia. cbn [plus]. rewrite Nat.mod_small; lia.
            rewrite Nat.mod_small with (a := S i) by lia. replace (S i + (length c - 1)) with (i + 1 * length c) by lia. rewrite Nat.mod_add by lia. apply Nat.mod_small. lia. }
          rewrite RJ in H1. rewrite (nth_indep _ 0 (at_ ids 0)) in H1 by (rewrite map_length; auto). rewrite (nth_indep _ 0 (at_ ids 0) (n := i)) in H1 by (rewrite map_length; auto).
          rewrite !map_nth in H1. exact H1.
        + intros y Ny. apply H2. rewrite in_map_iff. intros (x & <- & I). now apply (Ny x). }
    destruct Q as [Q1 Q2]. destruct (IH st1 ND (conj F2 NDr)) as [I1 I2]. { intros; apply R, in_or_app; auto. } split.
    + intros x I. apply in_app_or in I as [I|I].
      * rewrite I2; [now apply Q1|]. intros y Iy E. assert (FX : In (f x) c). { apply In_nth with (d := 0) in I as (i & Li & <-). rewrite CC by auto. apply nth_In, Nat.mod_upper_bound. lia. }
        apply at_inj in E; auto. subst y. now apply (DJ _ FX). apply R, in_or_app. now right.
      * rewrite I1 by auto. apply Q2. intros y Iy E. apply at_inj in E; auto. subst y. now apply (DJ _ Iy). apply R, in_or_app; auto.
    + intros y Ny. rewrite I2. apply Q2. intros; apply Ny, in_or_app; auto. intros; apply Ny, in_or_app; auto.
Qed.
Lemma permute_ok : forall {A} ids perm (st : nat -> A), NoDup ids -> is_perm perm -> length perm = length ids ->
  exists sw, permute_iterable ids perm = Some sw /\ rearranged ids (fun i => nth i perm 0) st (run_swaps sw st).
Proof.
  intros A ids perm st ND PM L. unfold permute_iterable, to_cycles. set (inv := inverse_perm perm). set (f := fun i => nth i inv 0).
  assert (Li : length inv = length perm) by (unfold inv, inverse_perm; now rewrite map_length, seq_length).
  assert (FI : forall i, i < length perm -> f i = index_of i perm).
  { intros. unfold f, inv, inverse_perm. rewrite (nth_indep _ 0 (index_of 0 perm)) by (rewrite map_length, seq_length; auto).
    rewrite (map_nth (fun i => index_of i perm)). now rewrite seq_nth. }
  set (pi := combine (seq 0 (length inv)) inv). assert (KE : keys pi = seq 0 (length perm)).
  { unfold keys, pi. rewrite combine_keys; [now rewrite Li|]. now rewrite seq_length. }
  assert (FP : forall i, i < length perm -> f i < length perm /\ nth (f i) perm 0 = i). { intros. rewrite FI by auto. apply index_of_nth, perm_all; auto. }
  destruct (cycles_of_ok f (S (length inv)) pi) as (cs & E & G & HC).
  - unfold pi. rewrite combine_length, seq_length. lia.
  - split. rewrite KE. apply seq_NoDup. intros [a b] I. cbn. unfold pi in I. apply In_nth with (d := (0, 0)) in I as (i & Lx & Ex).
    rewrite combine_nth in Ex by (now rewrite seq_length). rewrite combine_length, seq_length in Lx. injection Ex as <- <-. rewrite seq_nth by lia. reflexivity.
  - intros x I. rewrite KE in *. apply in_seq in I. apply in_seq. destruct (FP x); lia.
  - intros x y Ix Iy E. rewrite KE in *. apply in_seq in Ix, Iy. destruct (FP x) as [_ <-]; [lia|]. rewrite E. apply FP. lia.
  - rewrite E. eexists. split; [reflexivity|].
    destruct (cyc_moves f cs ids st ND G) as [M1 M2]. { intros x I. apply HC in I. rewrite KE in I. apply in_seq in I. lia. }
    split.
    + intros i Lx. rewrite <- L in Lx. destruct PM as [NDp Rp]. assert (Lp : nth i perm 0 < length perm) by (apply Rp, nth_In; auto).
      assert (Ei : f (nth i perm 0) = i). { destruct (FP (nth i perm 0) Lp) as [Q1 Q2]. apply (proj1 (NoDup_nth perm 0) NDp) in Q2; auto. }
      rewrite <- Ei at 1. apply M1. apply HC. rewrite KE. apply in_seq. lia.
    + intros x Nx. apply M2. intros y Iy ->. apply Nx. apply HC in Iy. rewrite KE in Iy. apply in_seq in Iy. apply nth_In. lia.
Qed.

(** * shifts *)
Section shifts.
Context {A : Type}.
Implicit Types st : nat -> A.
Definition tgt (N : nat) (i : nat) (k : Z) : nat := Z.to_nat ((Z.of_nat i + k) mod Z.of_nat N).
Lemma tgt_lt : forall N i k, 0 < N -> tgt N i k < N.
Proof. intros. unfold tgt. pose proof (Z.mod_pos_bound (Z.of_nat i + k) (Z.of_nat N)). lia. Qed.
Lemma tgt_tgt : forall N i j k, 0 < N -> tgt N (tgt N i j) k = tgt N i (j + k).
Proof. intros. unfold tgt. rewrite Z2Nat.id by (apply Z.mod_pos_bound; lia). rewrite Z.add_mod_idemp_l by lia. f_equal. f_equal. lia. Qed.
Lemma tgt_id : forall N i k, i < N -> (k mod Z.of_nat N = 0)%Z -> tgt N i k = i.
Proof. intros. unfold tgt. rewrite <- Z.add_mod_idemp_r, H0, Z.add_0_r by lia. rewrite Z.mod_small; lia. Qed.
Lemma rearr_shift : forall ids g k st st', 0 < length ids -> rearranged ids g st st' -> (forall i, i < length ids -> g i = tgt (length ids) i (- k)) -> shifted ids k st st'.
Proof.
  intros ids g k st st' L [H1 H2] G. split; auto. intros i Li. fold (tgt (length ids) i k). rewrite H1 by now apply tgt_lt. rewrite G by now apply tgt_lt. rewrite tgt_tgt by auto. do 2 f_equal. apply tgt_id; auto.
  replace (k + - k)%Z with 0%Z by lia. apply Z.mod_0_l. lia.
Qed.
Lemma shift_one_ok : forall ids st, NoDup ids -> ids <> [] -> shifted ids 1 st (run_swaps (shift_one ids) st).
Proof.
  intros. assert (0 < length ids) by (destruct ids; [easy|cbn; lia]). eapply rearr_shift; [auto|now apply shift_one_rot|]. intros i Li. unfold rot, tgt. set (N := length ids) in *.
  assert (E : Z.of_nat ((i + (N - 1)) mod N) = ((Z.of_nat i + - 1) mod Z.of_nat N)%Z).
  { rewrite Nat2Z.inj_mod. rewrite <- (Z_mod_plus_full (Z.of_nat i + - 1) 1). f_equal. lia. }
  change (- (1))%Z with (-1)%Z. rewrite <- E. lia.
Qed.
Lemma shift_pos_ok : forall ids k st, NoDup ids -> ids <> [] -> exists sw, shift_pos ids k = Some sw /\ shifted ids k st (run_swaps sw st).
Proof.
  intros ids k st ND NE. unfold shift_pos. destruct (k =? 1)%Z eqn:E. apply Z.eqb_eq in E. subst. eexists. split; [reflexivity|]. now apply shift_one_ok.
  assert (LN : 0 < length ids) by (destruct ids; [easy|cbn; lia]). set (N := length ids) in *.
  set (perm := map (fun i => Z.to_nat ((Z.of_nat i - k) mod Z.of_nat N)) (seq 0 N)).
  assert (Lp : length perm = N) by (unfold perm; now rewrite map_length, seq_length).
  assert (NP : forall i, i < N -> nth i perm 0 = tgt N i (- k)).
  { intros. unfold perm. rewrite (nth_indep _ 0 (Z.to_nat ((Z.of_nat 0 - k) mod Z.of_nat N))) by (rewrite map_length, seq_length; auto).
    rewrite (map_nth (fun i => Z.to_nat ((Z.of_nat i - k) mod Z.of_nat N))). now rewrite seq_nth. }
  destruct (permute_ok ids perm st ND) as (sw & E1 & R).
  - split.
    + apply NoDup_nth with (d := 0). rewrite Lp. intros i j Hi Hj EE. rewrite !NP in EE by auto. assert (Q := f_equal (fun x => tgt N x k) EE). cbn beta in Q. rewrite !tgt_tgt in Q by auto.
      rewrite !tgt_id in Q; auto; replace (- k + k)%Z with 0%Z by lia; apply Z.mod_0_l; lia.
    + intros i I. apply In_nth with (d := 0) in I as (j & Lj & <-). rewrite Lp in *. rewrite NP by auto. now apply tgt_lt.
  - exact Lp.
  - exists sw. split; [exact E1|]. apply (rearr_shift ids _ k st _ LN R). intros i Li. now apply NP.
Qed.
Lemma nth_rev' : forall (ids : list nat) i, i < length ids -> nth i (rev ids) 0 = nth (length ids - 1 - i) ids 0.
Proof. intros. rewrite rev_nth by auto. f_equal. lia. Qed.
Lemma shifted_rev : forall ids k st st', 0 < length ids -> shifted (rev ids) (- k) st st' -> shifted ids k st st'.
Proof.
  intros ids k st st' LN [H1 H2]. rewrite rev_length in H1. set (N := length ids) in *. split.
  - intros i Li. fold (tgt N i k). specialize (H1 (N - 1 - i) (ltac:(lia))). fold (tgt N (N - 1 - i) (- k)) in H1.
    rewrite !nth_rev' in H1 by (try lia; now apply tgt_lt). fold N in H1. replace (N - 1 - (N - 1 - i)) with i in H1 by lia.
    replace (N - 1 - tgt N (N - 1 - i) (- k)) with (tgt N i k) in H1; auto.
    assert (T := tgt_lt N (N - 1 - i) (- k) LN). unfold tgt in *.
    assert (E : ((Z.of_nat i + k) mod Z.of_nat N)%Z = (Z.of_nat N - 1 - (Z.of_nat (N - 1 - i) + - k) mod Z.of_nat N)%Z).
    { pose proof (Z.mod_pos_bound (Z.of_nat (N - 1 - i) + - k) (Z.of_nat N)). symmetry. apply Z.mod_unique with (q := (- ((Z.of_nat (N - 1 - i) + - k) / Z.of_nat N))%Z). left. lia.
      pose proof (Z.div_mod (Z.of_nat (N - 1 - i) + - k) (Z.of_nat N)). nia. }
    rewrite E. pose proof (Z.mod_pos_bound (Z.of_nat (N - 1 - i) + - k) (Z.of_nat N)). lia.
  - intros x Nx. apply H2. now rewrite <- in_rev.
Qed.
Lemma cyclic_ok : forall ids k st, NoDup ids -> ids <> [] -> exists sw, cyclic_shift ids k = Some sw /\ shifted ids k st (run_swaps sw st).
Proof.
  intros ids k st ND NE. assert (LN : 0 < length ids) by (destruct ids; [easy|cbn; lia]).
  assert (E0 : cyclic_shift ids k = if (k mod Z.of_nat (length ids) =? 0)%Z then Some [] else if (k <? 0)%Z then shift_pos (rev ids) (- k) else shift_pos ids k) by (destruct ids; easy).
  rewrite E0. destruct (k mod Z.of_nat (length ids) =? 0)%Z eqn:E.
  - apply Z.eqb_eq in E. exists []. split; [reflexivity|]. split; [|reflexivity]. intros i Li. fold (tgt (length ids) i k). now rewrite tgt_id.
  - destruct (k <? 0)%Z eqn:EK; [|now apply shift_pos_ok]. destruct (shift_pos_ok (rev ids) (- k) st) as (sw & E1 & H). now apply NoDup_rev. intros C. apply NE. rewrite <- (rev_involutive ids), C. reflexivity.
    exists sw. split; auto. now apply shifted_rev.
Qed.
Lemma shifted_trans : forall ids j k st st1 st2, 0 < length ids -> shifted ids j st st1 -> shifted ids k st1 st2 -> shifted ids (j + k) st st2.
Proof.
  intros ids j k st st1 st2 LN [H1 H2] [G1 G2]. split.
  - intros i Li. fold (tgt (length ids) i (j + k)). rewrite <- tgt_tgt by auto. unfold tgt at 1. rewrite G1 by now apply tgt_lt. now apply H1.
  - intros. rewrite G2; auto.
Qed.
Lemma shifted_ext : forall ids k st st1 st2, (forall x, st1 x = st2 x) -> shifted ids k st st1 -> shifted ids k st st2.
Proof. intros ids k st st1 st2 H [H1 H2]. split; intros; rewrite <- H; auto. Qed.
Lemma shifted_inv : forall ids k st st', 0 < length ids -> shifted ids k st st' -> shifted ids (- k) st' st.
Proof.
  intros ids k st st' LN [H1 H2]. split; [|intros; symmetry; auto]. intros i Li. fold (tgt (length ids) i (- k)).
  specialize (H1 (tgt (length ids) i (- k)) (tgt_lt _ _ _ LN)). fold (tgt (length ids) (tgt (length ids) i (- k)) k) in H1. rewrite tgt_tgt in H1 by auto. rewrite tgt_id in H1; auto.
  replace (- k + k)%Z with 0%Z by lia. apply Z.mod_0_l. lia.
Qed.
Lemma shifted_0 : forall ids st, 0 < length ids -> shifted ids 0 st st.
Proof. intros. split; auto. intros i Li. fold (tgt (length ids) i 0). now rewrite tgt_id. Qed.
Lemma jasp_rep : forall ids n st, NoDup ids -> ids <> [] -> shifted ids (Z.of_nat n) st (run_swaps (concat (repeat (shift_one ids) n)) st).
Proof.
  intros ids n. assert (forall (H : ids <> []), 0 < length ids) by (destruct ids; [easy|cbn; lia]). induction n; intros st ND NE.
  - now apply shifted_0; auto.
  - cbn [repeat concat]. rewrite run_app. replace (Z.of_nat (S n)) with (1 + Z.of_nat n)%Z by lia. eapply shifted_trans; [auto|now apply shift_one_ok|auto].
Qed.
Lemma jasp_ok : forall ids k st, NoDup ids -> ids <> [] -> shifted ids k st (run_swaps (cyclic_shift_jasp ids k) st).
Proof.
  intros ids k st ND NE. assert (LN : 0 < length ids) by (destruct ids; [easy|cbn; lia]). unfold cyclic_shift_jasp. destruct (k <? 0)%Z eqn:E.
  - apply Z.ltb_lt in E. set (sw := concat _). 
    assert (S := jasp_rep ids (Z.to_nat (Z.abs k)) (run_swaps (rev sw) st) ND NE). fold sw in S.
    apply shifted_ext with (st2 := st) in S; [|apply run_rev]. apply shifted_inv in S; auto. replace k with (- Z.of_nat (Z.to_nat (Z.abs k)))%Z at 1 by lia. exact S.
  - apply Z.ltb_ge in E. replace k with (Z.of_nat (Z.to_nat (Z.abs k))) at 1 by lia. now apply jasp_rep.
Qed.
Lemma bits_ok : forall ids bits e st, NoDup ids -> ids <> [] -> (0 <= e)%Z -> exists sw, shift_bits ids e bits = Some sw /\ shifted ids (2 ^ e * numberZ bits) st (run_swaps sw st).
Proof.
  intros ids bits. induction bits as [|b bits IH]; intros e st ND NE P; cbn [shift_bits numberZ].
  - exists []. split; [reflexivity|]. rewrite Z.mul_0_r. apply shifted_0. destruct ids; [easy|cbn; lia].
  - assert (H : exists s, (if b then cyclic_shift ids (2 ^ e) else Some []) = Some s /\ shifted ids (2 ^ e * (if b then 1 else 0)) st (run_swaps s st)).
    { destruct b. destruct (cyclic_ok ids (2 ^ e) st ND NE) as (s & E & H). exists s. split; auto. now rewrite Z.mul_1_r.
      exists []. split; auto. rewrite Z.mul_0_r. apply shifted_0. destruct ids; [easy|cbn; lia]. }
    destruct H as (s & E1 & H1). rewrite E1. destruct (IH (e + 1)%Z (run_swaps s st) ND NE) as (r & E2 & H2); [lia|]. rewrite E2. eexists. split; [reflexivity|]. rewrite run_app.
    replace (2 ^ e * ((if b then 1 else 0) + 2 * numberZ bits))%Z with (2 ^ e * (if b then 1 else 0) + 2 ^ (e + 1) * numberZ bits)%Z by (rewrite Z.pow_add_r by lia; lia).
    eapply shifted_trans; eauto. destruct ids; [easy|cbn; lia].
Qed.
Lemma quantum_ok : forall ids e bits sign st, NoDup ids -> ids <> [] -> (0 <= e)%Z ->
  exists sw, cyclic_shift_quantum ids e bits sign = Some sw /\
    shifted ids (2 ^ e * (numberZ bits - (match sign with Some true => 2 ^ Z.of_nat (length bits) | _ => 0 end))) st (run_swaps sw st).
Proof.
  intros ids e bits sign st ND NE P. assert (LN : 0 < length ids) by (destruct ids; [easy|cbn; lia]). unfold cyclic_shift_quantum. replace (e <? 0)%Z with false by (symmetry; apply Z.ltb_ge; lia).
  assert (H : exists s, (match sign with Some true => cyclic_shift ids (- 2 ^ (e + Z.of_nat (length bits))) | _ => Some [] end) = Some s /\
    shifted ids (- (2 ^ e * match sign with Some true => 2 ^ Z.of_nat (length bits) | _ => 0 end)) st (run_swaps s st)).
  { destruct sign as [[|]|].
    - destruct (cyclic_ok ids (- 2 ^ (e + Z.of_nat (length bits))) st ND NE) as (s & E & H). exists s. split; auto. now rewrite <- Z.pow_add_r by lia.
    - exists []. split; auto. rewrite Z.mul_0_r. now apply shifted_0.
    - exists []. split; auto. rewrite Z.mul_0_r. now apply shifted_0. }
  destruct H as (s & E1 & H1). rewrite E1. destruct (bits_ok ids bits e (run_swaps s st) ND NE P) as (r & E2 & H2). rewrite E2. eexists. split; [reflexivity|]. rewrite run_app.
  rewrite Z.mul_sub_distr_l. replace (2 ^ e * numberZ bits - 2 ^ e * match sign with Some true => 2 ^ Z.of_nat (length bits) | _ => 0 end)%Z with
    (- (2 ^ e * match sign with Some true => 2 ^ Z.of_nat (length bits) | _ => 0 end) + 2 ^ e * numberZ bits)%Z by lia. eapply shifted_trans; eauto.
Qed.
End shifts.
