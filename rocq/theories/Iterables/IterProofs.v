From Coq Require Import ZArith List Bool Arith Lia Permutation.
From Verif.Iterables Require Import IterModel IterSpec.
Import ListNotations.

Section gen.
Context {A : Type}.
Implicit Types st : nat -> A.
Lemma run_app : forall s t st, run_swaps (s ++ t) st = run_swaps t (run_swaps s st).
Proof. intros. unfold run_swaps. apply fold_left_app. Qed.
Lemma run_cons : forall p s st, run_swaps (p :: s) st = run_swaps s (swap st (fst p) (snd p)).
Proof. reflexivity. Qed.
Lemma swap_l : forall st a b, swap st a b a = st b.
Proof. intros. unfold swap. now rewrite Nat.eqb_refl. Qed.
Lemma swap_r : forall st a b, swap st a b b = st a.
Proof. intros. unfold swap. destruct (b =? a) eqn:E; [apply Nat.eqb_eq in E; now subst|]. now rewrite Nat.eqb_refl. Qed.
Lemma swap_o : forall st a b x, x <> a -> x <> b -> swap st a b x = st x.
Proof. intros. unfold swap. apply Nat.eqb_neq in H, H0. now rewrite H, H0. Qed.
Lemma swap_ext : forall a b st st', (forall x, st x = st' x) -> forall x, swap st a b x = swap st' a b x.
Proof. intros. unfold swap. now rewrite !H. Qed.
Lemma run_ext : forall s st st', (forall x, st x = st' x) -> forall x, run_swaps s st x = run_swaps s st' x.
Proof. induction s; intros; [apply H|]. rewrite !run_cons. apply IHs. now apply swap_ext. Qed.
Lemma swap_swap : forall a b st x, swap (swap st a b) a b x = st x.
Proof.
  intros. destruct (Nat.eq_dec x a); [subst; rewrite swap_l; apply swap_r|]. destruct (Nat.eq_dec x b); [subst; rewrite swap_r; apply swap_l|].
  rewrite !swap_o; auto.
Qed.
Lemma run_rev : forall s st x, run_swaps s (run_swaps (rev s) st) x = st x.
Proof.
  induction s as [|p s IH]; intros; [reflexivity|]. cbn [rev]. rewrite run_app, run_cons. change (run_swaps [p] ?z) with (swap z (fst p) (snd p)).
  rewrite (run_ext s _ _ (swap_swap (fst p) (snd p) _)). apply IH.
Qed.
Lemma run_rev' : forall s st x, run_swaps (rev s) (run_swaps s st) x = st x.
Proof. intros. rewrite <- (rev_involutive s) at 2. apply run_rev. Qed.
End gen.

(** every list of swaps moves the contents by one bijection *)
Definition src (s : list (nat * nat)) : nat -> nat := run_swaps s (fun x => x).
Lemma run_src : forall {A} s (st : nat -> A) x, run_swaps s st x = st (src s x).
Proof.
  intros A s. unfold src. enough (H : forall (st : nat -> A) g x, run_swaps s (fun x => st (g x)) x = st (run_swaps s g x)) by (intros; apply (H st (fun x => x))).
  induction s as [|p s IH]; intros; [reflexivity|]. rewrite !run_cons.
  rewrite (run_ext s _ (fun x => st (swap g (fst p) (snd p) x))); [apply IH|]. intros. unfold swap. destruct (x0 =? fst p); [reflexivity|]. now destruct (x0 =? snd p).
Qed.
Lemma src_inj : forall s x y, src s x = src s y -> x = y.
Proof.
  intros s x y H. assert (E : forall x, src (rev s) (src s x) = x).
  { intros. unfold src at 1. rewrite <- (run_src s (run_swaps (rev s) (fun x => x))). apply run_rev. }
  rewrite <- (E x), H. apply E.
Qed.

(** lifting from positions to entries *)
Definition lift (ids : list nat) (p : nat * nat) : nat * nat := (at_ ids (fst p), at_ ids (snd p)).
Lemma at_inj : forall ids i j, NoDup ids -> i < length ids -> j < length ids -> at_ ids i = at_ ids j -> i = j.
Proof. intros. apply (proj1 (NoDup_nth ids 0) H); auto. Qed.
Lemma run_lift : forall {A} ids s (st : nat -> A), NoDup ids -> Forall (fun p => fst p < length ids /\ snd p < length ids) s ->
  (forall p, p < length ids -> run_swaps (map (lift ids) s) st (at_ ids p) = run_swaps s (fun q => st (at_ ids q)) p) /\
  (forall x, ~ In x ids -> run_swaps (map (lift ids) s) st x = st x).
Proof.
  intros A ids s st ND F. revert st. induction F as [|[a b] s [La Lb] F IH]; intros; [split; reflexivity|]. cbn [fst snd] in *. cbn [map]. rewrite run_cons.
  destruct (IH (swap st (fst (lift ids (a, b))) (snd (lift ids (a, b))))) as [H1 H2]. split.
  - intros p Lp. rewrite H1 by auto. rewrite run_cons. cbn [lift fst snd].
    assert (G : forall q, q < length ids -> swap st (at_ ids a) (at_ ids b) (at_ ids q) = swap (fun q => st (at_ ids q)) a b q).
    { intros q Lq. unfold swap. destruct (q =? a) eqn:E; [apply Nat.eqb_eq in E; subst; now rewrite Nat.eqb_refl|].
      destruct (at_ ids q =? at_ ids a) eqn:E1; [apply Nat.eqb_eq in E1; apply at_inj in E1; auto; apply Nat.eqb_neq in E; lia|].
      destruct (q =? b) eqn:E2; [apply Nat.eqb_eq in E2; subst; now rewrite Nat.eqb_refl|].
      destruct (at_ ids q =? at_ ids b) eqn:E3; [apply Nat.eqb_eq in E3; apply at_inj in E3; auto; apply Nat.eqb_neq in E2; lia|]. reflexivity. }
    rewrite !run_src. 
    assert (R : forall s, Forall (fun p => fst p < length ids /\ snd p < length ids) s -> forall p, p < length ids -> src s p < length ids).
    { clear. intros s F. unfold src. enough (forall g, (forall p, p < length ids -> g p < length ids) -> forall p, p < length ids -> run_swaps s g p < length ids) by (intros; apply H; auto).
      induction F as [|[a b] s [La Lb] F IH]; intros; [now apply H|]. rewrite run_cons. apply IH; auto. intros. cbn [fst snd] in *. unfold swap. destruct (p0 =? a); [auto|]. destruct (p0 =? b); auto. }
    apply G, R; auto.
  - intros x Nx. rewrite H2 by auto. cbn [lift fst snd]. apply swap_o; intros ->; apply Nx; apply nth_In; auto.
Qed.

(** disjoint swaps *)
Section disjoint.
Context {A : Type}.
Variables (g : nat -> bool) (l r : nat -> nat).
Let sws L := flat_map (fun i => if g i then [(l i, r i)] else []) L.
Lemma disj_other : forall L (c : nat -> A) p, (forall i, In i L -> g i = true -> p <> l i /\ p <> r i) -> run_swaps (sws L) c p = c p.
Proof.
  induction L as [|i L IH]; intros; [reflexivity|]. unfold sws in *. cbn [flat_map]. rewrite run_app, IH by (intros; apply H; auto; now right).
  destruct (g i) eqn:G; [|reflexivity]. destruct (H i (or_introl eq_refl) G). rewrite run_cons. cbn [fst snd]. now apply swap_o.
Qed.
Lemma disj_in : forall L (c : nat -> A), NoDup L ->
  (forall i j, In i L -> In j L -> g i = true -> g j = true -> i <> j -> l i <> l j /\ r i <> r j /\ l i <> r j) ->
  forall i, In i L -> g i = true -> run_swaps (sws L) c (l i) = c (r i) /\ run_swaps (sws L) c (r i) = c (l i).
Proof.
  induction L as [|a L IH]; intros c ND H i I G; [easy|]. inversion ND as [|? ? N1 N2]; subst.
  assert (E : sws (a :: L) = (if g a then [(l a, r a)] else []) ++ sws L) by reflexivity. rewrite E, run_app. destruct I as [->|I].
  - rewrite G. rewrite !disj_other.
    + cbn. rewrite swap_l, swap_r. auto.
    + intros j J Gj. assert (j <> i) by (intros ->; auto). destruct (H i j) as (P1 & P2 & P3); cbn; auto. destruct (H j i) as (Q1 & Q2 & Q3); cbn; auto.
    + intros j J Gj. assert (j <> i) by (intros ->; auto). destruct (H i j) as (P1 & P2 & P3); cbn; auto.
  - assert (i <> a) by (intros ->; auto).
    destruct (IH (run_swaps (if g a then [(l a, r a)] else []) c) N2) with (i := i) as [H1 H2]; auto.
    { intros. apply H; cbn; auto. }
    rewrite H1, H2. destruct (g a) eqn:Ga; [|auto]. cbn. destruct (H i a) as (P1 & P2 & P3); cbn; auto. destruct (H a i) as (Q1 & Q2 & Q3); cbn; auto.
    rewrite !swap_o by auto. auto.
Qed.
End disjoint.

(** positions *)
Definition saeedi_ix (d N : nat) : list (nat * nat) :=
  flat_map (fun i => if negb ((N - i) mod N =? i + d) && (i + d <? N) then [((N - i) mod N, i + d)] else []) (seq 0 (N / 2)).
Definition level_ix (N j : nat) : list (nat * nat) :=
  flat_map (fun i => if (i mod (2 * 2 ^ j) =? 0) && (i + 2 ^ j <? N) then [(i, i + 2 ^ j)] else []) (seq 0 (N - 2 ^ j)).
Lemma map_flat_map : forall {X Y W} (h : Y -> W) (f : X -> list Y) l, map h (flat_map f l) = flat_map (fun x => map h (f x)) l.
Proof. induction l; cbn; [reflexivity|]. now rewrite map_app, IHl. Qed.
Lemma saeedi_lift : forall d ids, saeedi_swaps d ids = map (lift ids) (saeedi_ix d (length ids)).
Proof. intros. unfold saeedi_swaps, saeedi_ix. rewrite map_flat_map. apply flat_map_ext. intros i. cbn zeta. now destruct (negb _ && _). Qed.
Lemma level_lift : forall ids j, ladder_level ids j = map (lift ids) (level_ix (length ids) j).
Proof. intros. unfold ladder_level, level_ix. rewrite map_flat_map. apply flat_map_ext. intros i. now destruct (_ && _). Qed.
Lemma saeedi_range : forall d N, Forall (fun p => fst p < N /\ snd p < N) (saeedi_ix d N).
Proof.
  intros. unfold saeedi_ix. apply Forall_forall. intros p I. apply in_flat_map in I as (i & I & P). destruct (negb _ && _) eqn:E; [|easy]. destruct P as [<-|[]].
  apply andb_true_iff in E as [_ E]. apply Nat.ltb_lt in E. cbn [fst snd]. split; [apply Nat.mod_upper_bound; lia|lia].
Qed.
Lemma level_range : forall N j, Forall (fun p => fst p < N /\ snd p < N) (level_ix N j).
Proof.
  intros. unfold level_ix. apply Forall_forall. intros p I. apply in_flat_map in I as (i & I & P). destruct (_ && _) eqn:E; [|easy]. destruct P as [<-|[]].
  apply andb_true_iff in E as [_ E]. apply Nat.ltb_lt in E. cbn [fst snd]. lia.
Qed.

(** the reflections p -> d - p *)
Lemma mod_N : forall N i, 0 < N -> i < N -> (N - i) mod N = if i =? 0 then 0 else N - i.
Proof. intros. destruct (i =? 0) eqn:E. apply Nat.eqb_eq in E. subst. rewrite Nat.sub_0_r. apply Nat.mod_same. lia. apply Nat.eqb_neq in E. apply Nat.mod_small. lia. Qed.
Lemma saeedi_refl : forall {A} d N (c : nat -> A) p, d = 1 \/ d = 2 -> 1 < N -> p < N ->
  run_swaps (saeedi_ix d N) c p = c ((N + d - p) mod N).
Proof.
  intros A d N c p D LN Lp. unfold saeedi_ix.
  set (g := fun i => negb ((N - i) mod N =? i + d) && (i + d <? N)). set (l := fun i => (N - i) mod N). set (r := fun i => i + d).
  change (run_swaps (flat_map (fun i => if g i then [(l i, r i)] else []) (seq 0 (N / 2))) c p = c ((N + d - p) mod N)).
  assert (H2 : 2 * (N / 2) <= N < 2 * (N / 2) + 2). { pose proof (Nat.div_mod N 2). pose proof (Nat.mod_upper_bound N 2). lia. }
  assert (RA : forall x, x < N -> x mod N = x) by (intros; apply Nat.mod_small; lia).
  assert (RB : forall x, N <= x < 2 * N -> x mod N = x - N). { intros. replace x with (x - N + 1 * N) at 1 by lia. rewrite Nat.mod_add by lia. apply RA. lia. }
  assert (In_r : forall i, In i (seq 0 (N / 2)) <-> i < N / 2) by (intros; rewrite in_seq; lia).
  assert (L : forall i, i < N / 2 -> l i = if i =? 0 then 0 else N - i) by (intros; apply mod_N; lia).
  assert (G : forall i, i < N / 2 -> g i = true <-> (l i <> i + d /\ i + d < N)).
  { intros i Li. unfold g. fold (l i). rewrite andb_true_iff, negb_true_iff, Nat.eqb_neq, Nat.ltb_lt. tauto. }
  assert (DJ : forall i j, In i (seq 0 (N / 2)) -> In j (seq 0 (N / 2)) -> g i = true -> g j = true -> i <> j -> l i <> l j /\ r i <> r j /\ l i <> r j).
  { intros i j Ii Ij Gi Gj NE. apply In_r in Ii, Ij. apply G in Gi; auto. apply G in Gj; auto. rewrite L in * by auto. rewrite (L j) in * by auto. unfold r.
    destruct (i =? 0) eqn:E1, (j =? 0) eqn:E2; rewrite ?Nat.eqb_eq, ?Nat.eqb_neq in *; lia. }
  assert (DI := disj_in g l r (seq 0 (N / 2)) c (seq_NoDup _ _) DJ).
  assert (R : forall i, r i = i + d) by reflexivity.
  (* p is l i, r i or neither *)
  destruct (le_lt_dec p d) as [Hp|Hp].
  - (* p <= d *)
    destruct (Nat.eq_dec p 0) as [->|P0].
    + destruct (le_lt_dec N d) as [Q|Q].
      * assert (N = 2 /\ d = 2) as [-> ->] by lia. rewrite disj_other; [reflexivity|]. intros i Ii Gi. apply In_r in Ii. apply G in Gi; auto. lia.
      * destruct (DI 0) as [E _]; [apply In_r; lia|apply G; [lia|rewrite L by lia; cbn [Nat.eqb]; lia]|]. rewrite R in E. rewrite L in E by lia. cbn [Nat.eqb plus] in E. rewrite E.
        f_equal. rewrite RB by lia. lia.
    + destruct (Nat.eq_dec p d) as [->|P1].
      * destruct (DI 0) as [_ E]; [apply In_r; lia|apply G; [lia|rewrite L by lia; cbn [Nat.eqb]; lia]|]. rewrite R in E. rewrite L in E by lia. cbn [Nat.eqb plus] in E. rewrite E.
        f_equal. rewrite RB by lia. lia.
      * assert (p = 1 /\ d = 2) as [-> ->] by lia. rewrite disj_other.
        -- f_equal. rewrite RB by lia. lia.
        -- intros i Ii Gi. apply In_r in Ii. apply G in Gi; auto. rewrite L in * by auto. unfold r. destruct (i =? 0) eqn:E; rewrite ?Nat.eqb_eq, ?Nat.eqb_neq in E; lia.
  - rewrite RA by lia.
    destruct (lt_dec (p - d) (N / 2)) as [Q|Q].
    + destruct (Nat.eq_dec (N + d - p) p) as [E|E].
      * rewrite disj_other; [now rewrite E|]. intros i Ii Gi. apply In_r in Ii. apply G in Gi; auto. rewrite L in * by auto. unfold r. destruct (i =? 0) eqn:E1; rewrite ?Nat.eqb_eq, ?Nat.eqb_neq in E1; lia.
      * destruct (DI (p - d)) as [_ E1]; [apply In_r; lia|apply G; rewrite ?L by lia; auto; destruct (p - d =? 0) eqn:E1; rewrite ?Nat.eqb_eq, ?Nat.eqb_neq in E1; lia|].
        rewrite R in E1. replace (p - d + d) with p in E1 by lia. rewrite E1. f_equal. rewrite L by lia. destruct (p - d =? 0) eqn:E2; rewrite ?Nat.eqb_eq, ?Nat.eqb_neq in E2; lia.
    + destruct (lt_dec (N - p) (N / 2)) as [Q1|Q1].
      * destruct (Nat.eq_dec (N + d - p) p) as [E|E].
        -- rewrite disj_other; [now rewrite E|]. intros i Ii Gi. apply In_r in Ii. apply G in Gi; auto. rewrite L in * by auto. unfold r. destruct (i =? 0) eqn:E1; rewrite ?Nat.eqb_eq, ?Nat.eqb_neq in E1; lia.
        -- destruct (DI (N - p)) as [E1 _]; [apply In_r; lia|apply G; rewrite ?L by lia; auto; destruct (N - p =? 0) eqn:E1; rewrite ?Nat.eqb_eq, ?Nat.eqb_neq in E1; lia|].
           rewrite L in E1 by lia. destruct (N - p =? 0) eqn:E2; rewrite ?Nat.eqb_eq, ?Nat.eqb_neq in E2; [lia|].
           replace (N - (N - p)) with p in E1 by lia. rewrite E1. f_equal. unfold r. lia.
      * (* neither: p is its own mirror image *)
        assert (E : N + d - p = p) by lia.
        rewrite disj_other; [now rewrite E|]. intros i Ii Gi. apply In_r in Ii. apply G in Gi; auto. rewrite L in * by auto. unfold r. destruct (i =? 0) eqn:E1; rewrite ?Nat.eqb_eq, ?Nat.eqb_neq in E1; lia.
Qed.
Lemma saeedi_ok : forall {A} N (c : nat -> A) p, p < N -> run_swaps (saeedi_ix 1 N ++ saeedi_ix 2 N) c p = c ((p + (N - 1)) mod N).
Proof.
  intros A N c p Lp. destruct (Nat.eq_dec N 1) as [->|N1]; [cbn; f_equal; lia|].
  rewrite run_app, saeedi_refl by lia. assert (RA : forall x, x < N -> x mod N = x) by (intros; apply Nat.mod_small; lia).
  assert (RB : forall x, N <= x < 2 * N -> x mod N = x - N). { intros. replace x with (x - N + 1 * N) at 1 by lia. rewrite Nat.mod_add by lia. apply RA. lia. }
  destruct (Nat.eq_dec N 2) as [->|N2].
  - destruct p as [|[|]]; [reflexivity|reflexivity|lia].
  - rewrite saeedi_refl; [|auto|lia|apply Nat.mod_upper_bound; lia]. f_equal.
    destruct (le_lt_dec p 2).
    + rewrite (RB (N + 2 - p)) by lia. destruct (Nat.eq_dec p 0) as [->|]. rewrite RA by lia. rewrite RA by lia. lia. rewrite RB by lia. rewrite RB by lia. lia.
    + rewrite (RA (N + 2 - p)) by lia. rewrite RA by lia. rewrite RB by lia. lia.
Qed.

(** the ladder on 2^n positions *)
Lemma level_ok : forall {A} n j (c : nat -> A) p, j < n -> p < 2 ^ n ->
  run_swaps (level_ix (2 ^ n) j) c p = c (if p mod (2 * 2 ^ j) =? 0 then p + 2 ^ j else if p mod (2 * 2 ^ j) =? 2 ^ j then p - 2 ^ j else p).
Proof.
  intros A n j c p Lj Lp. unfold level_ix. assert (P := Nat.pow_nonzero 2 j (ltac:(lia))).
  assert (EN : exists q, 2 ^ n = q * (2 * 2 ^ j)). { exists (2 ^ (n - S j)). rewrite <- Nat.pow_succ_r', <- Nat.pow_add_r. f_equal. lia. }
  destruct EN as [q EN]. set (N := 2 ^ n) in *. set (h := 2 ^ j) in *.
  set (g := fun i => (i mod (2 * h) =? 0) && (i + h <? N)).
  change (run_swaps (flat_map (fun i => if g i then [(i, i + h)] else []) (seq 0 (N - h))) c p = c (if p mod (2 * h) =? 0 then p + h else if p mod (2 * h) =? h then p - h else p)).
  assert (DM : forall x, exists k, x = 2 * h * k + x mod (2 * h) /\ x mod (2 * h) < 2 * h).
  { intros x. exists (x / (2 * h)). split; [apply Nat.div_mod; lia|apply Nat.mod_upper_bound; lia]. }
  assert (MM : forall k s, s < 2 * h -> (2 * h * k + s) mod (2 * h) = s).
  { intros. rewrite Nat.add_comm, Nat.mul_comm, Nat.mod_add by lia. apply Nat.mod_small. lia. }
  assert (MH : forall x, x mod (2 * h) = 0 -> (x + h) mod (2 * h) = h).
  { intros x E. destruct (DM x) as (k & E1 & _). rewrite E, Nat.add_0_r in E1. rewrite E1. apply MM. lia. }
  assert (ML : forall x, x mod (2 * h) = 0 -> x < N -> x + 2 * h <= N).
  { intros x E L. destruct (DM x) as (k & E1 & _). rewrite E, Nat.add_0_r in E1. assert (k < q) by nia. nia. }
  assert (GG : forall i, g i = true <-> (i mod (2 * h) = 0 /\ i + h < N)) by (intros; unfold g; rewrite andb_true_iff, Nat.eqb_eq, Nat.ltb_lt; tauto).
  assert (DI := disj_in g (fun i => i) (fun i => i + h) (seq 0 (N - h)) c (seq_NoDup _ _)). cbn beta in DI.
  assert (DJ : forall i j : nat, In i (seq 0 (N - h)) -> In j (seq 0 (N - h)) -> g i = true -> g j = true -> i <> j -> i <> j /\ i + h <> j + h /\ i <> j + h).
  { intros a b _ _ Ga Gb NE. apply GG in Ga, Gb. destruct Ga as [Ga _], Gb as [Gb _]. do 2 (split; [lia|]). intros E. apply MH in Gb. rewrite <- E in Gb. lia. }
  specialize (DI DJ).
  destruct (p mod (2 * h) =? 0) eqn:E0; [apply Nat.eqb_eq in E0|apply Nat.eqb_neq in E0; destruct (p mod (2 * h) =? h) eqn:E1; [apply Nat.eqb_eq in E1|apply Nat.eqb_neq in E1]].
  - specialize (ML p E0 Lp). apply (DI p). apply in_seq. lia. apply GG. split; [auto|lia].
  - assert (Q : (p - h) mod (2 * h) = 0 /\ h <= p). { destruct (DM p) as (k & E & _). rewrite E1 in E. split; [|lia]. replace (p - h) with (2 * h * k + 0) by lia. apply MM. lia. }
    destruct Q as [Q Lh]. specialize (ML (p - h) Q (ltac:(lia))). destruct (DI (p - h)) as [_ E]. apply in_seq. lia. apply GG. split; [auto|lia].
    replace (p - h + h) with p in E by lia. exact E.
  - apply disj_other. intros i _ G. apply GG in G as [G _]. split; [intros ->; auto|]. intros ->. apply MH in G. auto.
Qed.
Lemma ladder_ok : forall {A} n j (c : nat -> A) p, j <= n -> p < 2 ^ n ->
  run_swaps (flat_map (level_ix (2 ^ n)) (seq 0 j)) c p = c (if p mod 2 ^ j =? 0 then p + 2 ^ j - 1 else p - 1).
Proof.
  intros A n j. induction j as [|j IH]; intros c p Lj Lp.
  - cbn. f_equal. lia.
  - rewrite seq_S, flat_map_app, run_app. cbn [flat_map plus]. rewrite app_nil_r. rewrite level_ok by lia.
    assert (P := Nat.pow_nonzero 2 j (ltac:(lia))). rewrite Nat.pow_succ_r'.
    assert (EN : exists q, 2 ^ n = q * (2 * 2 ^ j)). { exists (2 ^ (n - S j)). rewrite <- Nat.pow_succ_r', <- Nat.pow_add_r. f_equal. lia. }
    destruct EN as [q EN]. set (h := 2 ^ j) in *.
    assert (M := Nat.div_mod p (2 * h) (ltac:(lia))). assert (MU := Nat.mod_upper_bound p (2 * h) (ltac:(lia))). set (k := p / (2 * h)) in *. set (s := p mod (2 * h)) in *.
    assert (MM : forall a t, t < h -> (h * a + t) mod h = t). { intros. rewrite Nat.add_comm, Nat.mul_comm, Nat.mod_add by lia. apply Nat.mod_small. lia. }
    destruct (s =? 0) eqn:E0; [apply Nat.eqb_eq in E0|apply Nat.eqb_neq in E0; destruct (s =? h) eqn:E1; [apply Nat.eqb_eq in E1|apply Nat.eqb_neq in E1]].
    + assert (k < q) by nia. rewrite IH by nia. replace (p + h) with (h * (2 * k + 1) + 0) at 1 by nia. rewrite MM by lia. cbn [Nat.eqb]. f_equal. lia.
    + rewrite IH by nia. replace (p - h) with (h * (2 * k) + 0) at 1 by nia. rewrite MM by lia. cbn [Nat.eqb]. f_equal. nia.
    + rewrite IH by nia. destruct (lt_dec s h).
      * replace p with (h * (2 * k) + s) at 1 by nia. rewrite MM by lia. apply Nat.eqb_neq in E0. now rewrite E0.
      * replace p with (h * (2 * k + 1) + (s - h)) at 1 by nia. rewrite MM by lia. destruct (s - h =? 0) eqn:E; [apply Nat.eqb_eq in E; lia|reflexivity].
Qed.
Lemma iterations_ok : forall n fuel i, i <= n -> n - i < fuel -> ladder_iterations fuel (2 ^ i) i (2 ^ n) = n.
Proof.
  induction fuel; intros i L1 L2; [lia|]. cbn [ladder_iterations]. destruct (2 ^ i <? 2 ^ n) eqn:E.
  - apply Nat.ltb_lt in E. apply Nat.pow_lt_mono_r_iff in E; [|lia]. replace (2 ^ i * 2) with (2 ^ S i) by (rewrite Nat.pow_succ_r'; lia). replace (i + 1) with (S i) by lia. apply IHfuel; lia.
  - apply Nat.ltb_ge in E. apply Nat.pow_le_mono_r_iff in E; [lia|lia].
Qed.
Lemma level_flat : forall ids L, flat_map (ladder_level ids) L = map (lift ids) (flat_map (level_ix (length ids)) L).
Proof. intros. rewrite map_flat_map. apply flat_map_ext. apply level_lift. Qed.
Lemma flat_range : forall N L, Forall (fun p => fst p < N /\ snd p < N) (flat_map (level_ix N) L).
Proof. induction L; cbn; [constructor|]. apply Forall_app. split; [apply level_range|auto]. Qed.

(** rotation by one: entry i has what entry i + (N-1) had *)
Definition rot (N i : nat) : nat := (i + (N - 1)) mod N.
Lemma ladder_rot : forall {A} ids n (st : nat -> A), NoDup ids -> length ids = 2 ^ n ->
  rearranged ids (rot (length ids)) st (run_swaps (singular_shift ids false) st).
Proof.
  intros A ids n st ND L. unfold singular_shift. rewrite L.
  assert (I : ladder_iterations (2 ^ n) 1 0 (2 ^ n) = n). { apply (iterations_ok n (2 ^ n) 0); [lia|]. pose proof (Nat.pow_gt_lin_r 2 n). lia. }
  rewrite I, level_flat. destruct (run_lift ids (flat_map (level_ix (length ids)) (seq 0 n)) st ND (flat_range _ _)) as [H1 H2].
  split; [|exact H2]. intros i Li. fold (at_ ids i). rewrite H1 by auto. rewrite L in *. rewrite ladder_ok by auto. unfold at_. f_equal. f_equal. unfold rot.
  rewrite Nat.mod_small by auto. destruct (i =? 0) eqn:E.
  - apply Nat.eqb_eq in E. subst. cbn [plus]. rewrite Nat.mod_small; lia.
  - apply Nat.eqb_neq in E. replace (i + (2 ^ n - 1)) with (i - 1 + 1 * 2 ^ n) by lia. rewrite Nat.mod_add by lia. rewrite Nat.mod_small; lia.
Qed.
Lemma saeedi_rot : forall {A} ids (st : nat -> A), NoDup ids -> rearranged ids (rot (length ids)) st (run_swaps (singular_shift ids true) st).
Proof.
  intros A ids st ND. unfold singular_shift. rewrite !saeedi_lift, <- map_app.
  destruct (run_lift ids (saeedi_ix 1 (length ids) ++ saeedi_ix 2 (length ids)) st ND) as [H1 H2].
  { apply Forall_app. split; apply saeedi_range. }
  split; [|exact H2]. intros i Li. fold (at_ ids i). rewrite H1 by auto. now rewrite saeedi_ok.
Qed.
