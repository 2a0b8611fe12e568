(** Proofs about the cost functions and phase separators. *)
From Coq Require Import ZArith QArith List Bool Lia Qring Arith Lqa.
From Verif.Costs Require Import CostsModel CostsSpec.
Import ListNotations.
Local Open Scope Q_scope.

(** * sums *)
Lemma total_ext : forall A (f g : A -> Q) l, (forall a, In a l -> f a == g a) -> total f l == total g l.
Proof.
  intros A f g l; induction l as [|a l IH]; intros H; cbn; [reflexivity|].
  rewrite (H a), IH; [reflexivity| |]; cbn; auto. intros; apply H; cbn; auto.
Qed.
Lemma total_plus : forall A (f g : A -> Q) l, total (fun a => f a + g a) l == total f l + total g l.
Proof. intros A f g l; induction l as [|a l IH]; cbn; [reflexivity|]. rewrite IH; ring. Qed.
Lemma total_scale : forall A c (f : A -> Q) l, total (fun a => c * f a) l == c * total f l.
Proof. intros A c f l; induction l as [|a l IH]; cbn; [ring|]. rewrite IH; ring. Qed.
Lemma total_zero : forall A (l : list A), total (fun _ => 0) l == 0.
Proof. intros A l; induction l as [|a l IH]; cbn; [reflexivity|]. rewrite IH; ring. Qed.
Lemma total_swap : forall A B (f : A -> B -> Q) la lb, total (fun a => total (f a) lb) la == total (fun b => total (fun a => f a b) la) lb.
Proof.
  intros A B f la lb; induction la as [|a la IH]; cbn.
  - symmetry; apply total_zero.
  - rewrite IH, total_plus. reflexivity.
Qed.
Lemma total_app : forall A (f : A -> Q) l m, total f (l ++ m) == total f l + total f m.
Proof. intros A f l m; induction l as [|a l IH]; cbn; [ring|]. rewrite IH; ring. Qed.

Lemma fold_step : forall A (step : Q -> A -> Q) (f : A -> Q) l s,
  (forall acc a, In a l -> step acc a == acc + f a) -> fold_left step l s == s + total f l.
Proof.
  intros A step f l; induction l as [|a l IH]; intros s H; cbn; [ring|].
  rewrite IH by (intros; apply H; cbn; auto). rewrite (H s a) by (cbn; auto). ring.
Qed.
Lemma qsum_total : forall A (f : A -> Q) l, qsum (map f l) == total f l.
Proof.
  intros A f l. unfold qsum.
  assert (G : forall s, fold_left Qplus (map f l) s == s + total f l).
  { induction l as [|a l IH]; intros s; cbn; [ring|]. rewrite IH. ring. }
  rewrite G. ring.
Qed.
Lemma count_cons : forall A (f : A -> bool) a l, count f (a :: l) = ((if f a then 1 else 0) + count f l)%Z.
Proof. intros A f a l. unfold count. cbn [filter]. destruct (f a); cbn [length]; lia. Qed.
Lemma count_total : forall A (f : A -> bool) l, inject_Z (count f l) == total (fun a => if f a then 1 else 0) l.
Proof.
  intros A f l; induction l as [|a l IH]; [reflexivity|]. rewrite count_cons, inject_Z_plus, IH; cbn. destruct (f a); reflexivity.
Qed.

(** * MaxCut *)
Lemma to_int_nonneg : forall x, (0 <= to_int x)%Z.
Proof. induction x as [|b x IH]; cbn [to_int fold_right]; [lia|]. fold (to_int x). destruct b; cbn [b2z]; lia. Qed.
Lemma to_int_bit : forall x i, Z.testbit (to_int x) (Z.of_nat i) = bit x i.
Proof.
  induction x as [|b x IH]; intros i.
  - cbn. rewrite Z.testbit_0_l. destruct i; reflexivity.
  - cbn [to_int fold_right]. fold (to_int x).
    replace (b2z b + 2 * to_int x)%Z with (2 * to_int x + Z.b2z b)%Z by (destruct b; cbn [b2z Z.b2z]; lia).
    destruct i as [|i].
    + rewrite Z.testbit_0_r. reflexivity.
    + rewrite Nat2Z.inj_succ, Z.testbit_succ_r by lia. apply IH.
Qed.
Lemma to_int_bound : forall x, (to_int x < 2 ^ Z.of_nat (length x))%Z.
Proof.
  induction x as [|b x IH]; cbn [to_int fold_right length]; [lia|]. fold (to_int x).
  rewrite Nat2Z.inj_succ, Z.pow_succ_r by lia. destruct b; cbn [b2z]; lia.
Qed.
Lemma land_1 : forall y, (Z.land y 1 =? 0)%Z = negb (Z.testbit y 0).
Proof.
  intros y. change 1%Z with (Z.ones 1). rewrite Z.land_ones by lia. change (2 ^ 1)%Z with 2%Z.
  rewrite <- Z.bit0_mod. destruct (Z.testbit y 0); reflexivity.
Qed.
Lemma maxcut_obj_ok : forall x edges, maxcut_obj (to_int x) edges = (- cut x edges)%Z.
Proof.
  intros x edges. unfold maxcut_obj, cut.
  assert (G : forall s, fold_left (fun cut '(i, j) => if (Z.land (Z.lxor (Z.shiftr (to_int x) (Z.of_nat i)) (Z.shiftr (to_int x) (Z.of_nat j))) 1 =? 0)%Z then cut else (cut - 1)%Z) edges s
    = (s - count (fun '(i, j) => xorb (bit x i) (bit x j)) edges)%Z).
  { induction edges as [|[i j] l IH]; intros s; [cbn; lia|]. cbn [fold_left]. rewrite IH, count_cons, land_1, Z.lxor_spec, !Z.shiftr_spec, !Z.add_0_l, !to_int_bit by lia.
    destruct (xorb (bit x i) (bit x j)); cbn [negb]; lia. }
  rewrite G. lia.
Qed.
Lemma maxcut_cost_ok : forall edges c, c <> [] -> edges <> [] -> (forall x w, In (x, w) c -> (length x <= 32)%nat) ->
  exists q, maxcut_cost edges c = Some q /\ q == expectation (fun x => inject_Z (- cut x edges)) c.
Proof.
  intros edges c Hc He H. unfold maxcut_cost.
  replace (forallb (fun '(x, _) => (to_int x <? 2 ^ 32)%Z) c) with true.
  2: { symmetry. apply forallb_forall. intros [x w] I. apply Z.ltb_lt. eapply Z.lt_le_trans; [apply to_int_bound|].
       apply Z.pow_le_mono_r; [lia|]. specialize (H x w I). lia. }
  destruct c as [|p c]; [congruence|]. destruct edges as [|e edges]; [congruence|]. cbn [length Nat.eqb negb andb].
  eexists; split; [reflexivity|]. unfold expectation.
  rewrite (fold_step _ _ (fun '(x, w) => inject_Z (- cut x (e :: edges)) * w)); [ring|].
  intros acc [x w] _. rewrite maxcut_obj_ok. reflexivity.
Qed.

(** * MaxSat *)
Lemma fold_mul : forall l a, fold_left Z.mul l a = (a * fold_left Z.mul l 1)%Z.
Proof. induction l as [|b l IH]; intros a; cbn [fold_left]; [lia|]. rewrite IH, (IH (1 * b)%Z). lia. Qed.
Lemma lit_factor_holds : forall x l, l <> 0%Z -> (holds x l /\ lit_factor x l = 0%Z) \/ (~ holds x l /\ lit_factor x l = 1%Z).
Proof.
  intros x l Hl. unfold lit_factor, holds. destruct (0 <? l)%Z eqn:E.
  - apply Z.ltb_lt in E. destruct (bit x (Z.to_nat (l - 1))) eqn:B; [left|right]; split; try reflexivity; [left; auto|].
    intros [[_ Q]|[Q _]]; [congruence|lia].
  - apply Z.ltb_ge in E. destruct (bit x (Z.to_nat (- l - 1))) eqn:B; [right|left]; split; try reflexivity.
    + intros [[Q _]|[_ Q]]; [lia|congruence].
    + right; split; [lia|reflexivity].
Qed.
Lemma clause_value_ok : forall x cl, (forall l, In l cl -> l <> 0%Z) ->
  (satisfied x cl /\ clause_value x cl = 1%Z) \/ (~ satisfied x cl /\ clause_value x cl = 0%Z).
Proof.
  intros x cl; unfold clause_value, satisfied; induction cl as [|l cl IH]; intros H.
  - right; split; [|reflexivity]. intros (l & [] & _).
  - cbn [map fold_left]. rewrite fold_mul.
    destruct (lit_factor_holds x l (H l (or_introl eq_refl))) as [[A B]|[A B]]; rewrite B.
    + left; split; [exists l; cbn; auto|lia].
    + destruct (IH (fun m I => H m (or_intror I))) as [[S V]|[S V]].
      * left. destruct S as (m & I & K). split; [exists m; cbn; auto|lia].
      * right. split; [|lia]. intros (m & [<-|I] & K); [tauto|]. apply S. exists m; auto.
Qed.
Lemma nsat_value : forall x clauses n, literals_ok clauses -> nsat x clauses n -> inject_Z n == total (fun cl => inject_Z (clause_value x cl)) clauses.
Proof.
  intros x clauses n H N. induction N as [|cl l n S N IH|cl l n S N IH]; cbn [total]; [reflexivity| |].
  - destruct (clause_value_ok x cl) as [[A B]|[A B]]; [intros m I; apply (H cl m); cbn; auto| |tauto].
    rewrite B, inject_Z_plus, IH; [change (inject_Z 1) with 1; ring|]. intros c m I; apply H; cbn; auto.
  - destruct (clause_value_ok x cl) as [[A B]|[A B]]; [intros m I; apply (H cl m); cbn; auto|tauto|].
    rewrite B, IH; [change (inject_Z 0) with 0; ring|]. intros c m I; apply H; cbn; auto.
Qed.
Lemma maxsat_cost_ok : forall clauses c (sat : state -> Z), literals_ok clauses -> (forall x, nsat x clauses (sat x)) ->
  maxsat_cost clauses c == expectation (fun x => inject_Z (- sat x)) c.
Proof.
  intros clauses c sat H N. unfold maxsat_cost, expectation.
  rewrite (fold_step _ _ (fun '(x, w) => inject_Z (- sat x) * w)); [ring|].
  intros acc [x w] _. rewrite (fold_step _ _ (fun cl => - w * inject_Z (clause_value x cl))).
  - rewrite total_scale, inject_Z_opp, (nsat_value x clauses (sat x) H (N x)). ring.
  - intros a cl _. rewrite inject_Z_opp. ring.
Qed.

(** * QUBO *)
Lemma qubo_obj_ok : forall m x, qubo_obj m x == quadratic m x.
Proof.
  intros m x. unfold qubo_obj, quadratic. rewrite qsum_total, total_swap. apply total_ext. intros j _.
  rewrite qsum_total, Qmult_comm, <- total_scale. apply total_ext. intros i _. ring.
Qed.
Lemma qubo_cost_ok : forall m c, qubo_cost m c == expectation (quadratic m) c.
Proof.
  intros m c. unfold qubo_cost, expectation. rewrite (fold_step _ _ (fun '(x, w) => quadratic m x * w)); [ring|].
  intros acc [x w] _. rewrite qubo_obj_ok. reflexivity.
Qed.

(** * E3Lin2 *)
Lemma e3lin2_cost_ok : forall clauses c, e3lin2_cost clauses c == expectation (fun x => inject_Z (- nlin x clauses)) c.
Proof.
  intros clauses c. unfold e3lin2_cost, expectation, nlin.
  rewrite (fold_step _ _ (fun '(x, w) => inject_Z (- nlin x clauses) * w)); [unfold nlin; ring|].
  intros acc [x w] _. rewrite (fold_step _ _ (fun cl => - w * (if (let '(i, j, k, r) := cl in eqb (xorb (xorb (bit x i) (bit x j)) (bit x k)) r) then 1 else 0))).
  - rewrite total_scale. unfold nlin. rewrite inject_Z_opp, count_total. ring.
  - intros a [[[i j] k] r] _. destruct (bit x i), (bit x j), (bit x k), r; cbn; ring.
Qed.

(** * sets of nodes *)
Lemma indices_In : forall x i, In i (indices x) <-> chosen x i.
Proof.
  intros x i. unfold indices, chosen. rewrite filter_In, in_seq. split; [tauto|]. intros H. split; [|exact H].
  destruct (Nat.lt_ge_cases i (length x)); [lia|]. unfold bit in H. rewrite nth_overflow in H by lia. discriminate.
Qed.
Lemma indices_NoDup : forall x, NoDup (indices x).
Proof. intros x. apply NoDup_filter, seq_NoDup. Qed.
Lemma filter_seq_shift : forall (f : nat -> bool) n k, length (filter f (seq (S k) n)) = length (filter (fun i => f (S i)) (seq k n)).
Proof.
  intros f n; induction n as [|n IH]; intros k; cbn [seq filter]; [reflexivity|]. destruct (f (S k)); cbn [length]; rewrite IH; reflexivity.
Qed.
Lemma indices_size : forall x, Z.of_nat (length (indices x)) = size x.
Proof.
  intros x. unfold size, count, indices. f_equal. induction x as [|b x IH]; [reflexivity|].
  cbn [length seq filter]. change (bit (b :: x) 0) with b.
  assert (G : length (filter (bit (b :: x)) (seq 1 (length x))) = length (filter (fun b => b) x)).
  { rewrite filter_seq_shift. rewrite <- IH. f_equal. }
  destruct b; cbn [length]; rewrite G; reflexivity.
Qed.
Lemma combinations_In : forall l a b, In (a, b) (combinations l) -> In a l /\ In b l.
Proof.
  induction l as [|c l IH]; intros a b H; cbn [combinations] in H; [destruct H|]. apply in_app_or in H as [H|H].
  - apply in_map_iff in H as (d & E & I). injection E as <- <-. cbn; auto.
  - destruct (IH a b H); cbn; auto.
Qed.
Lemma combinations_neq : forall l a b, NoDup l -> In (a, b) (combinations l) -> a <> b.
Proof.
  induction l as [|c l IH]; intros a b N H; cbn [combinations] in H; [destruct H|]. inversion N; subst. apply in_app_or in H as [H|H].
  - apply in_map_iff in H as (d & E & I). injection E as <- <-. intros ->. auto.
  - eauto.
Qed.
Lemma combinations_all : forall l a b, In a l -> In b l -> a <> b -> In (a, b) (combinations l) \/ In (b, a) (combinations l).
Proof.
  induction l as [|c l IH]; intros a b A B N; [destruct A|]. cbn [combinations].
  assert (M : forall d, In d l -> In (c, d) (map (fun b => (c, b)) l ++ combinations l)) by (intros d I; apply in_or_app; left; apply in_map_iff; exists d; auto).
  destruct A as [->|A], B as [->|B]; [congruence|left; auto|right; auto|].
  destruct (IH a b A B N); [left|right]; apply in_or_app; auto.
Qed.
Lemma has_edge_ok : forall edges i j, has_edge edges (i, j) = true <-> adjacent edges i j.
Proof.
  intros edges i j. unfold has_edge, adjacent. rewrite existsb_exists. cbn [fst snd]. split.
  - intros ([a b] & I & H). apply orb_true_iff in H as [H|H]; apply andb_true_iff in H as [H1 H2]; apply Nat.eqb_eq in H1, H2; subst; auto.
  - intros [I|I]; [exists (i, j)|exists (j, i)]; rewrite !Nat.eqb_refl, ?orb_true_r; auto.
Qed.
Lemma adjacent_sym : forall edges i j, adjacent edges i j -> adjacent edges j i.
Proof. unfold adjacent; tauto. Qed.
Lemma indep_ok : forall edges x, forallb (fun p => negb (has_edge edges p)) (combinations (indices x)) = true <-> independent edges x.
Proof.
  intros edges x. rewrite forallb_forall. unfold independent. split.
  - intros H i j Hi Hj N A. apply indices_In in Hi, Hj.
    destruct (combinations_all _ i j Hi Hj N) as [I|I]; apply H in I; apply negb_true_iff in I; apply not_true_iff_false in I; apply I, has_edge_ok; auto using adjacent_sym.
  - intros H [i j] I. apply negb_true_iff, not_true_iff_false. rewrite has_edge_ok. pose proof (combinations_neq _ i j (indices_NoDup x) I) as N.
    apply combinations_In in I as [A B]. apply indices_In in A, B. auto.
Qed.
Lemma clique_ok : forall edges x, forallb (has_edge edges) (combinations (indices x)) = true <-> clique edges x.
Proof.
  intros edges x. rewrite forallb_forall. unfold clique. split.
  - intros H i j Hi Hj N. apply indices_In in Hi, Hj.
    destruct (combinations_all _ i j Hi Hj N) as [I|I]; apply H in I; apply has_edge_ok in I; auto using adjacent_sym.
  - intros H [i j] I. rewrite has_edge_ok. pose proof (combinations_neq _ i j (indices_NoDup x) I) as N.
    apply combinations_In in I as [A B]. apply indices_In in A, B. auto.
Qed.
Lemma reward_cost : forall (test : state -> bool) (feasible : state -> Prop) (obj : state -> Q) c,
  (forall x, test x = true <-> feasible x) ->
  (forall x, reward (feasible x) (inject_Z (- size x)) 0 (obj x)) ->
  fold_left (fun acc '(x, w) => if test x then acc + inject_Z (- Z.of_nat (length (indices x))) * w else acc) c 0 == expectation obj c.
Proof.
  intros test feasible obj c T R. unfold expectation. rewrite (fold_step _ _ (fun '(x, w) => obj x * w)); [ring|].
  intros acc [x w] _. rewrite indices_size. destruct (R x) as [F|F]; destruct (test x) eqn:E; try reflexivity; try ring.
  - exfalso. apply T in F. congruence.
  - exfalso. apply F, T, E.
Qed.
Lemma indep_cost_ok : forall edges c obj, (forall x, reward (independent edges x) (inject_Z (- size x)) 0 (obj x)) -> indep_cost edges c == expectation obj c.
Proof. intros edges c obj R. apply (reward_cost _ _ _ _ (indep_ok edges) R). Qed.
Lemma clique_cost_ok : forall edges c obj, (forall x, reward (clique edges x) (inject_Z (- size x)) 0 (obj x)) -> clique_cost edges c == expectation obj c.
Proof. intros edges c obj R. apply (reward_cost _ _ _ _ (clique_ok edges) R). Qed.

Lemma complement_adj : forall n edges i j, (i < n)%nat -> (j < n)%nat -> i <> j -> (adjacent (complement n edges) i j <-> ~ adjacent edges i j).
Proof.
  intros n edges i j Hi Hj N. unfold complement. unfold adjacent at 1. rewrite !filter_In, !negb_true_iff, <- !not_true_iff_false, !has_edge_ok. split.
  - intros [[_ A]|[_ A]]; [exact A|]. intros B; apply A, adjacent_sym, B.
  - intros A. assert (A' : ~ adjacent edges j i) by (intros B; apply A, adjacent_sym, B).
    destruct (combinations_all (seq 0 n) i j) as [I|I]; try (apply in_seq; lia); try exact N; [left|right]; split; auto.
Qed.
Lemma complement_indep : forall n edges x, length x = n -> (independent (complement n edges) x <-> clique edges x).
Proof.
  intros n edges x L.
  assert (B : forall i, chosen x i -> (i < n)%nat).
  { intros i Hi. apply indices_In in Hi. unfold indices in Hi. apply filter_In in Hi as [Hi _]. apply in_seq in Hi. lia. }
  unfold independent, clique. split; intros H i j Hi Hj N.
  - specialize (H i j Hi Hj N). rewrite (complement_adj n edges i j (B _ Hi) (B _ Hj) N) in H.
    destruct (has_edge edges (i, j)) eqn:E; [apply has_edge_ok, E|]. exfalso; apply H. intros A. apply has_edge_ok in A. congruence.
  - rewrite (complement_adj n edges i j (B _ Hi) (B _ Hj) N). intros A; apply A; auto.
Qed.
Lemma clique_complement_ok : forall n edges c obj, (forall x w, In (x, w) c -> length x = n) ->
  (forall x, reward (clique edges x) (inject_Z (- size x)) 0 (obj x)) -> indep_cost (complement n edges) c == expectation obj c.
Proof.
  intros n edges c obj L R. unfold indep_cost, expectation. rewrite (fold_step _ _ (fun '(x, w) => obj x * w)); [ring|].
  intros acc [x w] I. rewrite indices_size. pose proof (complement_indep n edges x (L x w I)) as C.
  destruct (R x) as [F|F]; destruct (forallb _ _) eqn:E; try reflexivity; try ring.
  - exfalso. apply C in F. apply indep_ok in F. congruence.
  - exfalso. apply F, C, indep_ok, E.
Qed.

Lemma meets_ok : forall a b, meets a b = true <-> exists e, In e a /\ In e b.
Proof.
  intros a b. unfold meets. rewrite existsb_exists. split; intros (e & I & H); exists e; (split; [exact I|]).
  - apply existsb_exists in H as (d & J & E). apply Nat.eqb_eq in E. subst; exact J.
  - apply existsb_exists. exists e. rewrite Nat.eqb_refl. auto.
Qed.
Lemma packing_adj : forall sets i j, i <> j -> (adjacent (packing_edges sets) i j <-> exists e, In e (nth i sets []) /\ In e (nth j sets [])).
Proof.
  intros sets i j N. unfold adjacent, packing_edges. rewrite !filter_In, !meets_ok. split.
  - intros [[_ (e & A & B)]|[_ (e & A & B)]]; exists e; auto.
  - intros (e & A & B).
    assert (L : forall k, In e (nth k sets []) -> In k (seq 0 (length sets))).
    { intros k K. apply in_seq. destruct (Nat.lt_ge_cases k (length sets)); [lia|]. rewrite nth_overflow in K by lia. destruct K. }
    destruct (combinations_all (seq 0 (length sets)) i j) as [I|I]; auto; [left|right]; (split; [exact I|exists e; auto]).
Qed.
Lemma packing_ok : forall sets x, independent (packing_edges sets) x <-> packing sets x.
Proof.
  intros sets x. unfold independent, packing. split.
  - intros H i j e Hi Hj N A B. apply (H i j Hi Hj N). apply packing_adj; eauto.
  - intros H i j Hi Hj N A. apply packing_adj in A as (e & A & B); eauto.
Qed.
Lemma packing_cost_ok : forall sets c obj, (forall x, reward (packing sets x) (inject_Z (- size x)) 0 (obj x)) -> packing_cost sets c == expectation obj c.
Proof.
  intros sets c obj R. apply indep_cost_ok. intros x. destruct (R x) as [F|F]; constructor; rewrite packing_ok; exact F.
Qed.

Lemma subset_ok : forall a b, subset a b = true <-> incl a b.
Proof.
  intros a b. unfold subset. rewrite forallb_forall. split; intros H e I; specialize (H e I).
  - apply existsb_exists in H as (d & J & E). apply Nat.eqb_eq in E. subst; exact J.
  - apply existsb_exists. exists e. rewrite Nat.eqb_refl. auto.
Qed.
Lemma covers_ok : forall sets universe x, covers sets universe x = true <-> cover sets universe x.
Proof.
  intros sets universe x. unfold covers, cover. rewrite !andb_true_iff, !subset_ok, Z.ltb_lt, map_length.
  assert (U : forall e, In e (concat (map (fun i => nth i sets []) (indices x))) <-> exists i, chosen x i /\ In e (nth i sets [])).
  { intros e. rewrite in_concat. split.
    - intros (s & I & J). apply in_map_iff in I as (i & <- & K). exists i. rewrite <- indices_In. auto.
    - intros (i & I & J). exists (nth i sets []). split; [|exact J]. apply in_map_iff. exists i. rewrite indices_In. auto. }
  assert (E : (0 < Z.of_nat (length (indices x)))%Z <-> exists i, chosen x i).
  { split.
    - intros H. destruct (indices x) as [|i l] eqn:D; [cbn in H; lia|]. exists i. apply indices_In. rewrite D. cbn; auto.
    - intros (i & I). apply indices_In in I. destruct (indices x); [destruct I|cbn [length]; lia]. }
  rewrite E. split.
  - intros [[A B] C]. split; [exact A|]. intros e. rewrite <- U. split; [apply C|apply B].
  - intros [A B]. split; [split; [exact A|]|]; intros e; rewrite U, B; auto.
Qed.
Lemma cover_cost_ok : forall sets universe c obj, (forall x w, In (x, w) c -> cover sets universe x \/ w == 1) ->
  (forall x, reward (cover sets universe x) (inject_Z (size x)) (inject_Z (Z.of_nat (length sets))) (obj x)) ->
  cover_cost sets universe c == expectation obj c.
Proof.
  intros sets universe c obj H R. unfold cover_cost, expectation. rewrite (fold_step _ _ (fun '(x, w) => obj x * w)); [ring|].
  intros acc [x w] I. rewrite indices_size. destruct (R x) as [F|F]; destruct (covers sets universe x) eqn:E; try reflexivity.
  - exfalso. apply covers_ok in F. congruence.
  - exfalso. apply F, covers_ok, E.
  - destruct (H x w I) as [G|G]; [contradiction|]. rewrite G. ring.
Qed.

(** * colouring *)
Lemma mkcs_obj_ok : forall col edges, mkcs_obj col edges = (- 4 ^ proper_edges col edges)%Z.
Proof.
  intros col edges. unfold mkcs_obj, proper_edges.
  assert (G : forall s, fold_left (fun cost '(i, j) => if Nat.eqb (nth i col 0%nat) (nth j col 0%nat) then cost else (cost * 4)%Z) edges s
     = (s * 4 ^ count (fun '(i, j) => negb (Nat.eqb (nth i col 0%nat) (nth j col 0%nat))) edges)%Z).
  { induction edges as [|[i j] l IH]; intros s; [cbn; lia|]. cbn [fold_left]. rewrite IH, count_cons.
    destruct (Nat.eqb _ _); cbn [negb]; [rewrite Z.add_0_l; reflexivity|].
    rewrite Z.pow_add_r by (unfold count; lia). lia. }
  rewrite G. lia.
Qed.
Lemma coloring_cost_ok : forall edges c, coloring_cost edges c == expectation (fun col => inject_Z (- 4 ^ proper_edges col edges)) c.
Proof.
  intros edges c. unfold coloring_cost, expectation. rewrite (fold_step _ _ (fun '(col, w) => inject_Z (- 4 ^ proper_edges col edges) * w)); [ring|].
  intros acc [x w] _. rewrite mkcs_obj_ok. reflexivity.
Qed.

(** * phase separators *)
Definition diag (l : list pgate) (x : nat -> bool) (angle : Q) : Prop :=
  (forall k, fst (circuit_act l x) k = x k) /\ snd (circuit_act l x) == angle.
Lemma gate_ext : forall g x y, (forall k, x k = y k) -> (forall k, fst (gate_act g x) k = fst (gate_act g y) k) /\ snd (gate_act g x) = snd (gate_act g y).
Proof.
  intros g x y H.
  assert (F : forall c, forallb x c = forallb y c) by (induction c as [|a c IH]; cbn; [reflexivity|rewrite H, IH; reflexivity]).
  assert (F0 : forall c, forallb (fun i => negb (x i)) c = forallb (fun i => negb (y i)) c) by (induction c as [|a c IH]; cbn; [reflexivity|rewrite H, IH; reflexivity]).
  destruct g; cbn [gate_act fst snd]; rewrite ?H, ?F, ?F0; split; auto.
  intros k. unfold setb. destruct (Nat.eqb k j); auto.
Qed.
Lemma circuit_ext : forall l x y, (forall k, x k = y k) -> (forall k, fst (circuit_act l x) k = fst (circuit_act l y) k) /\ snd (circuit_act l x) = snd (circuit_act l y).
Proof.
  induction l as [|g l IH]; intros x y H; cbn [circuit_act]; [auto|].
  destruct (gate_ext g x y H) as [A B]. destruct (gate_act g x) as [x' p], (gate_act g y) as [y' q]; cbn [fst snd] in *.
  destruct (IH x' y' A) as [C D]. destruct (circuit_act l x'), (circuit_act l y'); cbn [fst snd] in *. subst. auto.
Qed.
Lemma circuit_app : forall l m x, (fst (circuit_act (l ++ m) x) = fst (circuit_act m (fst (circuit_act l x)))) /\
  snd (circuit_act (l ++ m) x) == snd (circuit_act l x) + snd (circuit_act m (fst (circuit_act l x))).
Proof.
  induction l as [|g l IH]; intros m x; cbn [circuit_act app].
  - cbn [fst snd]. split; [reflexivity|ring].
  - destruct (gate_act g x) as [y p]. destruct (IH m y) as [A B]. destruct (circuit_act (l ++ m) y) as [z q], (circuit_act l y) as [z' q']; cbn [fst snd] in *.
    split; [exact A|]. rewrite B. ring.
Qed.
Lemma diag_app : forall l m x a b, diag l x a -> diag m x b -> diag (l ++ m) x (a + b).
Proof.
  intros l m x a b [L1 L2] [M1 M2]. destruct (circuit_app l m x) as [A B].
  destruct (circuit_ext m (fst (circuit_act l x)) x L1) as [C D]. split.
  - intros k. rewrite A, C. apply M1.
  - rewrite B, D, L2, M2. reflexivity.
Qed.
Lemma diag_nil : forall x, diag [] x 0. Proof. intros x; split; reflexivity. Qed.
Lemma diag_eq : forall l x a b, a == b -> diag l x a -> diag l x b.
Proof. intros l x a b E [A B]. split; [exact A|]. rewrite B. exact E. Qed.
Lemma diag_flat_map : forall A (f : A -> list pgate) (g : A -> Q) x l, (forall a, In a l -> diag (f a) x (g a)) -> diag (flat_map f l) x (total g l).
Proof.
  intros A f g x l; induction l as [|a l IH]; intros H; cbn [flat_map total]; [apply diag_nil|].
  apply diag_app; [apply H; cbn; auto|apply IH; intros; apply H; cbn; auto].
Qed.
Lemma diag_gate : forall g x p, gate_act g x = (x, p) -> diag [g] x p.
Proof. intros g x p H. split; cbn [circuit_act]; rewrite H; cbn [fst snd]; [reflexivity|ring]. Qed.
Lemma diag_map : forall A (f : A -> pgate) (g : A -> Q) x l, (forall a, In a l -> gate_act (f a) x = (x, g a)) -> diag (map f l) x (total g l).
Proof.
  intros A f g x l; induction l as [|a l IH]; intros H; cbn [map total]; [apply diag_nil|].
  apply (diag_app [f a]); [apply diag_gate; apply H; cbn; auto|apply IH; intros; apply H; cbn; auto].
Qed.

Definition edge_gate_maxcut (gamma : Q) (e : nat * nat) : pgate := let '(i, j) := e in Rzz (2 * gamma) i j.
Lemma maxcut_operator_ok : forall edges gamma x, multiplies (maxcut_operator edges gamma) x (gamma * inject_Z (2 * cut x edges - Z.of_nat (length edges))).
Proof.
  intros edges gamma x. change (diag (map (edge_gate_maxcut gamma) edges) (bit x) (gamma * inject_Z (2 * cut x edges - Z.of_nat (length edges)))).
  apply diag_eq with (total (fun '(i, j) => sgn (xorb (bit x i) (bit x j)) * (2 * gamma)) edges).
  2: { apply diag_map. intros [i j] _. reflexivity. }
  unfold cut. induction edges as [|[i j] l IH]; cbn [total length]; [cbn; ring|].
  rewrite IH, count_cons, Nat2Z.inj_succ. unfold Z.succ.
  unfold Zminus. rewrite !inject_Z_plus, !inject_Z_mult, !inject_Z_opp, !inject_Z_plus.
  destruct (xorb (bit x i) (bit x j)); cbn [sgn]; unfold sgn; change (inject_Z 2) with 2; change (inject_Z 1) with 1; change (inject_Z 0) with 0; field.
Qed.

Lemma qubo_operator_ok : forall m gamma x, multiplies (qubo_operator (length x) m gamma) x (- gamma * quadratic m x).
Proof.
  intros m gamma x. unfold multiplies. fold (diag (qubo_operator (length x) m gamma) (bit x) (- gamma * quadratic m x)).
  unfold qubo_operator. set (all := seq 0 (length x)).
  set (T := qsum (map (fun i => qsum (map (fun j => entry m i j) all)) all)).
  set (tr := qsum (map (fun i => entry m i i) all)).
  set (z := fun i => sgn (bit x i)).
  set (row := fun i => qsum (map (fun j => entry m i j) all)). set (col := fun i => qsum (map (fun j => entry m j i) all)).
  apply diag_eq with (- gamma / 4 * (T + tr) +
     total (fun i => z i * (- gamma / 2 * (row i + col i)) + total (fun j => if Nat.eqb i j then 0 else sgn (xorb (bit x i) (bit x j)) * (gamma / 2 * entry m i j)) all) all).
  2: { apply (diag_app [_]); [apply diag_gate; reflexivity|]. apply diag_flat_map. intros i _.
       apply (diag_app [_]); [apply diag_gate; reflexivity|]. apply diag_flat_map. intros j _.
       destruct (Nat.eqb i j); cbn [negb andb]; [apply diag_nil|]. destruct (Qeq_bool (entry m i j) 0) eqn:E; cbn [negb].
       - apply Qeq_bool_eq in E. apply diag_eq with 0; [rewrite E; ring|apply diag_nil].
       - apply diag_gate; reflexivity. }
  unfold quadratic. fold all.
  assert (RC : total (fun i => z i * (- gamma / 2 * (row i + col i))) all == - gamma / 2 * total (fun i => total (fun j => (z i + z j) * entry m i j) all) all).
  { rewrite (total_ext _ _ (fun i => - gamma / 2 * (total (fun j => z i * entry m i j) all + total (fun j => z i * entry m j i) all)) all).
    - rewrite total_scale, total_plus, (total_swap _ _ (fun i j => z i * entry m j i)), <- total_plus.
      apply Qmult_comp; [reflexivity|]. apply total_ext. intros i _. rewrite <- total_plus. apply total_ext. intros j _. ring.
    - intros i _. unfold row, col. rewrite !qsum_total, !total_scale.
      change (fun j => entry m i j) with (entry m i). set (u := total (entry m i) all). ring. }
  assert (TT : T == total (fun i => total (fun j => entry m i j) all) all).
  { unfold T. rewrite qsum_total. apply total_ext. intros i _. apply qsum_total. }
  assert (DD : tr == total (fun i => total (fun j => if Nat.eqb i j then entry m i j else 0) all) all).
  { unfold tr. rewrite qsum_total. apply total_ext. intros i I. unfold all in *. clear - I. revert I. generalize (seq_NoDup (length x) 0). generalize (seq 0 (length x)) as l.
    intros l; induction l as [|a l IH]; intros N I; [destruct I|]. inversion N; subst. cbn [total]. destruct I as [->|I].
    - rewrite Nat.eqb_refl, (total_ext _ _ (fun _ => 0)); [rewrite total_zero; ring|]. intros b B. destruct (Nat.eqb_spec i b); [subst; contradiction|reflexivity].
    - rewrite <- IH by auto. destruct (Nat.eqb_spec i a); [subst; contradiction|ring]. }
  rewrite total_plus, RC, TT, DD, <- total_plus, <- !total_scale.
  rewrite Qplus_assoc, <- !total_plus. apply total_ext. intros i I.
  rewrite <- !total_plus, <- !total_scale, <- !total_plus. apply total_ext. intros j J.
  unfold z. destruct (Nat.eqb_spec i j) as [->|N].
  - destruct (bit x j); cbn; unfold sgn, b2q; field.
  - destruct (bit x i), (bit x j); cbn; unfold sgn, b2q; field.
Qed.

(** polynomials *)
Definition peval (p : poly) (x : nat -> bool) : Q := total (fun '(a, v) => if forallb x v then a else 0) p.
Lemma forallb_nodup : forall x v, forallb x (nodup Nat.eq_dec v) = forallb x v.
Proof.
  intros x v. destruct (forallb x v) eqn:E.
  - rewrite forallb_forall in *. intros a I. apply nodup_In in I. auto.
  - apply not_true_iff_false. apply not_true_iff_false in E. intros H. apply E. rewrite forallb_forall in *. intros a I. apply H, nodup_In, I.
Qed.
Definition monom_gate (t : Q) (m : Q * list nat) : pgate := let '(a, v) := m in match nodup Nat.eq_dec v with [] => Gphase (a * t) | c => Mcp (a * t) c end.
Lemma app_sb_ok : forall p t x, diag (app_sb_phase_polynomial p t) x (t * peval p x).
Proof.
  intros p t x. change (diag (map (monom_gate t) p) x (t * peval p x)). unfold peval.
  apply diag_eq with (total (fun '(a, v) => if forallb x v then a * t else 0) p).
  - rewrite <- total_scale. apply total_ext. intros [a v] _. destruct (forallb x v); ring.
  - apply diag_map. intros [a v] _. unfold monom_gate. rewrite <- forallb_nodup. destruct (nodup Nat.eq_dec v); reflexivity.
Qed.
Lemma peval_app : forall p q x, peval (p ++ q) x == peval p x + peval q x.
Proof. intros; apply total_app. Qed.
Lemma peval_scale : forall a p x, peval (pscale a p) x == a * peval p x.
Proof.
  intros a p x. unfold peval, pscale. rewrite <- total_scale. induction p as [|[b v] p IH]; cbn [map total]; [reflexivity|].
  rewrite IH. destruct (forallb x v); ring.
Qed.
Lemma peval_mul : forall p q x, peval (pmul p q) x == peval p x * peval q x.
Proof.
  intros p q x. unfold pmul. induction p as [|[a u] p IH]; cbn [flat_map]; [cbn; ring|].
  rewrite peval_app, IH. change (peval ((a, u) :: p) x) with ((if forallb x u then a else 0) + peval p x).
  assert (G : peval (map (fun '(b, v) => (a * b, u ++ v)) q) x == (if forallb x u then a else 0) * peval q x).
  { unfold peval. clear IH. induction q as [|[b v] q IH]; cbn [map total]; [ring|]. rewrite IH, forallb_app.
    destruct (forallb x u), (forallb x v); cbn [andb]; ring. }
  rewrite G. ring.
Qed.
Lemma peval_lit : forall l x, l <> 0%Z -> peval (lit_poly l) (bit x) == inject_Z (lit_factor x l).
Proof.
  intros l x H. unfold lit_poly, lit_factor. destruct (0 <? l)%Z; cbn [peval total forallb].
  - destruct (bit x (Z.to_nat (l - 1))); cbn; reflexivity.
  - destruct (bit x (Z.to_nat (- l - 1))); cbn; reflexivity.
Qed.
Lemma peval_clause : forall cl x, (forall l, In l cl -> l <> 0%Z) -> peval (clause_poly cl) (bit x) == inject_Z (clause_value x cl).
Proof.
  intros cl x H. unfold clause_poly, clause_value.
  assert (G : forall p a, peval p (bit x) == inject_Z a -> peval (fold_left pmul (map lit_poly cl) p) (bit x) == inject_Z (fold_left Z.mul (map (lit_factor x) cl) a)).
  { induction cl as [|l cl IH]; intros p a E; cbn [map fold_left]; [exact E|].
    apply IH; [intros; apply H; cbn; auto|]. rewrite peval_mul, inject_Z_mult, E, peval_lit by (apply H; cbn; auto). reflexivity. }
  rewrite peval_app, peval_scale. rewrite (G (pconst 1) 1%Z) by reflexivity. unfold Zminus. rewrite inject_Z_plus, inject_Z_opp.
  change (peval (pconst 1) (bit x)) with (1 + 0). change (inject_Z 1) with 1. ring.
Qed.
Lemma maxsat_operator_ok : forall clauses gamma x n, literals_ok clauses -> nsat x clauses n ->
  multiplies (maxsat_operator clauses gamma) x (- gamma * inject_Z n).
Proof.
  intros clauses gamma x n H N. unfold multiplies. fold (diag (maxsat_operator clauses gamma) (bit x) (- gamma * inject_Z n)).
  eapply diag_eq; [rewrite (nsat_value x clauses n H N), <- total_scale; reflexivity|]. apply diag_flat_map. intros cl I.
  eapply diag_eq; [|apply app_sb_ok]. rewrite peval_scale, peval_clause by (intros l; apply H, I). ring.
Qed.

(** E3Lin2 *)
Lemma e3lin2_operator_ok : forall clauses gamma x, (forall i j k r, In (i, j, k, r) clauses -> i <> j /\ j <> k /\ i <> k) ->
  multiplies (e3lin2_operator clauses gamma) x (gamma / 2 * inject_Z (Z.of_nat (length clauses) - 2 * nlin x clauses)).
Proof.
  intros clauses gamma x H.
  apply diag_eq with (total (fun '(i, j, k, r) => if eqb (xorb (xorb (bit x i) (bit x j)) (bit x k)) r then - gamma / 2 else gamma / 2) clauses).
  - unfold nlin. clear H. induction clauses as [|[[[i j] k] r] l IH]; cbn [total length]; [cbn; field|].
    rewrite IH, count_cons, Nat2Z.inj_succ. unfold Z.succ, Zminus.
    rewrite !inject_Z_plus, !inject_Z_opp, !inject_Z_mult, !inject_Z_plus.
    destruct (eqb _ r); change (inject_Z 2) with 2; change (inject_Z 1) with 1; change (inject_Z 0) with 0; field.
  - apply diag_flat_map. intros [[[i j] k] r] I. destruct (H i j k r I) as (N1 & N2 & N3). unfold e3lin2_clause, diag. cbn [circuit_act gate_act fst snd].
    assert (E : forall a b, a <> b -> Nat.eqb a b = false) by (intros; apply Nat.eqb_neq; assumption).
    split.
    + intros q. unfold setb. rewrite !Nat.eqb_refl, (E i j), (E i k), (E j k), (E k j) by auto.
      destruct (Nat.eqb_spec q j) as [->|Q1]; [rewrite ?(E j k) by auto; destruct (bit x i), (bit x j); reflexivity|].
      destruct (Nat.eqb_spec q k) as [->|Q2]; [destruct (bit x i), (bit x j), (bit x k); reflexivity|reflexivity].
    + unfold setb. rewrite !Nat.eqb_refl, (E k j) by auto.
      destruct (bit x i), (bit x j), (bit x k), r; cbn; field.
Qed.

(** colouring *)
Lemma cx_list : forall a b l x, NoDup l -> (forall i j, In i l -> In j l -> (a + i)%nat <> (b + j)%nat) ->
  (forall q, fst (circuit_act (map (fun i => Cx (a + i) (b + i)) l) x) q =
     if existsb (fun i => Nat.eqb q (b + i)) l then xorb (x q) (x (a + (q - b))%nat) else x q) /\
  snd (circuit_act (map (fun i => Cx (a + i) (b + i)) l) x) == 0.
Proof.
  intros a b l; induction l as [|i l IH]; intros x N D; cbn [map circuit_act gate_act existsb]; [split; reflexivity|].
  inversion N; subst. destruct (IH (setb x (b + i) (xorb (x (b + i)%nat) (x (a + i)%nat))) ltac:(assumption)) as [A B]; [intros; apply D; cbn; auto|].
  destruct (circuit_act _ _) as [y q']. cbn [fst snd] in *. split; [|rewrite B; ring].
  intros q. rewrite A. clear A B. unfold setb. destruct (Nat.eqb_spec q (b + i)) as [->|Q].
  - cbn [orb]. replace (b + i - b)%nat with i by lia. destruct (existsb _ l) eqn:E; [|reflexivity].
    exfalso. apply existsb_exists in E as (j & J & E). apply Nat.eqb_eq in E. assert (i = j) by lia. subst; contradiction.
  - cbn [orb]. destruct (existsb _ l) eqn:E; [|reflexivity]. apply existsb_exists in E as (j & J & E). apply Nat.eqb_eq in E.
    destruct (Nat.eqb_spec (a + (q - b)) (b + i)) as [F|F]; [|reflexivity]. exfalso. apply (D j i); cbn; auto. lia.
Qed.
Lemma in_seq_existsb : forall q b s, existsb (fun i => Nat.eqb q (b + i)) (seq 0 s) = (b <=? q)%nat && (q <? b + s)%nat.
Proof.
  intros q b s. apply eq_true_iff_eq. rewrite existsb_exists, andb_true_iff, Nat.leb_le, Nat.ltb_lt. split.
  - intros (i & I & E). apply in_seq in I. apply Nat.eqb_eq in E. lia.
  - intros [A B]. exists (q - b)%nat. rewrite in_seq, Nat.eqb_eq. lia.
Qed.
Definition same_register (x : nat -> bool) (a b s : nat) : bool := forallb (fun k => eqb (x (a + k)%nat) (x (b + k)%nat)) (seq 0 s).
Lemma phase_binary : forall a b s gamma x, (a + s <= b \/ b + s <= a)%nat -> diag (phase_if_eq_binary a b s gamma) x (if same_register x a b s then 2 * gamma else 0).
Proof.
  intros a b s gamma x D. unfold phase_if_eq_binary. set (c := map (fun i => Cx (a + i) (b + i)) (seq 0 s)).
  assert (DD : forall i j, In i (seq 0 s) -> In j (seq 0 s) -> (a + i)%nat <> (b + j)%nat) by (intros i j I J; apply in_seq in I, J; lia).
  destruct (cx_list a b (seq 0 s) x (seq_NoDup s 0) DD) as [A1 A2]. fold c in A1, A2.
  set (y := fst (circuit_act c x)) in *.
  destruct (cx_list a b (seq 0 s) y (seq_NoDup s 0) DD) as [B1 B2]. fold c in B1, B2.
  destruct (circuit_app c ([Mcp0 (2 * gamma) (seq b s)] ++ c) x) as [C1 C2]. fold y in C1, C2.
  assert (M : circuit_act ([Mcp0 (2 * gamma) (seq b s)] ++ c) y = (fst (circuit_act c y), (if forallb (fun i => negb (y i)) (seq b s) then 2 * gamma else 0) + snd (circuit_act c y))).
  { cbn [app circuit_act gate_act]. destruct (circuit_act c y); reflexivity. }
  rewrite M in C1, C2. cbn [fst snd] in C1, C2. split.
  - intros q. rewrite C1, B1, !A1, !in_seq_existsb.
    destruct ((b <=? q)%nat && (q <? b + s)%nat) eqn:E; [|reflexivity]. apply andb_true_iff in E as [E1 E2]. apply Nat.leb_le in E1. apply Nat.ltb_lt in E2.
    replace ((b <=? a + (q - b))%nat && (a + (q - b) <? b + s)%nat) with false.
    2: { symmetry. apply not_true_iff_false. rewrite andb_true_iff, Nat.leb_le, Nat.ltb_lt. lia. }
    destruct (x q), (x (a + (q - b))%nat); reflexivity.
  - rewrite C2, A2, B2.
    assert (F : forallb (fun i => negb (y i)) (seq b s) = same_register x a b s).
    { unfold same_register. apply eq_true_iff_eq. rewrite !forallb_forall. split; intros H i I.
      - apply in_seq in I. specialize (H (b + i)%nat). rewrite in_seq, A1, in_seq_existsb in H.
        replace ((b <=? b + i)%nat && (b + i <? b + s)%nat) with true in H by (symmetry; rewrite andb_true_iff, Nat.leb_le, Nat.ltb_lt; lia).
        replace (b + i - b)%nat with i in H by lia. specialize (H ltac:(lia)). destruct (x (a + i)%nat), (x (b + i)%nat); cbn in *; auto.
      - apply in_seq in I. specialize (H (i - b)%nat). rewrite in_seq in H. specialize (H ltac:(lia)). rewrite A1, in_seq_existsb.
        replace ((b <=? i)%nat && (i <? b + s)%nat) with true by (symmetry; rewrite andb_true_iff, Nat.leb_le, Nat.ltb_lt; lia).
        replace (b + (i - b))%nat with i in H by lia. destruct (x (a + (i - b))%nat), (x i); cbn in *; auto. }
    rewrite F. ring.
Qed.
Definition onehot_gate (gamma : Q) (a b i : nat) : pgate := Mcp (2 * gamma) [a + i; b + i]%nat.
Lemma phase_onehot : forall a b s gamma x ca cb, (ca < s)%nat -> (cb < s)%nat ->
  (forall k, (k < s)%nat -> x (a + k)%nat = Nat.eqb k ca) -> (forall k, (k < s)%nat -> x (b + k)%nat = Nat.eqb k cb) ->
  diag (phase_if_eq_onehot a b s gamma) x (if Nat.eqb ca cb then 2 * gamma else 0).
Proof.
  intros a b s gamma x ca cb La Lb Ha Hb. unfold phase_if_eq_onehot.
  apply diag_eq with (total (fun i => if Nat.eqb i ca && Nat.eqb i cb then 2 * gamma else 0) (seq 0 s)).
  - destruct (Nat.eqb_spec ca cb) as [<-|N].
    + assert (I : In ca (seq 0 s)) by (apply in_seq; lia). revert I. generalize (seq_NoDup s 0). generalize (seq 0 s) as l.
      intros l; induction l as [|c l IH]; intros ND I; [destruct I|]. inversion ND; subst. cbn [total]. destruct I as [->|I].
      * rewrite Nat.eqb_refl, (total_ext _ _ (fun _ => 0)); [rewrite total_zero; cbn; ring|]. intros d J. destruct (Nat.eqb_spec d ca); [subst; contradiction|reflexivity].
      * rewrite IH by auto. destruct (Nat.eqb_spec c ca); [subst; contradiction|cbn; ring].
    + rewrite (total_ext _ _ (fun _ => 0)); [apply total_zero|]. intros c _. destruct (Nat.eqb_spec c ca), (Nat.eqb_spec c cb); subst; cbn; try reflexivity; congruence.
  - apply diag_map. intros i I. apply in_seq in I. cbn [gate_act forallb]. rewrite Ha, Hb, andb_true_r by lia. reflexivity.
Qed.
Lemma testbit_inj : forall s u v, (u < 2 ^ s)%nat -> (v < 2 ^ s)%nat -> (forall k, (k < s)%nat -> Nat.testbit u k = Nat.testbit v k) -> u = v.
Proof.
  intros s u v Hu Hv H. apply Nat.bits_inj. intros k. destruct (Nat.lt_ge_cases k s) as [L|L]; [auto|].
  assert (Z : forall w, (w < 2 ^ s)%nat -> Nat.testbit w k = false).
  { intros w Hw. destruct (Nat.eq_dec w 0) as [->|W]; [apply Nat.bits_0|]. apply Nat.bits_above_log2.
    apply Nat.log2_lt_pow2; [lia|]. eapply Nat.lt_le_trans; [exact Hw|]. apply Nat.pow_le_mono_r; lia. }
  rewrite !Z by assumption. reflexivity.
Qed.
Lemma coloring_operator_ok : forall onehot s edges gamma x col, encodes onehot s x col -> simple (length col) edges ->
  multiplies (coloring_operator onehot s edges gamma) x (2 * gamma * inject_Z (equal_edges col edges)).
Proof.
  intros onehot s edges gamma x col E S.
  apply diag_eq with (total (fun '(i, j) => if Nat.eqb (nth i col 0%nat) (nth j col 0%nat) then 2 * gamma else 0) edges).
  - unfold equal_edges. rewrite count_total, <- total_scale. apply total_ext. intros [i j] _. destruct (Nat.eqb _ _); ring.
  - apply diag_flat_map. intros [i j] I. destruct (S i j I) as (Li & Lj & N). destruct (E i Li) as [Ri Bi], (E j Lj) as [Rj Bj].
    destruct onehot.
    + apply phase_onehot; assumption.
    + eapply diag_eq; [|apply phase_binary].
      * replace (same_register (bit x) (i * s) (j * s) s) with (Nat.eqb (nth i col 0%nat) (nth j col 0%nat)); [reflexivity|].
        apply eq_true_iff_eq. unfold same_register. rewrite Nat.eqb_eq, forallb_forall. split.
        -- intros Q k K. apply in_seq in K. rewrite Bi, Bj, Q by lia. apply eqb_reflx.
        -- intros H. apply (testbit_inj s); auto. intros k K. rewrite <- Bi, <- Bj by exact K. apply eqb_prop, H. apply in_seq; lia.
      * destruct (Nat.lt_ge_cases i j); [left|right]; nia.
Qed.

(** * existence of the objectives *)
Lemma reward_dec : forall (F : state -> Prop) (test : state -> bool) (v o : state -> Q), (forall x, test x = true <-> F x) ->
  forall x, reward (F x) (v x) (o x) (if test x then v x else o x).
Proof.
  intros F test v o T x. destruct (test x) eqn:E; constructor; [apply T, E|]. intros H. apply T in H. congruence.
Qed.
Lemma nsat_exists : forall x clauses, literals_ok clauses -> exists n, nsat x clauses n.
Proof.
  intros x clauses; induction clauses as [|cl l IH]; intros H; [exists 0%Z; constructor|].
  destruct IH as [n N]; [intros c m I; apply H; cbn; auto|].
  destruct (clause_value_ok x cl) as [[A _]|[A _]]; [intros m I; apply (H cl m); cbn; auto| |]; eexists; [apply nsat_yes|apply nsat_no]; eassumption.
Qed.
