(** Proofs for FermiModel. *)
From Coq Require Import Permutation Ring.
From Verif.Operators Require Import FermiModel FermiSpec PauliSpec PauliProofs.
Local Open Scope nat_scope.
Add Ring gaussian3 : gring.

(** ** occupation numbers *)
Lemma set_occ_length s i v : length (set_occ s i v) = length s.
Proof. revert i. induction s as [|h s IH]; intros [|i]; cbn; auto. Qed.
Lemma occ_set_same s i v : i < length s -> occ (set_occ s i v) i = v.
Proof. revert i. induction s as [|h s IH]; intros [|i] H; cbn in *; try lia; [reflexivity|]. apply IH. lia. Qed.
Lemma occ_set_other s i j v : i <> j -> occ (set_occ s i v) j = occ s j.
Proof. revert i j. induction s as [|h s IH]; intros [|i] [|j] H; cbn in *; try congruence; try reflexivity. apply IH. congruence. Qed.
Lemma set_occ_comm s i j v w : i <> j -> set_occ (set_occ s i v) j w = set_occ (set_occ s j w) i v.
Proof. revert i j. induction s as [|h s IH]; intros [|i] [|j] H; cbn in *; try congruence; try reflexivity. rewrite IH by congruence. reflexivity. Qed.
Lemma parity_set s i v j : i < length s -> parity_below (set_occ s i v) j = xorb (parity_below s j) (if i <? j then xorb v (occ s i) else false).
Proof.
  revert i j. induction s as [|h s IH]; intros i j H; [cbn in H; lia|]. destruct i as [|i], j as [|j]; cbn [set_occ parity_below occ nth]; try reflexivity.
  - destruct h, v, (parity_below s j); reflexivity.
  - rewrite IH by (cbn in H; lia). change (S i <? S j) with (i <? j). fold (occ s i). destruct h, (parity_below s j), (i <? j), v, (occ s i); reflexivity.
Qed.
Definition neg (r : option (bool * state)) : option (bool * state) := option_map (fun p => (negb (fst p), snd p)) r.
Lemma neg_neg r : neg (neg r) = r. Proof. destruct r as [[[] s]|]; reflexivity. Qed.
Fixpoint negn (k : nat) r := match k with O => r | S k => neg (negn k r) end.
Lemma negn_none k : negn k None = None.
Proof. induction k as [|k IH]; [reflexivity|]. cbn. rewrite IH. reflexivity. Qed.
Lemma act_app t1 t2 s : act (t1 ++ t2) s = match act t1 s with None => None | Some (sg, s') => match act t2 s' with None => None | Some (sg', s'') => Some (xorb sg sg', s'') end end.
Proof.
  revert s. induction t1 as [|l t1 IH]; intros s; cbn [app act].
  - destruct (act t2 s) as [[sg s']|]; [rewrite xorb_false_l|]; reflexivity.
  - destruct (act1 l s) as [[sg s']|]; [|reflexivity]. rewrite IH. destruct (act t1 s') as [[sg1 s1]|]; [|reflexivity]. destruct (act t2 s1) as [[sg2 s2]|]; [rewrite xorb_assoc|]; reflexivity.
Qed.
Lemma act1_length l s sg s' : act1 l s = Some (sg, s') -> length s' = length s.
Proof. destruct l as [i c]. cbn. destruct (eqb (occ s i) c); [discriminate|]. intros [= <- <-]. apply set_occ_length. Qed.
Lemma act_length t : forall s sg s', act t s = Some (sg, s') -> length s' = length s.
Proof.
  induction t as [|l t IH]; intros s sg s'; cbn; [intros [= <- <-]; reflexivity|]. destruct (act1 l s) as [[sg1 s1]|] eqn:E1; [|discriminate].
  destruct (act t s1) as [[sg2 s2]|] eqn:E2; [|discriminate]. intros [= <- <-]. rewrite (IH _ _ _ E2). exact (act1_length _ _ _ _ E1).
Qed.
(** canonical anticommutation for different modes *)
Lemma act_swap2 (l1 l2 : ladder) s : fst l1 <> fst l2 -> fst l1 < length s -> fst l2 < length s -> act [l1; l2] s = neg (act [l2; l1] s).
Proof.
  destruct l1 as [i c], l2 as [j e]. cbn [fst]. intros Hn Hi Hj. cbn [act act1].
  destruct (eqb (occ s i) c) eqn:E1, (eqb (occ s j) e) eqn:E2; cbn [act1]; try reflexivity.
  - rewrite occ_set_other by congruence. rewrite E1. reflexivity.
  - rewrite occ_set_other by congruence. rewrite E2. reflexivity.
  - rewrite !occ_set_other by congruence. rewrite E1, E2. cbn [neg option_map fst snd]. rewrite !parity_set by assumption.
    rewrite set_occ_comm by congruence. do 2 f_equal.
    destruct c, e, (occ s i), (occ s j); try discriminate; destruct (Nat.ltb_spec i j), (Nat.ltb_spec j i); try lia; destruct (parity_below s i), (parity_below s j); reflexivity.
Qed.
Lemma act_swap (l1 l2 : ladder) t s : fst l1 <> fst l2 -> fst l1 < length s -> fst l2 < length s -> act (l1 :: l2 :: t) s = neg (act (l2 :: l1 :: t) s).
Proof.
  intros H H1 H2. change (l1 :: l2 :: t) with ([l1; l2] ++ t). change (l2 :: l1 :: t) with ([l2; l1] ++ t). rewrite !act_app, (act_swap2 l1 l2 s H H1 H2).
  destruct (act [l2; l1] s) as [[sg s']|]; cbn [neg option_map fst snd]; [|reflexivity]. destruct (act t s') as [[sg' s'']|]; cbn; [|reflexivity]. rewrite negb_xorb_l. reflexivity.
Qed.
Lemma act_cons_neg l t t' s : (forall s', length s' = length s -> act t s' = neg (act t' s')) -> act (l :: t) s = neg (act (l :: t') s).
Proof.
  intros H. cbn. destruct (act1 l s) as [[sg s']|] eqn:E; [|reflexivity]. rewrite H by exact (act1_length _ _ _ _ E).
  destruct (act t' s') as [[sg' s'']|]; cbn; [rewrite negb_xorb_r|]; reflexivity.
Qed.
Lemma act_pass x A B : (forall a, In a A -> fst x <> fst a) -> forall s, fits s (x :: A) -> act (x :: A ++ B) s = negn (length A) (act (A ++ x :: B) s).
Proof.
  induction A as [|a A IH]; intros H s F; [reflexivity|]. cbn [app length negn].
  rewrite act_swap; [|apply H; left; reflexivity|apply F; left; reflexivity|apply F; right; left; reflexivity]. f_equal.
  cbn [act]. destruct (act1 a s) as [[sg s']|] eqn:E; [|rewrite negn_none; reflexivity].
  change (match act1 x s' with Some (sg0, s'0) => match act (A ++ B) s'0 with Some (sg', s'') => Some (xorb sg0 sg', s'') | None => None end | None => None end) with (act (x :: A ++ B) s').
  rewrite IH.
  - generalize (length A) as k. intros k. generalize (act (A ++ x :: B) s') as r. intros r. induction k as [|k IHk]; [reflexivity|]. cbn [negn]. rewrite <- IHk. destruct (negn k r) as [[sg' s'']|]; cbn; [rewrite negb_xorb_r|]; reflexivity.
  - intros b Hb. apply H. right. exact Hb.
  - intros l Hl. rewrite (act1_length _ _ _ _ E). apply F. cbn in *. intuition.
Qed.

(** ** inversions *)
Definition count {A} (f : A -> bool) (l : list A) : nat := length (filter f l).
Lemma fold_count (f : nat -> bool) l : forall k, fold_left (fun k j => if f j then S k else k) l k = k + count f l.
Proof. unfold count. induction l as [|j l IH]; intros k; cbn; [lia|]. rewrite IH. destruct (f j); cbn; lia. Qed.
Lemma count_map {A B} (g : A -> B) f l : count f (map g l) = count (fun x => f (g x)) l.
Proof. unfold count. induction l as [|x l IH]; cbn; [reflexivity|]. destruct (f (g x)); cbn; rewrite IH; reflexivity. Qed.
Lemma count_ext {A} (f g : A -> bool) l : (forall x, In x l -> f x = g x) -> count f l = count g l.
Proof. unfold count. induction l as [|x l IH]; intros H; cbn; [reflexivity|]. rewrite (H x) by (left; reflexivity). destruct (g x); cbn; rewrite IH; auto; intros; apply H; right; assumption. Qed.
Lemma map_nth_seq' {B} (l : list B) d : map (fun i => nth i l d) (seq 0 (length l)) = l.
Proof. induction l as [|x l IH]; [reflexivity|]. cbn [length seq map nth]. f_equal. rewrite <- seq_shift, map_map. exact IH. Qed.
Lemma inversions_snoc l x : inversions (l ++ [x]) = inversions l + count (fun y => x <? y) l.
Proof.
  unfold inversions. rewrite app_length. cbn [length]. rewrite Nat.add_1_r, seq_S, fold_left_app. cbn [fold_left Nat.add].
  rewrite fold_count. f_equal.
  - assert (Gen : forall (ks : list nat) k, (forall i, In i ks -> i < length l) -> fold_left (fun k i => fold_left (fun k j => if nth i (l ++ [x]) 0 <? nth j (l ++ [x]) 0 then S k else k) (seq 0 i) k) ks k = fold_left (fun k i => fold_left (fun k j => if nth i l 0 <? nth j l 0 then S k else k) (seq 0 i) k) ks k).
    { induction ks as [|i ks IH]; intros k H; [reflexivity|]. cbn [fold_left]. rewrite IH by (intros j Hj; apply H; right; exact Hj). f_equal.
      assert (Hi := H i (or_introl eq_refl)). rewrite (fold_count (fun j => nth i (l ++ [x]) 0 <? nth j (l ++ [x]) 0)), (fold_count (fun j => nth i l 0 <? nth j l 0)). f_equal. apply count_ext. intros j Hj. apply in_seq in Hj.
      rewrite !app_nth1 by lia. reflexivity. }
    apply Gen. intros i Hi. apply in_seq in Hi. lia.
  - rewrite app_nth2, Nat.sub_diag by lia. cbn [nth]. transitivity (count (fun y => x <? y) (map (fun i => nth i l 0) (seq 0 (length l)))); [|rewrite map_nth_seq'; reflexivity]. rewrite count_map. apply count_ext. intros j Hj. apply in_seq in Hj. rewrite app_nth1 by lia. reflexivity.
Qed.
Lemma count_app {A} (f : A -> bool) l l' : count f (l ++ l') = count f l + count f l'.
Proof. unfold count. rewrite filter_app, app_length. reflexivity. Qed.
Lemma count_all {A} (f : A -> bool) l : (forall x, In x l -> f x = true) -> count f l = length l.
Proof. unfold count. induction l as [|x l IH]; intros H; cbn; [reflexivity|]. rewrite (H x) by (left; reflexivity). cbn. rewrite IH; auto. intros; apply H; right; assumption. Qed.
Lemma inversions_insert A p B : (forall q, In q (A ++ B) -> p < q) -> inversions (A ++ p :: B) = inversions (A ++ B) + length A.
Proof.
  induction B as [|x B IH] using rev_ind; intros H.
  - rewrite app_nil_r in *. rewrite inversions_snoc, (count_all _ A); [reflexivity|]. intros q Hq. apply Nat.ltb_lt. apply H. exact Hq.
  - change (A ++ p :: B ++ [x]) with (A ++ (p :: B) ++ [x]). rewrite !app_assoc, !inversions_snoc, IH by (intros q Hq; apply H; rewrite in_app_iff in *; rewrite in_app_iff; tauto).
    assert (p < x) by (apply H; rewrite !in_app_iff; cbn; tauto).
    rewrite !count_app. assert (Ep : count (fun y => x <? y) (p :: B) = count (fun y => x <? y) B) by (unfold count; cbn [filter]; replace (x <? p) with false by (symmetry; apply Nat.ltb_ge; lia); reflexivity). rewrite Ep. lia.
Qed.

(** ** the stable sort *)
Definition g (t : fterm) (i : nat) : ladder := nth i t (0, false).
Lemma insert_pos_split t p l : exists A B, insert_pos t p l = A ++ p :: B /\ l = A ++ B /\ forall q, In q A -> fst (g t p) < fst (g t q).
Proof.
  induction l as [|q l (A & B & E1 & E2 & E3)]; cbn [insert_pos]; [exists [], []; repeat split; intros ? []|].
  destruct (Nat.ltb_spec (fst (nth p t (0, false))) (fst (nth q t (0, false)))).
  - exists (q :: A), B. rewrite E1, E2. repeat split. intros r [<-|Hr]; [exact H|apply E3; exact Hr].
  - exists [], (q :: l). repeat split. intros ? [].
Qed.
Definition sorted_from (t : fterm) (ps : list nat) : list nat := fold_right (fun p l => insert_pos t p l) [] ps.
Lemma sorted_perm t ps : Permutation (sorted_from t ps) ps.
Proof.
  induction ps as [|p ps IH]; [constructor|]. cbn. destruct (insert_pos_split t p (sorted_from t ps)) as (A & B & E1 & E2 & _). fold (sorted_from t ps). rewrite E1.
  transitivity (p :: A ++ B); [symmetry; apply Permutation_middle|]. rewrite <- E2. constructor. exact IH.
Qed.
Definition sgn (k : nat) r := if Nat.even k then r else neg r.
Lemma negn_sgn k r : negn k r = sgn k r.
Proof.
  induction k as [|k IH]; [reflexivity|]. cbn [negn]. rewrite IH. unfold sgn. rewrite Nat.even_succ, <- Nat.negb_even. destruct (Nat.even k); cbn [negb]; [reflexivity|apply neg_neg].
Qed.
Lemma sgn_add a b r : sgn (a + b) r = sgn b (sgn a r).
Proof. unfold sgn. rewrite Nat.even_add. destruct (Nat.even a), (Nat.even b); cbn; try reflexivity. rewrite neg_neg. reflexivity. Qed.
Lemma sgn_sgn a r : sgn a (sgn a r) = r.
Proof. unfold sgn. destruct (Nat.even a); [reflexivity|apply neg_neg]. Qed.
Lemma act_cons_sgn l t t' k s : (forall s', length s' = length s -> act t s' = sgn k (act t' s')) -> act (l :: t) s = sgn k (act (l :: t') s).
Proof.
  intros H. unfold sgn in *. destruct (Nat.even k); [|apply act_cons_neg; exact H]. cbn. destruct (act1 l s) as [[sg s']|] eqn:E; [|reflexivity]. rewrite H by exact (act1_length _ _ _ _ E). reflexivity.
Qed.
Lemma sorted_act t m : forall p, p + m = length t -> forall s, fits s t ->
  act (map (g t) (seq p m)) s = sgn (inversions (sorted_from t (seq p m))) (act (map (g t) (sorted_from t (seq p m))) s).
Proof.
  induction m as [|m IH]; intros p Hp s F; [reflexivity|]. cbn [seq map sorted_from fold_right]. fold (sorted_from t (seq (S p) m)).
  rewrite (act_cons_sgn _ _ (map (g t) (sorted_from t (seq (S p) m))) (inversions (sorted_from t (seq (S p) m)))).
  2: { intros s' Ls. apply IH; [lia|]. intros l Hl. rewrite Ls. apply F. exact Hl. }
  assert (PM := sorted_perm t (seq (S p) m)).
  destruct (insert_pos_split t p (sorted_from t (seq (S p) m))) as (A & B & E1 & E2 & E3). rewrite E1, E2 in *.
  assert (InAB : forall q, In q (A ++ B) -> p < q /\ q < length t).
  { intros q Hq. apply (Permutation_in _ PM) in Hq. apply in_seq in Hq. lia. }
  rewrite inversions_insert by (intros q Hq; apply InAB in Hq; lia). rewrite Nat.add_comm, sgn_add. f_equal. rewrite !map_app. cbn [map].
  rewrite act_pass.
  - rewrite map_length, negn_sgn. reflexivity.
  - intros a Ha. apply in_map_iff in Ha. destruct Ha as (q & <- & Hq). specialize (E3 q Hq). lia.
  - intros l [<-|Hl]; [apply F, nth_In; lia|]. apply in_map_iff in Hl. destruct Hl as (q & <- & Hq). apply F, nth_In. apply InAB. apply in_app_iff. auto.
Qed.

Lemma act_double A x B s : fits s (A ++ x :: x :: B) -> act (A ++ x :: x :: B) s = None.
Proof.
  intros F. rewrite act_app. destruct (act A s) as [[sg s']|] eqn:E; [|reflexivity]. assert (L := act_length _ _ _ _ E).
  assert (Hx : fst x < length s'). { rewrite L. apply F. apply in_app_iff. cbn. auto. }
  destruct x as [i c]. cbn [act act1 fst] in *. destruct (eqb (occ s' i) c); [reflexivity|]. rewrite occ_set_same by exact Hx. rewrite eqb_reflx. reflexivity.
Qed.
Lemma split2 {A} (l : list A) d i : S i < length l -> l = firstn i l ++ nth i l d :: nth (S i) l d :: skipn (S (S i)) l.
Proof.
  revert i. induction l as [|x l IH]; intros i H; [cbn in H; lia|]. destruct i as [|i].
  - destruct l as [|y l]; [cbn in H; lia|]. reflexivity.
  - cbn [firstn nth skipn app]. f_equal. apply IH. cbn in H. lia.
Qed.
Lemma count_nth (l : fterm) idx i j k : i < j -> j < k -> k < length l -> fst (g l i) = idx -> fst (g l j) = idx -> fst (g l k) = idx ->
  3 <= length (filter (fun x => fst x =? idx) l).
Proof.
  unfold g. revert i j k. induction l as [|x l IH]; intros i j k Hij Hjk Hk E1 E2 E3; [cbn in Hk; lia|].
  destruct i as [|i]; [|destruct j as [|j], k as [|k]; try lia; cbn in *; specialize (IH i j k ltac:(lia) ltac:(lia) ltac:(lia) E1 E2 E3); destruct (fst x =? idx); cbn; lia].
  cbn in E1. cbn [filter]. rewrite E1, Nat.eqb_refl. cbn [length]. destruct j as [|j], k as [|k]; try lia. cbn [nth length] in *.
  assert (Two : forall (l : list ladder) j k, j < k -> k < length l -> fst (nth j l (0, false)) = idx -> fst (nth k l (0, false)) = idx -> 2 <= length (filter (fun x : ladder => fst x =? idx) l)).
  { clear. induction l as [|x l IH]; intros j k Hjk Hk E2 E3; [cbn in Hk; lia|]. destruct j as [|j].
    - cbn in E2. cbn [filter]. rewrite E2, Nat.eqb_refl. destruct k as [|k]; [lia|]. cbn [nth length] in *.
      assert (One : forall (l : list ladder) k, k < length l -> fst (nth k l (0, false)) = idx -> 1 <= length (filter (fun x : ladder => fst x =? idx) l)).
      { clear. induction l as [|x l IH]; intros k Hk E; [cbn in Hk; lia|]. destruct k as [|k]; cbn in *; [rewrite E, Nat.eqb_refl; cbn; lia|]. specialize (IH k ltac:(lia) E). destruct (fst x =? idx); cbn; lia. }
      specialize (One l k ltac:(lia) E3). lia.
    - destruct k as [|k]; [lia|]. cbn in *. specialize (IH j k ltac:(lia) ltac:(lia) E2 E3). destruct (fst x =? idx); cbn; lia. }
  specialize (Two l j k ltac:(lia) ltac:(lia) E2 E3). apply le_n_S. exact Two.
Qed.
Lemma filter_perm {A} (f : A -> bool) l l' : Permutation l l' -> Permutation (filter f l) (filter f l').
Proof.
  induction 1; cbn; try constructor.
  - destruct (f x); [constructor|]; assumption.
  - destruct (f x), (f y); try reflexivity. constructor.
  - etransitivity; eassumption.
Qed.

Lemma fsort_ok t s : fits s t -> at_most_twice t -> scaled (snd (fsort t)) (act (fst (fsort t)) s) = act t s.
Proof.
  intros F Tw. unfold fsort. cbn [fst snd]. set (l := map (fun i => nth i t (0, false)) (argsort t)).
  assert (El : l = map (g t) (sorted_from t (seq 0 (length t)))) by reflexivity.
  assert (Et : t = map (g t) (seq 0 (length t))) by (symmetry; apply map_nth_seq').
  assert (P : Permutation l t). { rewrite El. transitivity (map (g t) (seq 0 (length t))); [apply Permutation_map, sorted_perm|rewrite <- Et; reflexivity]. }
  assert (S : act t s = sgn (inversions (argsort t)) (act l s)). { transitivity (act (map (g t) (seq 0 (length t))) s); [rewrite <- Et; reflexivity|]. rewrite El. apply sorted_act; [lia|exact F]. }
  assert (Fl : fits s l) by (intros x Hx; apply F; apply (Permutation_in _ P); exact Hx).
  destruct (existsb (vanishes_at l) (seq 0 (length l - 1))) eqn:E.
  - cbn. apply existsb_exists in E. destruct E as (i & Hi & V). apply in_seq in Hi. unfold vanishes_at in V. cbv zeta in V. apply andb_true_iff in V. destruct V as [V1 V2]. apply Nat.eqb_eq in V1.
    rewrite Nat.add_1_r in *. apply orb_true_iff in V2. destruct V2 as [V2|V2].
    + apply eqb_prop in V2. assert (Eq : nth i l (0, false) = nth (Datatypes.S i) l (0, false)) by (destruct (nth i l (0, false)), (nth (Datatypes.S i) l (0, false)); cbn in *; congruence).
      assert (Sp := split2 l (0, false) i ltac:(lia)). rewrite <- Eq in Sp. rewrite S, Sp. rewrite Sp in Fl. rewrite act_double by exact Fl. unfold sgn. destruct (Nat.even _); reflexivity.
    + exfalso. apply andb_true_iff in V2. destruct V2 as [V2 V3]. apply Nat.ltb_lt in V2. apply Nat.eqb_eq in V3.
      assert (C := count_nth l (fst (g l i)) (i - 1) i (Datatypes.S i) ltac:(lia) ltac:(lia) ltac:(lia) ltac:(unfold g; congruence) eq_refl ltac:(unfold g; congruence)).
      specialize (Tw (fst (g l i))). rewrite (Permutation_length (filter_perm _ _ _ P)) in C. exact (Nat.lt_irrefl 2 (Nat.le_trans _ _ _ C Tw)).
  - rewrite S. unfold permutation_signature, scaled, sgn. destruct (Nat.even (inversions (argsort t))); reflexivity.
Qed.

(** ** linear combinations *)
Lemma fteqb_eq a : forall b, fteqb a b = true -> a = b.
Proof.
  induction a as [|[i c] a IH]; intros [|[j e] b] H; cbn in H; try discriminate; [reflexivity|]. apply andb_true_iff in H. destruct H as [H1 H2]. unfold leqb in H1. apply andb_true_iff in H1. cbn in H1.
  destruct H1 as [H1 H3]. apply Nat.eqb_eq in H1. apply eqb_prop in H3. f_equal; [congruence|apply IH; exact H2].
Qed.
Lemma opamp_cons t v d s s' : opamp ((t, v) :: d) s s' = (v * amp t s s' + opamp d s s')%Z.
Proof. reflexivity. Qed.
Lemma opamp_add d t v s s' : opamp (fdict_add d t v) s s' = (opamp d s s' + v * amp t s s')%Z.
Proof.
  induction d as [|[t' v'] d IH]; cbn [fdict_add]; [cbn; lia|]. destruct (fteqb t' t) eqn:E.
  - apply fteqb_eq in E. subst. cbn. lia.
  - rewrite !opamp_cons, IH. lia.
Qed.
Lemma amp_sort t s s' : fits s t -> at_most_twice t -> (snd (fsort t) * amp (fst (fsort t)) s s' = amp t s s')%Z.
Proof.
  intros F Tw. assert (H := fsort_ok t s F Tw). unfold amp. rewrite <- H. unfold scaled.
  destruct (Z.eqb_spec (snd (fsort t)) 0) as [->|N0]; [reflexivity|].
  assert (V : snd (fsort t) = 1%Z \/ snd (fsort t) = (-1)%Z).
  { unfold fsort in *. cbn [snd] in *. destruct (existsb _ _); [congruence|]. unfold permutation_signature. destruct (Nat.even _); auto. }
  destruct V as [-> | ->]; cbn [Z.eqb Pos.eqb].
  - lia.
  - destruct (act (fst (fsort t)) s) as [[[] s1]|]; cbn [option_map fst snd negb]; try reflexivity; destruct (seqb s1 s'); reflexivity.
Qed.
Lemma freduce_ok o s s' : (forall tc, In tc o -> fits s (fst tc) /\ at_most_twice (fst tc)) -> opamp (freduce o) s s' = opamp o s s'.
Proof.
  intros H. unfold freduce.
  assert (Fl : forall d, opamp (filter (fun tc => negb (snd tc =? 0)%Z) d) s s' = opamp d s s').
  { induction d as [|[t v] d IH]; [reflexivity|]. cbn [filter snd]. destruct (Z.eqb_spec v 0); cbn [negb]; rewrite ?opamp_cons, IH; [subst|]; lia. }
  rewrite Fl. assert (Gen : forall l d, (forall tc, In tc l -> fits s (fst tc) /\ at_most_twice (fst tc)) ->
    opamp (fold_left (fun d tc => let '(s, f) := fsort (fst tc) in fdict_add d s (f * snd tc)%Z) l d) s s' = (opamp d s s' + opamp l s s')%Z).
  { induction l as [|[t v] l IH]; intros d Hl; cbn [fold_left fst snd]; [cbn; lia|]. assert (A := amp_sort t s s').
    destruct (fsort t) as [st f]. cbn [fst snd] in A. rewrite IH by (intros tc Htc; apply Hl; right; exact Htc). rewrite opamp_add, opamp_cons.
    destruct (Hl (t, v) (or_introl eq_refl)) as [F Tw]. cbn in F, Tw. rewrite <- (A F Tw). ring. }
  rewrite Gen by exact H. cbn. lia.
Qed.

(** ** dagger *)
Lemma act1_dagger i c s sg s' : i < length s -> act1 (i, c) s = Some (sg, s') <-> (length s' = length s /\ act1 (i, negb c) s' = Some (sg, s)).
Proof.
  assert (Idem : forall s v, set_occ (set_occ s i v) i (occ s i) = s).
  { intros s0. revert i. induction s0 as [|h s0 IH]; intros [|i0] v; cbn; try reflexivity. f_equal. apply IH. }
  assert (Fw : forall c s sg s', i < length s -> act1 (i, c) s = Some (sg, s') -> act1 (i, negb c) s' = Some (sg, s)).
  { clear c s sg s'. intros c s sg s' Hi. cbn. destruct (eqb (occ s i) c) eqn:E; [discriminate|]. intros [= <- <-]. rewrite occ_set_same by exact Hi.
    assert (Ec : occ s i = negb c) by (destruct (occ s i), c; try discriminate; reflexivity). replace (eqb c (negb c)) with false by (destruct c; reflexivity).
    do 2 f_equal; [rewrite parity_set, Nat.ltb_irrefl, xorb_false_r by exact Hi; reflexivity|]. rewrite <- Ec. apply Idem. }
  intros Hi. split.
  - intros H. split; [exact (act1_length _ _ _ _ H)|]. apply Fw; assumption.
  - intros [L H]. rewrite <- (negb_involutive c). apply (Fw (negb c) s'); [lia|exact H].
Qed.
Lemma dagger_ok t : forall s sg s', fits s t -> length s' = length s -> act t s = Some (sg, s') <-> act (dagger t) s' = Some (sg, s).
Proof.
  induction t as [|[i c] t IH]; intros s sg s' F L.
  - cbn. split; intros [= -> ->]; reflexivity.
  - assert (Hi : i < length s) by (apply (F (i, c)); left; reflexivity).
    match goal with |- context [dagger ?x] => replace (dagger x) with (dagger t ++ [(i, negb c)]) by (unfold dagger; cbn [rev]; rewrite map_app; reflexivity) end.
    rewrite act_app. cbn [act].
    assert (Ft : forall s1, length s1 = length s -> fits s1 t) by (intros s1 L1 l Hl; rewrite L1; apply F; right; exact Hl).
    split.
    + destruct (act1 (i, c) s) as [[sg1 s1]|] eqn:E1; [|discriminate]. destruct (act t s1) as [[sg2 s2]|] eqn:E2; [|discriminate]. intros [= <- <-].
      assert (L1 := act1_length _ _ _ _ E1). apply IH in E2; [|apply Ft; exact L1|congruence]. rewrite E2.
      apply act1_dagger in E1; [|exact Hi]. destruct E1 as [_ E1]. rewrite E1. rewrite xorb_false_r, xorb_comm. reflexivity.
    + destruct (act (dagger t) s') as [[sg2 s1]|] eqn:E2; [|discriminate]. assert (L2 := act_length _ _ _ _ E2).
      destruct (act1 (i, negb c) s1) as [[sg1 s2]|] eqn:E1; [|discriminate]. intros [= <- <-]. assert (L1 := act1_length _ _ _ _ E1).
      apply act1_dagger in E1; [|lia]. rewrite negb_involutive in E1. destruct E1 as [_ E1]. rewrite E1.
      apply IH in E2; [|apply Ft; congruence|congruence]. rewrite E2. rewrite xorb_false_r, xorb_comm. reflexivity.
Qed.

(** ** Jordan-Wigner: signed partial permutation matrices *)
Definition rep (n : nat) (M : list bool -> list bool -> G) (f : state -> option (bool * state)) : Prop :=
  forall r c, length r = n -> length c = n ->
  M r c = match f c with Some (sg, s') => if seqb s' r then (if sg then gneg g1 else g1) else g0 | None => g0 end.
Definition lenpres (f : state -> option (bool * state)) : Prop := forall s sg s', f s = Some (sg, s') -> length s' = length s.
Definition comp (f h : state -> option (bool * state)) (s : state) : option (bool * state) :=
  match h s with None => None | Some (sg, s') => match f s' with None => None | Some (sg', s'') => Some (xorb sg sg', s'') end end.
Lemma seqb_eq a : forall b, seqb a b = true <-> a = b.
Proof. induction a as [|x a IH]; intros [|y b]; cbn; try (split; congruence). rewrite andb_true_iff, IH, eqb_true_iff. split; [intros [-> ->]; reflexivity|intros [= -> ->]; auto]. Qed.
Lemma bitstrings_In n x : In x (bitstrings n) <-> length x = n.
Proof.
  revert x. induction n as [|n IH]; intros x; cbn; [split; [intros [<-|[]]; reflexivity|destruct x; [auto|discriminate]]|].
  rewrite in_app_iff, !in_map_iff. split.
  - intros [(y & <- & Hy)|(y & <- & Hy)]; apply IH in Hy; cbn; congruence.
  - destruct x as [|[] x]; [discriminate| |]; intros [= Hx]; apply IH in Hx; [right|left]; exists x; auto.
Qed.
Lemma bitstrings_NoDup n : NoDup (bitstrings n).
Proof.
  induction n as [|n IH]; cbn; [repeat constructor; intros []|]. 
  assert (ND : forall b, NoDup (map (cons b) (bitstrings n))) by (intros b; apply FinFun.Injective_map_NoDup; [intros x y; congruence|exact IH]).
  assert (Disj : forall x, In x (map (cons false) (bitstrings n)) -> ~ In x (map (cons true) (bitstrings n))) by (intros x H H'; apply in_map_iff in H, H'; destruct H as (? & <- & _), H' as (? & [=] & _)).
  revert Disj. generalize (ND false). generalize (map (cons false) (bitstrings n)). intros l Hl. induction l as [|x l IHl]; intros Disj; [apply ND|]. inversion Hl; subst. cbn. constructor.
  - rewrite in_app_iff. intros [H|H]; [contradiction|]. apply (Disj x); [left; reflexivity|exact H].
  - apply IHl; [assumption|]. intros y Hy. apply Disj. right. exact Hy.
Qed.
Lemma gsum_indicator (l : list state) x (f : state -> G) : NoDup l -> In x l -> gsum l (fun m => if seqb x m then f m else g0) = f x.
Proof.
  induction l as [|y l IH]; intros ND H; [contradiction|]. inversion ND; subst. cbn [gsum]. destruct (seqb x y) eqn:E.
  - apply seqb_eq in E. subst. rewrite (gsum_ext _ _ (fun _ => g0)), gsum_0; [ring|]. intros z Hz. destruct (seqb y z) eqn:E; [apply seqb_eq in E; subst; contradiction|reflexivity].
  - rewrite IH; [ring|assumption|]. destruct H as [<-|H]; [|exact H]. assert (seqb y y = true) by (apply seqb_eq; reflexivity). congruence.
Qed.
Lemma rep_mprod n A B f h : rep n A f -> rep n B h -> lenpres h -> rep n (mprod n A B) (comp f h).
Proof.
  intros RA RB L r c Lr Lc. unfold mprod, comp. destruct (h c) as [[sg s']|] eqn:E.
  - assert (Ls := L _ _ _ E).
    transitivity (gsum (bitstrings n) (fun m => if seqb s' m then gmul (A r m) (if sg then gneg g1 else g1) else g0)).
    { apply gsum_ext. intros m Hm. apply bitstrings_In in Hm. rewrite (RB m c Hm Lc), E. destruct (seqb s' m), sg; ring. }
    rewrite (gsum_indicator _ s' (fun m => gmul (A r m) (if sg then gneg g1 else g1))) by (try apply bitstrings_NoDup; apply bitstrings_In; congruence).
    rewrite (RA r s' Lr ltac:(congruence)). destruct (f s') as [[sg' s'']|]; [|ring]. destruct (seqb s'' r), sg, sg'; cbn [xorb]; ring.
  - rewrite (gsum_ext _ _ (fun _ => g0)), gsum_0; [reflexivity|]. intros m Hm. apply bitstrings_In in Hm. rewrite (RB m c Hm Lc), E. ring.
Qed.
Lemma rep_ext n A f h : rep n A f -> (forall s, length s = n -> f s = h s) -> rep n A h.
Proof. intros R E r c Lr Lc. rewrite <- E by exact Lc. apply R; assumption. Qed.
Lemma lenpres_comp f h : lenpres f -> lenpres h -> lenpres (comp f h).
Proof.
  intros Lf Lh s sg s'. unfold comp. destruct (h s) as [[sg1 s1]|] eqn:E1; [|discriminate]. destruct (f s1) as [[sg2 s2]|] eqn:E2; [|discriminate]. intros [= <- <-]. rewrite (Lf _ _ _ E2). exact (Lh _ _ _ E1).
Qed.

(** a single-qubit factor at position j, identity elsewhere *)
Lemma tensor_id m : forall r c, length r = m -> length c = m -> tensor (repeat FI m) r c = if seqb c r then g1 else g0.
Proof. induction m as [|m IH]; intros [|x r] [|y c] Lr Lc; try discriminate; [reflexivity|]. cbn. rewrite IH by (cbn in *; lia). destruct x, y, (seqb c r); reflexivity. Qed.
Lemma factors_nil n : factors n [] = repeat FI n.
Proof. unfold factors. generalize 0. induction n as [|n IH]; intros k; cbn; [reflexivity|]. rewrite IH. reflexivity. Qed.
Lemma rep_one n : rep n (omat n (oscalar g1)) (fun s => Some (false, s)).
Proof.
  intros r c Lr Lc. unfold omat, oscalar. cbn [gsum fst snd]. unfold tmat. rewrite factors_nil, tensor_id by assumption. destruct (seqb c r); ring.
Qed.
Definition fact (f : factor) (b : bool) : option (bool * bool) :=
  match f, b with FZ, b => Some (b, b) | FA, true => Some (false, false) | FC, false => Some (false, true) | FI, b => Some (false, b) | _, _ => None end.
Definition at_pos (j : nat) (f : factor) (s : state) : option (bool * state) :=
  match fact f (occ s j) with Some (sg, b) => Some (sg, set_occ s j b) | None => None end.
Lemma tensor_single f (Hf : f = FZ \/ f = FA \/ f = FC) m : forall j k r c, j < m -> length r = m -> length c = m ->
  tensor (map (get [(k + j, f)]) (seq k m)) r c = match at_pos j f c with Some (sg, s') => if seqb s' r then (if sg then gneg g1 else g1) else g0 | None => g0 end.
Proof.
  induction m as [|m IH]; intros j k [|x r] [|y c] Hj Lr Lc; try discriminate; try lia. cbn [seq map tensor]. cbn [length] in *.
  destruct j as [|j].
  - rewrite Nat.add_0_r. replace (get [(k, f)] k) with f by (cbn; rewrite Nat.eqb_refl; reflexivity). rewrite (map_ext_in _ (fun _ => FI)).
    2: { intros i Hi. apply in_seq in Hi. cbn. destruct (Nat.eqb_spec k i); [lia|reflexivity]. }
    assert (R : map (fun _ : nat => FI) (seq (S k) m) = repeat FI m) by (generalize (S k) as k'; clear; induction m as [|m IH]; intros k'; cbn; [reflexivity|rewrite IH; reflexivity]).
    rewrite R, tensor_id by lia. unfold at_pos, occ. cbn [nth set_occ]. destruct Hf as [-> | [-> | ->]], x, y; cbn; destruct (seqb c r); reflexivity.
  - replace (get [(k + S j, f)] k) with FI by (cbn; destruct (Nat.eqb_spec (k + S j) k); [lia|reflexivity]). replace (k + S j) with (S k + j) by lia. rewrite IH by lia. unfold at_pos, occ. cbn [nth set_occ mat1].
    destruct (fact f (nth j c false)) as [[sg b]|]; [|destruct (eqb x y); ring]. cbn [seqb]. destruct x, y; cbn [eqb andb]; destruct (seqb (set_occ c j b) r); try ring; destruct sg; ring.
Qed.
Lemma rep_single n j f : (f = FZ \/ f = FA \/ f = FC) -> j < n -> rep n (omat n (single j f)) (at_pos j f).
Proof.
  intros Hf Hj r c Lr Lc. unfold omat, single. cbn [gsum fst snd]. unfold tmat, factors. change [(j, f)] with [(0 + j, f)]. rewrite (tensor_single f Hf n j 0 r c Hj Lr Lc).
  match goal with |- gadd (gmul g1 ?x) g0 = _ => generalize x end. intros x. ring.
Qed.
Lemma rep_eq n A B f : rep n A f -> same_on n A B -> rep n B f.
Proof. intros R E r c Lr Lc. rewrite <- (E r c Lr Lc). apply R; assumption. Qed.

(** operators stay within n qubits *)
Lemma owithin_dict_add n d t v : owithin n d -> within n t -> owithin n (dict_add d t v).
Proof.
  intros Wd Wt. induction d as [|[t' v'] d IH]; cbn [dict_add]; [intros tc [<-|[]]; exact Wt|]. destruct (teqb t' t).
  - intros tc [<-|H]; [apply (Wd (t', v')); left; reflexivity|apply Wd; right; exact H].
  - intros tc [<-|H]; [apply (Wd (t', v')); left; reflexivity|apply IH; [intros x Hx; apply Wd; right; exact Hx|exact H]].
Qed.
Lemma owithin_omul n ord a b : enumerates ord -> owithin n a -> owithin n b -> owithin n (omul ord a b).
Proof.
  intros En Wa Wb. unfold omul. intros tc Htc. apply filter_In in Htc. destruct Htc as [Htc _]. revert tc Htc.
  change (owithin n (fold_left (fun d tc1 => fold_left (fun d tc2 => let '(t, c) := tmul (ord (fst tc1) (fst tc2)) (fst tc1) (fst tc2) in dict_add d t (gmul (gmul c (snd tc1)) (snd tc2))) b d) a [])).
  assert (Inner : forall t1 v1, within n t1 -> forall l d, owithin n l -> owithin n d -> owithin n (fold_left (fun d tc2 => let '(t, c) := tmul (ord t1 (fst tc2)) t1 (fst tc2) in dict_add d t (gmul (gmul c v1) (snd tc2))) l d)).
  { intros t1 v1 W1. induction l as [|[t2 v2] l IH]; intros d Wl Wd; [exact Wd|]. cbn [fold_left fst snd]. assert (W2 : within n t2) by (apply (Wl (t2, v2)); left; reflexivity).
    assert (S := tmul_spec n _ t1 t2 (En t1 t2) W1 W2). destruct (tmul (ord t1 t2) t1 t2) as [t c]. destruct S as (_ & _ & W). apply IH; [intros x Hx; apply Wl; right; exact Hx|]. apply owithin_dict_add; assumption. }
  assert (Wn : owithin n []) by (intros x []). revert Wn. generalize (@nil (term * G)) as d. revert Wa. induction a as [|[t1 v1] a IH]; intros Wa d Wd; [exact Wd|]. cbn [fold_left fst snd].
  apply IH; [intros x Hx; apply Wa; right; exact Hx|]. apply Inner; [apply (Wa (t1, v1)); left; reflexivity|exact Wb|exact Wd].
Qed.
Lemma owithin_single n j f : j < n -> owithin n (single j f).
Proof. intros H tc [<-|[]] k [<-|[]]. exact H. Qed.
Lemma owithin_one n : owithin n (oscalar g1).
Proof. intros tc [<-|[]] k []. Qed.
Lemma rep_omul n ord a b f h : enumerates ord -> owithin n a -> owithin n b -> rep n (omat n a) f -> rep n (omat n b) h -> lenpres h -> rep n (omat n (omul ord a b)) (comp f h).
Proof.
  intros En Wa Wb Ra Rb L. apply (rep_eq n (mprod n (omat n a) (omat n b))); [apply rep_mprod; assumption|].
  intros r c Lr Lc. symmetry. apply omul_ok; assumption.
Qed.
Lemma lenpres_at j f : lenpres (at_pos j f).
Proof. intros s sg s'. unfold at_pos. destruct (fact f (occ s j)) as [[sg' b]|]; [|discriminate]. intros [= <- <-]. apply set_occ_length. Qed.
Lemma set_occ_id s j : set_occ s j (occ s j) = s.
Proof. revert j. induction s as [|h s IH]; intros [|j]; cbn; try reflexivity. f_equal. apply IH. Qed.
Lemma parity_S s j : j < length s -> parity_below s (S j) = xorb (parity_below s j) (occ s j).
Proof. revert j. induction s as [|h s IH]; intros j H; [cbn in H; lia|]. destruct j as [|j]; cbn [parity_below occ nth]; [destruct h, s; reflexivity|]. fold (occ s j). change (parity_below (h :: s) (S (S j))) with (xorb h (parity_below s (S j))). rewrite IH by (cbn in H; lia). rewrite xorb_assoc. reflexivity. Qed.

Lemma jw_string n ord k : enumerates ord -> k <= n ->
  let o := fold_left (fun temp j => omul ord (single j FZ) temp) (seq 0 k) (oscalar g1) in
  owithin n o /\ rep n (omat n o) (fun s => Some (parity_below s k, s)).
Proof.
  intros En Hk. induction k as [|k IH].
  - cbn. split; [apply owithin_one|]. apply (rep_ext n _ _ _ (rep_one n)). intros s _. destruct s; reflexivity.
  - rewrite seq_S, fold_left_app. cbn [fold_left Nat.add]. cbv zeta. destruct IH as [W R]; [lia|]. cbv zeta in W, R. split.
    + apply owithin_omul; [exact En|apply owithin_single; lia|exact W].
    + eapply rep_ext; [apply rep_omul; [exact En|apply owithin_single; lia|exact W|apply rep_single; [auto|lia]|exact R|intros s sg s' [= <- <-]; reflexivity]|].
      intros s Ls. unfold comp, at_pos. cbn [fact]. rewrite set_occ_id, parity_S by lia. reflexivity.
Qed.
Lemma jw_ladder_ok n ord l : enumerates ord -> fst l < n -> owithin n (jw_ladder ord l) /\ rep n (omat n (jw_ladder ord l)) (act1 l).
Proof.
  intros En H. destruct l as [i c]. cbn [fst] in H. destruct (jw_string n ord i En ltac:(lia)) as [W R]. cbv zeta in W, R. unfold jw_ladder. cbn [fst snd].
  split; [apply owithin_omul; [exact En|exact W|apply owithin_single; exact H]|].
  eapply rep_ext; [apply rep_omul; [exact En|exact W|apply owithin_single; exact H|exact R|apply rep_single; [destruct c; auto|exact H]|apply lenpres_at]|].
  intros s Ls. unfold comp, at_pos. cbn [act1]. destruct c, (occ s i) eqn:E; cbn [fact eqb]; try reflexivity; rewrite parity_set, Nat.ltb_irrefl, xorb_false_r by lia; rewrite xorb_false_l; reflexivity.
Qed.
Lemma to_qubit_term_ok n ord t : enumerates ord -> (forall l, In l t -> fst l < n) -> owithin n (to_qubit_term ord t) /\ rep n (omat n (to_qubit_term ord t)) (act t).
Proof.
  intros En. induction t as [|l t IH] using rev_ind; intros H.
  - split; [apply owithin_one|]. exact (rep_one n).
  - unfold to_qubit_term. rewrite fold_left_app. cbn [fold_left]. fold (to_qubit_term ord t).
    destruct IH as [W R]; [intros x Hx; apply H; apply in_app_iff; auto|]. destruct (jw_ladder_ok n ord l En ltac:(apply H; apply in_app_iff; cbn; auto)) as [Wl Rl].
    split; [apply owithin_omul; assumption|]. eapply rep_ext; [apply rep_omul; [exact En|exact Wl|exact W|exact Rl|exact R|intros s sg s'; apply act_length]|].
    intros s Ls. unfold comp. rewrite act_app. destruct (act t s) as [[sg s']|]; [|reflexivity]. cbn [act]. destruct (act1 l s') as [[sg' s'']|]; [rewrite xorb_false_r|]; reflexivity.
Qed.

Lemma jw_car n ord (l1 l2 : ladder) : enumerates ord -> fst l1 < n -> fst l2 < n -> forall r c, length r = n -> length c = n ->
  gadd (mprod n (omat n (jw_ladder ord l1)) (omat n (jw_ladder ord l2)) r c) (mprod n (omat n (jw_ladder ord l2)) (omat n (jw_ladder ord l1)) r c) =
  if (fst l1 =? fst l2) && negb (eqb (snd l1) (snd l2)) then (if seqb c r then g1 else g0) else g0.
Proof.
  intros En H1 H2 r c Lr Lc. destruct (jw_ladder_ok n ord l1 En H1) as [_ R1], (jw_ladder_ok n ord l2 En H2) as [_ R2].
  assert (L1 : forall l, lenpres (act1 l)) by (intros l s sg s'; apply act1_length).
  rewrite (rep_mprod n _ _ _ _ R1 R2 (L1 l2) r c Lr Lc), (rep_mprod n _ _ _ _ R2 R1 (L1 l1) r c Lr Lc).
  assert (C : forall a b : ladder, comp (act1 a) (act1 b) c = act [b; a] c).
  { intros a b. unfold comp. cbn [act]. destruct (act1 b c) as [[sg s']|]; [|reflexivity]. destruct (act1 a s') as [[sg' s'']|]; [rewrite xorb_false_r|]; reflexivity. }
  rewrite !C. destruct (Nat.eqb_spec (fst l1) (fst l2)) as [E|E]; cbn [andb].
  - destruct l1 as [i c1], l2 as [j c2]. cbn [fst snd] in *. subst j. cbn [act act1].
    destruct c1, c2; cbn [eqb negb]; destruct (occ c i) eqn:Eo; cbn [eqb act1]; rewrite ?occ_set_same by lia; cbn [eqb]; try ring.
    all: rewrite parity_set, Nat.ltb_irrefl, xorb_false_r, xorb_false_r, xorb_nilpotent by lia.
    all: assert (Idem : forall v, set_occ (set_occ c i v) i (occ c i) = c) by (intros v; clear; revert i; induction c as [|h c IH]; intros [|i]; cbn; try reflexivity; f_equal; apply IH).
    all: rewrite <- Eo, Idem; destruct (seqb c r); ring.
  - rewrite (act_swap2 l2 l1 c) by lia. destruct (act [l1; l2] c) as [[sg s']|]; cbn [neg option_map fst snd]; [|ring]. destruct (seqb s' r), sg; cbn [negb]; ring.
Qed.
