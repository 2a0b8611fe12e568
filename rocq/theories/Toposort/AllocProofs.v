(** Proofs: delaying the allocations, and the packing of qubit sets into words. *)
From Verif.Toposort Require Import TopoModel TopoSpec TopoProofs AncProofs.
From Coq Require Import ZArith List Lia Bool Permutation.
Import ListNotations.
Local Open Scope nat_scope.

Section alloc.
Context {I : Type} (is_alloc : I -> bool) (qubits : I -> list nat) (order_qb : list nat -> list nat).
Hypothesis ORD : forall l, Permutation l (order_qb l).
Notation step := (alloc_step is_alloc qubits order_qb).
Definition on (q : nat) (i : I) : bool := mem q (qubits i).

Definition dict_ok (dic : list (nat * I)) : Prop :=
  NoDup (map fst dic) /\ forall k i, In (k, i) dic -> is_alloc i = true /\ qubits i = [k].

Lemma dict_set_fresh dic k (v : I) : ~ In k (map fst dic) -> dict_set dic k v = dic ++ [(k, v)].
Proof.
  induction dic as [|[k' v'] dic IH]; intros H; [reflexivity|]. cbn in *. destruct (Nat.eqb_spec k k'); [subst; tauto|]. now rewrite IH by tauto.
Qed.
Lemma on_single q k i : qubits i = [k] -> on q i = Nat.eqb q k.
Proof. intros E. unfold on. rewrite E. cbn. now rewrite orb_false_r. Qed.

Lemma filter_dict q dic : (forall k i, In (k, i) dic -> is_alloc i = true /\ qubits i = [k]) -> filter (on q) (map snd dic) = dict_get dic q.
Proof.
  unfold dict_get. induction dic as [|[k i] dic IH]; intros H; [reflexivity|]. cbn [map filter snd].
  destruct (H k i (or_introl eq_refl)) as [_ Q]. rewrite (on_single q k i Q). destruct (Nat.eqb q k); cbn [map snd]; rewrite IH; auto; intros; apply H; now right.
Qed.
Lemma filter_all {A} f (l : list A) : (forall x, In x l -> f x = true) -> filter f l = l.
Proof. induction l as [|x l IH]; intros H; [reflexivity|]. cbn. rewrite H by now left. now rewrite IH by (intros; apply H; now right). Qed.
Lemma filter_none {A} f (l : list A) : (forall x, In x l -> f x = false) -> filter f l = [].
Proof. induction l as [|x l IH]; intros H; [reflexivity|]. cbn. rewrite H by now left. now rewrite IH by (intros; apply H; now right). Qed.
Lemma dict_get_on dic k i : (forall k i, In (k, i) dic -> is_alloc i = true /\ qubits i = [k]) -> In i (dict_get dic k) -> qubits i = [k] /\ In (k, i) dic.
Proof.
  intros H K. unfold dict_get in K. apply in_map_iff in K. destruct K as ([k' i'] & E & K). cbn in E. subst i'. apply filter_In in K. destruct K as [K Q].
  apply Nat.eqb_eq in Q. subst k'. split; [now apply H|exact K].
Qed.
Lemma filter_flat q dic : (forall k i, In (k, i) dic -> is_alloc i = true /\ qubits i = [k]) -> forall qbs, NoDup qbs ->
  filter (on q) (flat_map (dict_get dic) qbs) = if mem q qbs then dict_get dic q else [].
Proof.
  intros H. induction qbs as [|k qbs IH]; intros N; [reflexivity|]. inversion N as [|? ? Nk N']; subst. cbn [flat_map]. rewrite filter_app, IH by exact N'.
  cbn [mem existsb]. fold (mem q qbs). destruct (Nat.eqb_spec q k) as [->|NE]; cbn [orb].
  - destruct (mem k qbs) eqn:M; [apply mem_In in M; contradiction|]. rewrite app_nil_r. apply filter_all. intros i Hi.
    apply (dict_get_on dic k i H) in Hi. rewrite (on_single k k i) by apply Hi. apply Nat.eqb_refl.
  - rewrite filter_none; [reflexivity|]. intros i Hi. apply (dict_get_on dic k i H) in Hi. rewrite (on_single q k i) by apply Hi. now apply Nat.eqb_neq.
Qed.
Lemma dict_get_filter (dic : list (nat * I)) qbs q : dict_get (filter (fun '(k, _) => negb (existsb (Nat.eqb k) qbs)) dic) q = if mem q qbs then [] else dict_get dic q.
Proof.
  unfold dict_get. induction dic as [|[k i] dic IH]; cbn [filter map]; [now destruct (mem q qbs)|]. fold (mem k qbs).
  destruct (mem k qbs) eqn:M; cbn [negb filter].
  - rewrite IH. destruct (Nat.eqb_spec q k) as [->|]; [now rewrite M|reflexivity].
  - destruct (Nat.eqb_spec q k) as [->|]; cbn [map snd]; rewrite IH; [now rewrite M|]. reflexivity.
Qed.
Lemma flat_map_perm {A B} (f : A -> list B) l m : Permutation l m -> Permutation (flat_map f l) (flat_map f m).
Proof.
  induction 1; cbn; [constructor| | |etransitivity; eassumption].
  - now apply Permutation_app_head.
  - rewrite !app_assoc. apply Permutation_app_tail, Permutation_app_comm.
Qed.
Lemma split_dict (dic : list (nat * I)) qbs : NoDup (map fst dic) -> Permutation qbs (filter (fun k => mem k qbs) (map fst dic)) ->
  Permutation (map snd dic) (flat_map (dict_get dic) qbs ++ map snd (filter (fun '(k, _) => negb (existsb (Nat.eqb k) qbs)) dic)).
Proof.
  intros N P. transitivity (flat_map (dict_get dic) (filter (fun k => mem k qbs) (map fst dic)) ++ map snd (filter (fun '(k, _) => negb (existsb (Nat.eqb k) qbs)) dic)).
  2: { apply Permutation_app_tail. apply flat_map_perm. now symmetry. }
  clear P. assert (K : forall pre, NoDup (map fst (pre ++ dic)) ->
     Permutation (map snd dic) (flat_map (dict_get (pre ++ dic)) (filter (fun k => mem k qbs) (map fst dic)) ++ map snd (filter (fun '(k, _) => negb (existsb (Nat.eqb k) qbs)) dic))).
  { clear N. induction dic as [|[k i] dic IH]; intros pre N; [constructor|].
    specialize (IH (pre ++ [(k, i)])). rewrite <- app_assoc in IH. cbn [app] in IH. specialize (IH N).
    cbn [map fst snd filter]. fold (mem k qbs). destruct (mem k qbs) eqn:M; cbn [negb flat_map map snd].
    - assert (E : dict_get (pre ++ (k, i) :: dic) k = [i]).
      { rewrite map_app in N. cbn [map fst] in N. apply NoDup_remove_2 in N. rewrite in_app_iff in N. unfold dict_get. rewrite filter_app, map_app. cbn [filter]. rewrite Nat.eqb_refl. cbn [map snd].
        rewrite (filter_none _ pre), (filter_none _ dic); [reflexivity| |]; intros [k' i'] Hk; apply Nat.eqb_neq; intros ->; apply N; [right|left]; now apply (in_map fst) in Hk. }
      rewrite E. cbn [app]. now constructor.
    - etransitivity; [constructor; exact IH|]. apply Permutation_middle. }
  exact (K [] N).
Qed.

Notation reuse_ok := (reuse_ok is_alloc qubits).

Definition al_inv (pre : list I) (st : list I * list (nat * I)) : Prop :=
  let '(out, dic) := st in dict_ok dic /\ Permutation pre (out ++ map snd dic) /\
  (forall q, filter (on q) pre = filter (on q) out ++ dict_get dic q) /\
  (forall k, In k (map fst dic) -> exists l1 i l2, pre = l1 ++ i :: l2 /\ is_alloc i = true /\ qubits i = [k] /\ forall x, In x l2 -> is_alloc x = false -> ~ In k (qubits x)).

Lemma al_step pre st x data : (exists post, data = pre ++ x :: post) -> reuse_ok data -> (is_alloc x = true -> exists q, qubits x = [q]) ->
  al_inv pre st -> al_inv (pre ++ [x]) (step st x).
Proof.
  intros (post & ED) RU AX. destruct st as [out dic]. intros ([N DK] & P & F & L). unfold alloc_step. destruct (is_alloc x) eqn:XA.
  - destruct (AX eq_refl) as [q Q]. rewrite Q. cbn [nth].
    assert (FR : ~ In q (map fst dic)).
    { intros K. destruct (L q K) as (l1 & i & l2 & E & Ai & Qi & NO). subst pre.
      destruct (RU l1 i l2 x post q) as (k & Hk & Ak & Qk); try assumption; [now rewrite <- app_assoc in ED|]. exact (NO k Hk Ak Qk). }
    rewrite (dict_set_fresh dic q x FR). split; [split|].
    + rewrite map_app. cbn [map fst]. apply NoDup_app; [exact N|constructor; [intros []|constructor]|]. intros y Hy [<-|[]]. contradiction.
    + intros k i Hk. apply in_app_iff in Hk. destruct Hk as [Hk|[Hk|[]]]; [now apply DK|]. injection Hk as <- <-. split; assumption.
    + split; [|split].
      * rewrite map_app, app_assoc. cbn [map snd]. now apply Permutation_app_tail.
      * intros r. rewrite filter_app, F. rewrite <- app_assoc. f_equal. unfold dict_get. rewrite filter_app, map_app. f_equal. cbn [filter].
        rewrite (on_single r q x Q). destruct (Nat.eqb r q); reflexivity.
      * intros k Hk. rewrite map_app, in_app_iff in Hk. destruct Hk as [Hk|[<-|[]]].
        -- destruct (L k Hk) as (l1 & i & l2 & -> & Ai & Qi & NO). exists l1, i, (l2 ++ [x]). rewrite <- app_assoc. cbn. do 3 (split; [assumption || reflexivity|]).
           intros y Hy. apply in_app_iff in Hy. destruct Hy as [Hy|[<-|[]]]; [now apply NO|congruence].
        -- exists pre, x, []. do 3 (split; [assumption || reflexivity|]). intros y [].
  - set (qbs := order_qb _).
    assert (PQ : Permutation (filter (fun k => mem k (qubits x)) (map fst dic)) qbs) by apply ORD.
    assert (NQ : NoDup qbs) by (apply (Permutation_NoDup PQ); now apply NoDup_filter).
    assert (MQ : forall q, mem q qbs = mem q (qubits x) && mem q (map fst dic)).
    { intros q. apply eq_true_iff_eq. rewrite andb_true_iff, !mem_In. split.
      - intros H. apply (Permutation_in _ (Permutation_sym PQ)) in H. apply filter_In in H. rewrite mem_In in H. tauto.
      - intros [H1 H2]. apply (Permutation_in _ PQ). apply filter_In. rewrite mem_In. tauto. }
    assert (NIL : forall q, mem q (map fst dic) = false -> dict_get dic q = []).
    { intros q M. unfold dict_get. rewrite filter_none; [reflexivity|]. intros [k i] Hk. apply Nat.eqb_neq. intros ->.
      apply (in_map fst) in Hk. apply mem_In in Hk. cbn in Hk. congruence. }
    split; [split|].
    + clear - N. clearbody qbs. induction dic as [|[k i] dic IH]; [constructor|]. cbn [map fst] in N. inversion N as [|? ? Nk N']; subst. cbn [filter].
      destruct (negb _); [|now apply IH]. cbn [map fst]. constructor; [|now apply IH]. intros K. apply Nk. apply in_map_iff in K. destruct K as (p & E & K).
      apply filter_In in K. apply in_map_iff. exists p. tauto.
    + intros k i Hk. apply filter_In in Hk. now apply DK.
    + split; [|split].
      * assert (PQ' : Permutation qbs (filter (fun k => mem k qbs) (map fst dic))).
        { symmetry. etransitivity; [|exact PQ]. erewrite filter_ext_in; [reflexivity|]. intros k Hk. cbv beta. rewrite MQ. apply mem_In in Hk. rewrite Hk. apply andb_true_r. }
        pose proof (split_dict dic qbs N PQ') as SD.
        transitivity ((out ++ map snd dic) ++ [x]); [now apply Permutation_app_tail|].
        rewrite <- !app_assoc. apply Permutation_app_head. rewrite SD, <- !app_assoc. apply Permutation_app_head. apply Permutation_app_comm.
      * intros q. rewrite !filter_app, F, dict_get_filter, (filter_flat q dic DK qbs NQ). rewrite <- !app_assoc. f_equal. cbn [filter].
        rewrite MQ. change (on q x) with (mem q (qubits x)). destruct (mem q (qubits x)) eqn:MX; cbn [andb].
        -- destruct (mem q (map fst dic)) eqn:MD; [now rewrite app_nil_r|]. now rewrite (NIL q MD).
        -- now rewrite app_nil_r.
      * intros k Hk. assert (Hk' : In k (map fst dic) /\ mem k qbs = false).
        { apply in_map_iff in Hk. destruct Hk as ([k' i] & E & Hk). cbn in E. subst k'. apply filter_In in Hk. destruct Hk as [Hk M]. fold (mem k qbs) in M.
          split; [now apply (in_map fst) in Hk|]. now destruct (mem k qbs). }
        destruct Hk' as [Hd M]. destruct (L k Hd) as (l1 & i & l2 & -> & Ai & Qi & NO). exists l1, i, (l2 ++ [x]). rewrite <- app_assoc. cbn.
        do 3 (split; [assumption || reflexivity|]). intros y Hy. apply in_app_iff in Hy. destruct Hy as [Hy|[<-|[]]]; [now apply NO|].
        intros _ K. rewrite MQ in M. apply mem_In in K, Hd. rewrite K, Hd in M. discriminate.
Qed.

Lemma delay_allocs_correct data : (forall x, In x data -> is_alloc x = true -> exists q, qubits x = [q]) -> reuse_ok data ->
  Permutation data (delay_allocs is_alloc qubits order_qb data) /\
  forall q, filter (on q) (delay_allocs is_alloc qubits order_qb data) = filter (on q) data.
Proof.
  intros AX RU.
  assert (K : forall post pre st, data = pre ++ post -> al_inv pre st -> al_inv data (fold_left step post st)).
  { induction post as [|x post IH]; intros pre st E HI; [rewrite app_nil_r in E; now subst|]. cbn [fold_left]. apply (IH (pre ++ [x])).
    - now rewrite <- app_assoc.
    - apply (al_step pre st x data); [exists post; exact E|exact RU| |exact HI]. apply AX. rewrite E. apply in_elt. }
  specialize (K data [] ([], []) eq_refl). unfold delay_allocs. destruct (fold_left step data ([], [])) as [out dic].
  destruct K as ([N DK] & P & F & _).
  - split; [split; [constructor|intros k i []]|]. split; [constructor|]. split; [reflexivity|intros k []].
  - split; [exact P|]. intros q. rewrite filter_app, filter_dict by exact DK. now rewrite F.
Qed.

(** instructions other than allocations keep their order *)
Definition na (i : I) : bool := negb (is_alloc i).
Lemma dict_set_in dic k (v : I) k' i : In (k', i) (dict_set dic k v) -> (k', i) = (k, v) \/ In (k', i) dic.
Proof.
  induction dic as [|[k0 v0] dic IH]; cbn; [intros [H|[]]; left; congruence|]. destruct (Nat.eqb k k0); cbn.
  - intros [H|H]; [left; congruence|right; now right].
  - intros [H|H]; [right; now left|]. destruct (IH H); [now left|right; now right].
Qed.
Lemma delay_allocs_others data : filter na (delay_allocs is_alloc qubits order_qb data) = filter na data.
Proof.
  assert (K : forall post pre st, (forall k i, In (k, i) (snd st) -> is_alloc i = true) -> filter na (fst st) = filter na pre ->
    let st' := fold_left step post st in (forall k i, In (k, i) (snd st') -> is_alloc i = true) /\ filter na (fst st') = filter na (pre ++ post)).
  { induction post as [|x post IH]; intros pre [out dic] D F; cbn [fst snd] in *.
    - cbn. rewrite app_nil_r. split; assumption.
    - cbn [fold_left]. replace (pre ++ x :: post) with ((pre ++ [x]) ++ post) by now rewrite <- app_assoc. apply IH; unfold alloc_step.
      + intros k i H. destruct (is_alloc x) eqn:XA; cbn [snd] in H.
        * apply dict_set_in in H. destruct H as [H|H]; [injection H as _ ->; exact XA|exact (D k i H)].
        * apply filter_In in H. exact (D k i (proj1 H)).
      + destruct (is_alloc x) eqn:XA; cbn [fst].
        * rewrite filter_app. cbn. unfold na at 3. rewrite XA. cbn. now rewrite app_nil_r.
        * rewrite app_assoc, !filter_app, F. f_equal. rewrite (filter_none na (flat_map _ _)); [now rewrite app_nil_r|].
          intros y Hy. apply in_flat_map in Hy. destruct Hy as (k & _ & Hy). unfold dict_get in Hy. apply in_map_iff in Hy. destruct Hy as ([k' i'] & E & Hy).
          cbn in E. subst i'. apply filter_In in Hy. unfold na. now rewrite (D k' y (proj1 Hy)). }
  specialize (K data [] ([], []) (fun _ _ H => match H with end) eq_refl). cbv zeta in K. unfold delay_allocs.
  destruct (fold_left step data ([], [])) as [out dic]. cbn [fst snd app] in K. destruct K as [D F]. rewrite filter_app, F, (filter_none na (map snd dic)); [apply app_nil_r|].
  intros y Hy. apply in_map_iff in Hy. destruct Hy as ([k' i'] & E & Hy). cbn in E. subst i'. unfold na. now rewrite (D k' y Hy).
Qed.
End alloc.

(** words *)
Lemma insert_perm x l : Permutation (x :: l) (insert_nat x l).
Proof. induction l as [|y l IH]; cbn; [reflexivity|]. destruct (Nat.leb x y); [reflexivity|]. etransitivity; [apply perm_swap|]. now constructor. Qed.
Lemma sort_perm l : Permutation l (sort_nat l).
Proof. induction l as [|x l IH]; cbn; [reflexivity|]. etransitivity; [constructor; exact IH|apply insert_perm]. Qed.
Inductive sorted : list nat -> Prop :=
| sorted_nil : sorted []
| sorted_cons x l : (forall y, In y l -> x <= y) -> sorted l -> sorted (x :: l).
Lemma insert_sorted x l : sorted l -> sorted (insert_nat x l).
Proof.
  induction 1 as [|y l H S IH]; cbn; [constructor; [intros y []|constructor]|]. destruct (Nat.leb_spec x y).
  - constructor; [|now constructor]. intros z [<-|Hz]; [assumption|]. specialize (H z Hz). lia.
  - constructor; [|exact IH]. intros z Hz. apply (Permutation_in _ (Permutation_sym (insert_perm x l))) in Hz. destruct Hz as [<-|Hz]; [lia|now apply H].
Qed.
Lemma sort_sorted l : sorted (sort_nat l).
Proof. induction l as [|x l IH]; cbn; [constructor|now apply insert_sorted]. Qed.

(** bit b of word w, as a qubit index *)
Definition wbit (ws : list Z) (d : nat) : bool := Z.testbit (nth (d / 64) ws 0%Z) (Z.of_nat (d mod 64)).
Lemma div64_lt d k : d < 64 * k <-> d / 64 < k.
Proof.
  split; intros H; [apply Nat.div_lt_upper_bound; lia|].
  pose proof (Nat.div_mod d 64 ltac:(lia)). pose proof (Nat.mod_upper_bound d 64 ltac:(lia)). nia.
Qed.
Lemma lor_bit (w : Z) x b : (0 <= w)%Z -> Z.testbit (Z.lor w (Z.shiftl 1 (Z.of_nat x))) (Z.of_nat b) = Z.testbit w (Z.of_nat b) || Nat.eqb b x.
Proof.
  intros H. rewrite Z.lor_spec. f_equal. rewrite Z.shiftl_spec by lia. destruct (Nat.eqb_spec b x) as [->|NE].
  - now rewrite Z.sub_diag.
  - destruct (Z.lt_ge_cases (Z.of_nat b - Z.of_nat x) 0); [now apply Z.testbit_neg_r|]. apply Z.bits_above_log2; cbn; lia.
Qed.
Lemma split_fold k : forall l ws i, sorted l -> (forall d, In d l -> i <= d / 64 /\ d < 64 * k) -> length ws = k -> (forall w, 0 <= nth w ws 0 < 2 ^ 64)%Z ->
  exists ws' i', fold_left (split_step k) l (Some (ws, i)) = Some (ws', i') /\ length ws' = k /\ (forall w, 0 <= nth w ws' 0 < 2 ^ 64)%Z /\
    forall d, d < 64 * k -> wbit ws' d = wbit ws d || mem d l.
Proof.
  induction l as [|x l IH]; intros ws i S B L R.
  - exists ws, i. split; [reflexivity|]. split; [exact L|]. split; [exact R|]. intros. cbn. now rewrite orb_false_r.
  - inversion S as [|? ? SX S']; subst x0 l0. destruct (B x (or_introl eq_refl)) as [Bi Bk]. cbn [fold_left split_step].
    assert (Dx : x / 64 < k) by now apply div64_lt. rewrite Nat.max_r by exact Bi. destruct (Nat.ltb_spec (x / 64) k); [|lia].
    set (ws1 := upd ws (x / 64) _).
    assert (R1 : (forall w, 0 <= nth w ws1 0 < 2 ^ 64)%Z).
    { intros w. unfold ws1. rewrite upd_nth. destruct (Nat.eqb_spec w (x / 64)); [|apply R]. destruct (Nat.ltb_spec (x / 64) (length ws)); [|split; [lia|reflexivity]].
      specialize (R (x / 64)). pose proof (Nat.mod_upper_bound x 64 ltac:(lia)) as M.
      assert (SH : (0 <= Z.shiftl 1 (Z.of_nat (x mod 64)) < 2 ^ 64)%Z).
      { rewrite Z.shiftl_1_l. split; [apply Z.pow_nonneg; lia|]. apply Z.pow_lt_mono_r; lia. }
      split; [apply Z.lor_nonneg; lia|]. destruct (Z.eq_dec (Z.lor (nth (x / 64) ws 0%Z) (Z.shiftl 1 (Z.of_nat (x mod 64)))) 0) as [->|NZ]; [reflexivity|].
      apply Z.log2_lt_pow2; [pose proof (proj2 (Z.lor_nonneg (nth (x / 64) ws 0%Z) (Z.shiftl 1 (Z.of_nat (x mod 64)))) ltac:(lia)); lia|].
      rewrite Z.log2_lor by lia. apply Z.max_lub_lt.
      - destruct (Z.eq_dec (nth (x / 64) ws 0%Z) 0) as [->|]; [reflexivity|apply Z.log2_lt_pow2; lia].
      - apply Z.log2_lt_pow2; [rewrite Z.shiftl_1_l; apply Z.pow_pos_nonneg; lia|lia]. }
    destruct (IH ws1 (x / 64) S') as (ws' & i' & E & L' & R' & HB); [| |exact R1|].
    + intros d Hd. split; [apply Nat.div_le_mono; [lia|now apply SX]|apply B; now right].
    + unfold ws1. now rewrite upd_length.
    + exists ws', i'. split; [exact E|]. split; [exact L'|]. split; [exact R'|]. intros d Hd. rewrite HB by exact Hd. cbn [mem existsb]. fold (mem d l).
      rewrite orb_assoc. f_equal. unfold wbit, ws1. rewrite upd_nth. destruct (Nat.eqb_spec (d / 64) (x / 64)) as [E1|NE].
      * destruct (Nat.ltb_spec (x / 64) (length ws)); [|lia]. rewrite lor_bit by apply R. rewrite E1. f_equal.
        apply eq_true_iff_eq. rewrite !Nat.eqb_eq. split; [|now intros ->]. intros M. rewrite (Nat.div_mod d 64), (Nat.div_mod x 64) by lia. now rewrite E1, M.
      * destruct (Nat.eqb_spec d x) as [->|]; [congruence|]. now rewrite orb_false_r.
Qed.
Lemma mem_perm d l m : Permutation l m -> mem d l = mem d m.
Proof. intros P. apply eq_true_iff_eq. rewrite !mem_In. split; apply Permutation_in; [exact P|now symmetry]. Qed.
Lemma split_integer_correct digits k : 0 < k -> (forall d, In d digits -> d < 64 * k) ->
  exists ws, split_integer digits k = Some ws /\ length ws = k /\ (forall w, 0 <= nth w ws 0 < 2 ^ 64)%Z /\
    forall d, d < 64 * k -> wbit ws d = mem d digits.
Proof.
  intros K B. unfold split_integer. destruct (Nat.eqb_spec k 0); [lia|].
  destruct (split_fold k (sort_nat digits) (repeat 0%Z k) 0 (sort_sorted digits)) as (ws & i & E & L & R & H).
  - intros d Hd. split; [lia|]. apply B. now apply (Permutation_in _ (Permutation_sym (sort_perm digits))).
  - apply repeat_length.
  - intros w. rewrite nth_repeat. split; [lia|reflexivity].
  - exists ws. rewrite E. split; [reflexivity|]. split; [exact L|]. split; [exact R|]. intros d Hd. rewrite H by exact Hd.
    unfold wbit. rewrite nth_repeat, Z.bits_0. cbn [orb]. symmetry. apply mem_perm, sort_perm.
Qed.

Lemma reverse_loop_correct ws : forall fuel i rest cur, (forall d, i <= d < i + fuel -> d / 64 < length ws) ->
  rest = skipn ((i + 63) / 64) ws -> (i mod 64 <> 0 -> cur = nth (i / 64) ws 0%Z) ->
  reverse_loop i fuel rest cur = Some (filter (wbit ws) (seq i fuel)).
Proof.
  induction fuel as [|fuel IH]; intros i rest cur B RE CE; [reflexivity|]. cbn [reverse_loop seq filter].
  assert (Bi : i / 64 < length ws) by (apply B; lia).
  assert (HD := Nat.div_mod i 64 ltac:(lia)). assert (HM := Nat.mod_upper_bound i 64 ltac:(lia)).
  assert (ST : exists rest', (if Nat.eqb (i mod 64) 0 then match rest with [] => None | w :: t => Some (w, t) end else Some (cur, rest)) = Some (nth (i / 64) ws 0%Z, rest') /\ rest' = skipn ((S i + 63) / 64) ws).
  { destruct (Nat.eqb_spec (i mod 64) 0) as [E|NE].
    - assert (E1 : (i + 63) / 64 = i / 64). { symmetry. apply (Nat.div_unique (i + 63) 64 (i / 64) 63); lia. }
      assert (E2 : (S i + 63) / 64 = S (i / 64)). { symmetry. apply (Nat.div_unique (S i + 63) 64 (S (i / 64)) 0); lia. }
      rewrite E1 in RE. rewrite E2, RE. clear -Bi. revert Bi. generalize (i / 64) as j. intros j. revert ws. induction j as [|j IHj]; intros [|w ws] H; cbn in H; try lia.
      + exists ws. split; reflexivity.
      + apply (IHj ws). lia.
    - exists rest. rewrite CE by exact NE. split; [reflexivity|]. rewrite RE. f_equal.
      assert (E1 : (i + 63) / 64 = S (i / 64)). { symmetry. apply (Nat.div_unique (i + 63) 64 (S (i / 64)) (i mod 64 - 1)); lia. }
      assert (E2 : (S i + 63) / 64 = S (i / 64)). { symmetry. apply (Nat.div_unique (S i + 63) 64 (S (i / 64)) (i mod 64)); lia. }
      now rewrite E1, E2. }
  destruct ST as (rest' & -> & RE'). rewrite (IH (S i) rest'); [|intros d Hd; apply B; lia|exact RE'|].
  - cbn [option_map]. fold (wbit ws i). now destruct (wbit ws i).
  - intros NE. f_equal. destruct (Nat.eq_dec (i mod 64) 63) as [E|NE63].
    + exfalso. apply NE. symmetry. apply (Nat.mod_unique (S i) 64 (S (i / 64)) 0); lia.
    + apply (Nat.div_unique (S i) 64 (i / 64) (S (i mod 64))); lia.
Qed.

Lemma split_none k l : fold_left (split_step k) l None = None.
Proof. induction l; [reflexivity|exact IHl]. Qed.
Lemma split_out k : forall l ws i d, In d l -> 64 * k <= d -> fold_left (split_step k) l (Some (ws, i)) = None.
Proof.
  induction l as [|x l IH]; intros ws i d Hd B; [destruct Hd|]. cbn [fold_left split_step]. destruct (Nat.ltb_spec (Nat.max i (x / 64)) k) as [C|C].
  - destruct Hd as [->|Hd]; [|now apply (IH _ _ d)]. exfalso. assert (d / 64 < k) by lia. apply div64_lt in H. lia.
  - apply split_none.
Qed.

Lemma reuse_nodup {I} (ia : I -> bool) (qb : I -> list nat) data : NoDup (map qb (filter ia data)) -> reuse_ok ia qb data.
Proof.
  intros N l1 i l2 j l3 q -> Ai Aj Qi Qj. exfalso. rewrite filter_app in N. cbn [filter] in N. rewrite Ai, filter_app in N. cbn [filter] in N. rewrite Aj in N.
  rewrite map_app in N. cbn [map] in N. rewrite map_app in N. cbn [map] in N. apply NoDup_remove_2 in N. apply N. rewrite Qi, Qj. rewrite !in_app_iff. right. right. now left.
Qed.
