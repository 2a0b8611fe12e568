(** Proofs about lazy and decoded results. *)
From Verif.Interface Require Import ResultModel ResultSpec.
Local Open Scope nat_scope.

Section lazy.
Context {M E : Type}.
Notation heap := (@heap M E). Notation lobj := (@lobj M E).
Implicit Types (hp : heap) (o : lobj).

Lemma put_length hp i o : length (put hp i o) = length hp.
Proof. revert i. induction hp as [|x hp IH]; intros [|i]; cbn; auto. Qed.
Lemma put_same hp i o : i < length hp -> nth_error (put hp i o) i = Some o.
Proof. revert i. induction hp as [|x hp IH]; intros [|i] L; cbn in *; try lia; [reflexivity|]. apply IH. lia. Qed.
Lemma put_other hp i j o : i <> j -> nth_error (put hp i o) j = nth_error hp j.
Proof. revert i j. induction hp as [|x hp IH]; intros [|i] [|j] N; cbn; try lia; try reflexivity. apply IH. lia. Qed.

(** what may happen to an object: an unpopulated derived object may be evaluated, a raw one injected *)
Definition settled o : Prop := populated o = true /\ src o <> None.
Definition keep hp hp' : Prop := forall h o, nth_error hp h = Some o -> settled o -> nth_error hp' h = Some o.
Lemma ensure_keep fuel hp h hp' r : ensure fuel hp h = (hp', r) -> keep hp hp' /\ length hp' = length hp.
Proof.
  revert hp h hp' r. induction fuel as [|fuel IH]; intros hp h hp' r H; cbn [ensure] in H.
  - injection H as <- _. split; [intros ? ? ? ?; assumption|reflexivity].
  - assert (Id : forall x y : heap, x = y -> keep x y /\ length y = length x) by (intros x y ->; split; [intros ? ? ? ?; assumption|reflexivity]).
    destruct (nth_error hp h) as [o|] eqn:N; [|injection H as <- _; auto].
    destruct (populated o) eqn:P; [injection H as <- _; auto|]. destruct (src o) as [[s f]|] eqn:Sr; [|injection H as <- _; auto].
    destruct (ensure fuel hp s) as [hp1 [e|]] eqn:E1; destruct (IH _ _ _ _ E1) as [K1 L1]; [injection H as <- _; auto|].
    destruct (nth_error hp1 s) as [ro|]; [|injection H as <- _; auto]. destruct (data ro) as [m|]; [|injection H as <- _; auto].
    assert (KP : forall o', keep hp (put hp1 h o')).
    { intros o' j oj Hj Sj. destruct (Nat.eq_dec h j) as [<-|Nj]; [rewrite N in Hj; injection Hj as <-; destruct Sj; congruence|]. rewrite put_other by exact Nj. auto. }
    destruct (f m); injection H as <- _; (split; [apply KP|rewrite put_length; exact L1]).
Qed.
Lemma step_keep hp ev : keep hp (fst (step hp ev)).
Proof.
  assert (AP : forall x, keep hp (hp ++ [x])) by (intros x h o H _; rewrite nth_error_app1; [exact H|apply nth_error_Some; congruence]).
  assert (Id : keep hp hp) by (intros h o H _; exact H).
  assert (PR : forall h o o', nth_error hp h = Some o -> src o = None -> keep hp (put hp h o')).
  { intros h o o' H S j oj Hj Sj. destruct (Nat.eq_dec h j) as [<-|Nj]; [|rewrite put_other by exact Nj; exact Hj]. rewrite H in Hj. injection Hj as <-. destruct Sj as [_ Sj]. congruence. }
  destruct ev as [|r f|h m|h e|h]; cbn [step].
  - apply AP.
  - destruct (r <? length hp); [apply AP|exact Id].
  - destruct (nth_error hp h) as [o|] eqn:N; [|exact Id]. destruct (src o) eqn:S; [exact Id|]. cbn [fst]. eapply PR; eassumption.
  - destruct (nth_error hp h) as [o|] eqn:N; [|exact Id]. destruct (src o) eqn:S; [exact Id|]. cbn [fst]. eapply PR; eassumption.
  - destruct (ensure (S h) hp h) as [hp' [e|]] eqn:X; destruct (ensure_keep _ _ _ _ _ X) as [K _]; [exact K|].
    destruct (nth_error hp' h) as [o|]; [destruct (data o)|]; exact K.
Qed.
Lemma exec_keep evs hp : keep hp (exec evs hp).
Proof. revert hp. induction evs as [|e evs IH]; intros hp; cbn [exec]; [intros h o H _; exact H|]. intros h o H S. apply IH; [|exact S]. apply step_keep; assumption. Qed.
(** a successful read settles the object *)
Lemma read_settles hp h hp' m o : nth_error hp h = Some o -> src o <> None -> step hp (Read h) = (hp', Mapping m) ->
  exists o', nth_error hp' h = Some o' /\ settled o' /\ data o' = Some m /\ evals o' <= S (evals o).
Proof.
  intros N S H. cbn [step] in H. destruct (ensure (Datatypes.S h) hp h) as [hp1 [e|]] eqn:X; [discriminate|].
  cbn [ensure] in X. rewrite N in X. destruct (populated o) eqn:P.
  - injection X as <-. rewrite N in H. destruct (data o) as [m'|] eqn:D; [|discriminate]. injection H as <- <-. exists o. split; [exact N|]. split; [split; assumption|]. split; [exact D|lia].
  - destruct (src o) as [[s f]|] eqn:Sr; [|congruence]. destruct (ensure h hp s) as [hp2 [e|]] eqn:E2; [discriminate|].
    destruct (nth_error hp2 s) as [ro|]; [|discriminate]. destruct (data ro) as [m0|]; [|discriminate]. destruct (f m0) as [m1|e]; [|discriminate]. injection X as <-.
    destruct (ensure_keep _ _ _ _ _ E2) as [_ L2]. assert (Lh : h < length hp2) by (rewrite L2; apply nth_error_Some; congruence).
    rewrite put_same in H by exact Lh. cbn [data] in H. injection H as <- <-. rewrite put_same by exact Lh. eexists. split; [reflexivity|]. cbn. split; [split; [reflexivity|cbn; discriminate]|]. split; [reflexivity|lia].
Qed.
Lemma read_settled hp h m o : nth_error hp h = Some o -> settled o -> data o = Some m -> step hp (Read h) = (hp, Mapping m).
Proof. intros N [P _] D. cbn [step ensure]. rewrite N, P, N, D. reflexivity. Qed.

Lemma lazy_stable hp h hp1 m evs o : nth_error hp h = Some o -> src o <> None -> step hp (Read h) = (hp1, Mapping m) ->
  let hp2 := exec evs hp1 in step hp2 (Read h) = (hp2, Mapping m) /\ nth_error hp2 h = nth_error hp1 h.
Proof.
  intros N S H. cbn zeta. destruct (read_settles _ _ _ _ _ N S H) as (o' & N' & S' & D & _). assert (K := exec_keep evs hp1 h o' N' S').
  split; [eapply read_settled; eassumption|congruence].
Qed.
(** an object is evaluated at most once more by a read, and only if it was not populated *)
Lemma unevaluated_once hp h hp1 r o : nth_error hp h = Some o -> populated o = false -> step hp (Read h) = (hp1, r) -> forall o1, nth_error hp1 h = Some o1 ->
  (exists m, r = Mapping m /\ populated o1 = true) \/ (exists e, r = Raise e).
Proof.
  intros N P H o1 N1. cbn [step] in H. destruct (ensure (Datatypes.S h) hp h) as [hp2 [e|]] eqn:X; [right; injection H as _ <-; eauto|].
  destruct (nth_error hp2 h) as [o2|] eqn:N2; [|injection H as _ <-; right; eauto]. destruct (data o2) as [m|] eqn:D; injection H as <- <-; [left; exists m; split; [reflexivity|]|right; eauto].
  rewrite N2 in N1. injection N1 as <-. cbn [ensure] in X. rewrite N, P in X. destruct (src o) as [[s f]|]; [|discriminate].
  destruct (ensure h hp s) as [hp3 [e|]] eqn:E3; [discriminate|]. destruct (nth_error hp3 s) as [ro|]; [|discriminate]. destruct (data ro) as [m0|]; [|discriminate]. destruct (f m0) as [m1|e]; [|discriminate].
  injection X as <-. destruct (ensure_keep _ _ _ _ _ E3) as [_ L3]. assert (Lh : h < length hp3) by (rewrite L3; apply nth_error_Some; congruence). rewrite put_same in N2 by exact Lh.
  injection N2 as <-. reflexivity.
Qed.
End lazy.

Local Open Scope Q_scope.
Section decode.
Context {K : Type} (keqb : K -> K -> bool) (keqb_ok : forall a b, keqb a b = true <-> a = b).
Implicit Types (d : list (K * Q)) (p : K -> bool).
Lemma mass_dadd p d k v : mass p (dadd keqb d k v) == mass p d + (if p k then v else 0).
Proof.
  induction d as [|[k' v'] d IH]; cbn [dadd mass]; [destruct (p k); ring|].
  destruct (keqb k' k) eqn:E; cbn [mass].
  - apply keqb_ok in E. subst k'. destruct (p k); ring.
  - rewrite IH. ring.
Qed.
Lemma keys_dadd d k v x : In x (map fst (dadd keqb d k v)) <-> In x (map fst d) \/ x = k.
Proof.
  induction d as [|[k' v'] d IH]; cbn [dadd map fst In]; [intuition|].
  destruct (keqb k' k) eqn:E; cbn [map fst In]; [apply keqb_ok in E; subst; intuition|rewrite IH; intuition].
Qed.
Lemma nodup_dadd d k v : NoDup (map fst d) -> NoDup (map fst (dadd keqb d k v)).
Proof.
  induction d as [|[k' v'] d IH]; cbn [dadd map fst]; intros H; [constructor; [intros []|constructor]|]. inversion H as [|? ? N1 N2]; subst.
  destruct (keqb k' k) eqn:E; cbn [map fst]; [exact H|]. constructor; [|apply IH; exact N2].
  rewrite keys_dadd. intros [Hi| ->]; [tauto|]. assert (keqb k k = true) by (apply keqb_ok; reflexivity). congruence.
Qed.
Lemma mass_dset_new p d k v : ~ In k (map fst d) -> mass p (dset keqb d k v) == mass p d + (if p k then v else 0).
Proof.
  induction d as [|[k' v'] d IH]; cbn [dset mass map fst In]; intros N; [destruct (p k); ring|].
  destruct (keqb k' k) eqn:E; cbn [mass]; [apply keqb_ok in E; tauto|]. rewrite IH by tauto. ring.
Qed.
Lemma keys_dset d k v x : In x (map fst (dset keqb d k v)) <-> In x (map fst d) \/ x = k.
Proof.
  induction d as [|[k' v'] d IH]; cbn [dset map fst In]; [intuition|].
  destruct (keqb k' k) eqn:E; cbn [map fst In]; [apply keqb_ok in E; subst; intuition|rewrite IH; intuition].
Qed.
Lemma nodup_dset d k v : NoDup (map fst d) -> NoDup (map fst (dset keqb d k v)).
Proof.
  induction d as [|[k' v'] d IH]; cbn [dset map fst]; intros H; [constructor; [intros []|constructor]|]. inversion H as [|? ? N1 N2]; subst.
  destruct (keqb k' k) eqn:E; cbn [map fst]; [exact H|]. constructor; [|apply IH; exact N2].
  rewrite keys_dset. intros [Hi| ->]; [tauto|]. assert (keqb k k = true) by (apply keqb_ok; reflexivity). congruence.
Qed.
End decode.
Lemma mass_ext {K} (p q : K -> bool) d : (forall k, p k = q k) -> mass p d = mass q d.
Proof. intros H. induction d as [|[k v] d IH]; cbn; [reflexivity|]. rewrite H, IH. reflexivity. Qed.
Lemma mass_perm {K} (p : K -> bool) d d' : Permutation d d' -> mass p d == mass p d'.
Proof. induction 1 as [|[k v] d d' _ IH|[k v] [k' v'] d|a b c _ IH1 _ IH2]; cbn [mass]; [reflexivity|rewrite IH; reflexivity|ring|rewrite IH1; exact IH2]. Qed.
Lemma mass_scale {K} (p : K -> bool) d c : mass p (map (fun kv => (fst kv, snd kv / c)) d) == mass p d / c.
Proof. induction d as [|[k v] d IH]; cbn [map mass fst snd]; [unfold Qdiv; ring|]. rewrite IH. destruct (p k); unfold Qdiv; ring. Qed.

Lemma insert_perm {A} (le : A -> A -> bool) x l : Permutation (x :: l) (insert le x l).
Proof. induction l as [|y l IH]; cbn; [reflexivity|]. destruct (le x y); [reflexivity|]. rewrite perm_swap, IH. reflexivity. Qed.
Lemma isort_perm {A} (le : A -> A -> bool) l : Permutation l (isort le l).
Proof. induction l as [|x l IH]; cbn; [reflexivity|]. rewrite <- insert_perm, <- IH. reflexivity. Qed.
Lemma insert_desc {K} (x : K * Q) l : descending l -> descending (insert desc x l).
Proof.
  unfold descending. induction l as [|y l IH]; cbn [insert]; intros H; [constructor; constructor|].
  inversion H as [|? ? H1 H2]; subst. unfold desc at 1. destruct (Qle_bool (snd y) (snd x)) eqn:E.
  - apply Qle_bool_iff in E. constructor; [exact H|]. constructor; [exact E|]. eapply Forall_impl; [|exact H2]. intros z Hz. cbn in *. eapply Qle_trans; eassumption.
  - assert (L : snd x <= snd y). { destruct (Qlt_le_dec (snd x) (snd y)); [apply Qlt_le_weak; assumption|]. apply Qle_bool_iff in q. congruence. }
    constructor; [apply IH; exact H1|]. apply (Permutation_Forall (insert_perm desc x l)). constructor; assumption.
Qed.
Lemma isort_desc {K} (l : list (K * Q)) : descending (isort desc l).
Proof. induction l as [|x l IH]; cbn; [constructor|]. apply insert_desc, IH. Qed.

Section decoded.
Context {L : Type} (leqb : L -> L -> bool) (leqb_ok : forall a b, leqb a b = true <-> a = b) (decoder : Z -> L).
Lemma decode_fold p items d : mass p (fold_left (fun d kc => dadd leqb d (decoder (fst kc)) (snd kc)) items d) == mass p d + mass (fun k => p (decoder k)) items.
Proof.
  revert d. induction items as [|[k c] items IH]; intros d; cbn [fold_left mass fst snd]; [ring|]. rewrite IH, mass_dadd by exact leqb_ok. ring.
Qed.
Lemma decode_nodup (items : list (Z * Q)) d : NoDup (map fst d) -> NoDup (map fst (fold_left (fun d kc => dadd leqb d (decoder (fst kc)) (snd kc)) items d)).
Proof. revert d. induction items as [|[k c] items IH]; intros d H; cbn [fold_left fst snd]; [exact H|]. apply IH, nodup_dadd; assumption. Qed.
Lemma decode_keys (items : list (Z * Q)) d l : In l (map fst (fold_left (fun d kc => dadd leqb d (decoder (fst kc)) (snd kc)) items d)) <-> In l (map fst d) \/ exists k, In k (map fst items) /\ decoder k = l.
Proof.
  revert d. induction items as [|[k c] items IH]; intros d; cbn [fold_left fst snd map In]; [firstorder|]. rewrite IH, keys_dadd by exact leqb_ok. firstorder (subst; eauto).
Qed.
Lemma decoded_mass p raw : mass p (decoded leqb decoder raw) == mass (fun k => p (decoder k)) raw.
Proof. unfold decoded. rewrite <- (mass_perm p _ _ (isort_perm desc _)), decode_fold, <- (mass_perm _ _ _ (isort_perm by_key raw)). cbn. ring. Qed.
Lemma decoded_nodup raw : NoDup (map fst (decoded leqb decoder raw)).
Proof. unfold decoded. eapply Permutation_NoDup; [apply Permutation_map, isort_perm|]. apply decode_nodup. constructor. Qed.
Lemma decoded_keys raw l : In l (map fst (decoded leqb decoder raw)) <-> exists k, In k (map fst raw) /\ decoder k = l.
Proof.
  unfold decoded. set (d := fold_left _ _ []). assert (P : Permutation (map fst d) (map fst (isort desc d))) by apply Permutation_map, isort_perm.
  assert (Q1 : Permutation (map fst raw) (map fst (isort by_key raw))) by apply Permutation_map, isort_perm.
  split.
  - intros H. apply (Permutation_in _ (Permutation_sym P)) in H. apply decode_keys in H. destruct H as [[]|(k & Hk & E)]. exists k. split; [|exact E]. eapply Permutation_in; [apply Permutation_sym; exact Q1|exact Hk].
  - intros (k & Hk & E). apply (Permutation_in _ P). apply decode_keys. right. exists k. split; [|exact E]. eapply Permutation_in; eassumption.
Qed.
Lemma decoded_desc raw : descending (decoded leqb decoder raw). Proof. apply isort_desc. Qed.
End decoded.

Lemma int_keyed_loop_ok n items d t r : int_keyed_loop n items d t = Some r ->
  (forall p, mass p (fst r) == mass p d + mass (fun s => p (outcome n s)) items) /\ snd r == t + total items /\ (NoDup (map fst d) -> NoDup (map fst (fst r))).
Proof.
  revert d t. induction items as [|[s c] items IH]; intros d t H; cbn [int_keyed_loop] in H.
  - injection H as <-. cbn. split; [intros; ring|]. split; [ring|auto].
  - destruct (int2 (trimmed n s)) as [k|] eqn:E; [|discriminate]. assert (Ek : k = outcome n s) by (unfold int2, outcome in *; destruct (trimmed n s); [discriminate|congruence]).
    destruct (IH _ _ H) as (I1 & I2 & I3). split; [|split].
    + intros p. rewrite I1, mass_dadd by (intros; apply Z.eqb_eq). cbn [mass]. rewrite Ek. ring.
    + rewrite I2. unfold total. cbn [mass]. ring.
    + intros N. apply I3. apply nodup_dadd; [intros; apply Z.eqb_eq|exact N].
Qed.
Lemma Qabs_pos q : 0 < q -> Qabs q = q.
Proof. intros H. unfold Qabs. destruct (Qle_bool 0 q) eqn:E; [reflexivity|]. assert (Qle_bool 0 q = true) by (apply Qle_bool_iff, Qlt_le_weak, H). congruence. Qed.
Lemma Qabs_m a b : a == b -> Qabs a == Qabs b.
Proof. intros H. unfold Qabs. rewrite H. destruct (Qle_bool 0 b); rewrite H; reflexivity. Qed.
Lemma Qle_bool_false a b : Qle_bool a b = false <-> b < a.
Proof.
  split; intros H.
  - apply Qnot_le_lt. intros C. apply Qle_bool_iff in C. congruence.
  - destruct (Qle_bool a b) eqn:E; [|reflexivity]. apply Qle_bool_iff in E. exfalso. apply (Qlt_not_le _ _ H E).
Qed.
Lemma int_keyed_ok n raw d : int_keyed n raw = Some d ->
  NoDup (map fst d) /\
  (0 < total raw -> 1 # 1000 < Qabs (1 - total raw) -> forall p, mass p d == mass (fun s => p (outcome n s)) raw / total raw) /\
  (Qabs (1 - total raw) <= 1 # 1000 -> forall p, mass p d == mass (fun s => p (outcome n s)) raw).
Proof.
  unfold int_keyed. destruct (int_keyed_loop n raw [] 0) as [[d0 t]|] eqn:E; [|discriminate]. destruct (int_keyed_loop_ok _ _ _ _ _ E) as (I1 & I2 & I3). cbn [fst snd mass] in *.
  assert (T : t == total raw) by (rewrite I2; ring). assert (M0 : forall p, mass p d0 == mass (fun s => p (outcome n s)) raw) by (intros p; rewrite I1; ring).
  assert (TA : Qabs (1 - t) == Qabs (1 - total raw)).
  { unfold Qabs. rewrite T. destruct (Qle_bool 0 (1 - total raw)); rewrite T; reflexivity. }
  destruct (negb (Qle_bool t 0) && negb (Qle_bool (Qabs (1 - t)) (1 # 1000))) eqn:C; intros H; injection H as <-.
  - apply andb_prop in C. destruct C as [C1 C2]. apply negb_true_iff, Qle_bool_false in C1. apply negb_true_iff, Qle_bool_false in C2.
    split; [rewrite map_map; cbn; apply I3; constructor|]. split.
    + intros _ _ p. rewrite mass_scale, M0, Qabs_pos by exact C1. rewrite T. reflexivity.
    + intros A. exfalso. rewrite TA in C2. apply (Qlt_not_le _ _ C2 A).
  - split; [apply I3; constructor|]. split; [|intros _; exact M0].
    intros P A. exfalso. apply andb_false_iff in C. destruct C as [C|C]; apply negb_false_iff, Qle_bool_iff in C.
    + rewrite T in C. apply (Qlt_not_le _ _ P C).
    + rewrite TA in C. apply (Qlt_not_le _ _ A C).
Qed.
Lemma total_int {K} (raw : list (K * Q)) : (forall s c, In (s, c) raw -> exists z, c = inject_Z z) -> exists z, total raw == inject_Z z.
Proof.
  unfold total. induction raw as [|[s c] raw IH]; intros H; cbn [mass]; [exists 0%Z; reflexivity|].
  destruct IH as [z Hz]; [intros; eapply H; right; eassumption|]. destruct (H s c (or_introl eq_refl)) as [w ->]. exists (w + z)%Z. rewrite Hz, inject_Z_plus. reflexivity.
Qed.
Lemma mass_one {K} (p : K -> bool) (raw : list (K * Q)) : total raw == 1 -> mass p raw == mass p raw / total raw.
Proof. intros H. rewrite H. field. Qed.
(** integer counts, at least one shot *)
Lemma int_keyed_counts n raw d : int_keyed n raw = Some d -> (forall s c, In (s, c) raw -> exists z, c = inject_Z z) -> 0 < total raw ->
  forall p, mass p d == mass (fun s => p (outcome n s)) raw / total raw.
Proof.
  intros H I P. destruct (int_keyed_ok _ _ _ H) as (_ & A & B). destruct (total_int raw I) as [z Hz].
  destruct (Z.eq_dec z 1) as [->|N].
  - assert (T1 : total raw == 1) by exact Hz. intros p. rewrite <- mass_one by exact T1. apply B. assert (X : Qabs (1 - total raw) == 0). { rewrite (Qabs_m _ 0); [reflexivity|]. rewrite T1. reflexivity. } rewrite X. discriminate.
  - apply A; [exact P|]. assert (Hp : (0 < z)%Z). { rewrite Hz in P. unfold Qlt, inject_Z in P. cbn in P. lia. }
    rewrite (Qabs_m _ (1 - inject_Z z)) by (rewrite Hz; reflexivity). unfold Qabs. destruct (Qle_bool 0 (1 - inject_Z z)) eqn:E.
    + apply Qle_bool_iff in E. change (0 * 1 <= (1 * 1 + - z * 1) * 1)%Z in E. lia.
    + change (1 * 1 < (- (1 * 1 + - z * 1)) * 1000)%Z. lia.
Qed.

(** ** several variables *)
Section multi.
Context {L : Type} (leqb : list L -> list L -> bool) (leqb_ok : forall a b, leqb a b = true <-> a = b) (decs : list (Z -> L)) (regs : list nat).
Let stepf (t : Q) := fun (acc : option (list (list L * Q))) (sc : list bool * Q) => match acc, labels decs regs (fst sc) with
    | Some d, Some l => if Qeq_bool t 0 then None else Some (dset leqb d l (snd sc / t))
    | _, _ => None end.
Lemma multi_none t items : fold_left (stepf t) items None = None.
Proof. induction items as [|x items IH]; cbn; [reflexivity|exact IH]. Qed.
Lemma multi_fold t items d r : fold_left (stepf t) items (Some d) = Some r ->
  (forall s s' l, In s (map fst items) -> In s' (map fst items) -> labels decs regs s = Some l -> labels decs regs s' = Some l -> s = s') ->
  NoDup (map fst items) -> (forall s l, In s (map fst items) -> labels decs regs s = Some l -> ~ In l (map fst d)) ->
  forall p, mass p r == mass p d + mass (fun s => match labels decs regs s with Some l => p l | None => false end) items / t.
Proof.
  revert d. induction items as [|[s c] items IH]; intros d H Inj N Fr p; cbn [fold_left] in H.
  - injection H as <-. cbn. unfold Qdiv. ring.
  - unfold stepf at 2 in H. cbn [fst snd] in H. cbn [map fst] in *. inversion N as [|? ? N1 N2]; subst. destruct (labels decs regs s) as [l|] eqn:El; [|rewrite multi_none in H; discriminate].
    destruct (Qeq_bool t 0); [rewrite multi_none in H; discriminate|].
    rewrite (IH _ H); [|intros; eapply Inj; try eassumption; right; assumption|exact N2|].
    + rewrite mass_dset_new; [|exact leqb_ok|apply (Fr s); [left; reflexivity|exact El]]. cbn [mass]. rewrite El. destruct (p l); unfold Qdiv; ring.
    + intros s' l' Hs' El'. rewrite keys_dset by exact leqb_ok. intros [Hi| ->]; [apply (Fr s' l'); [right; assumption|exact El'|exact Hi]|].
      apply N1. rewrite (Inj s s' l); [exact Hs'|left; reflexivity|right; exact Hs'|exact El|exact El'].
Qed.
Lemma multi_ok raw r : multi leqb decs regs raw = Some r -> NoDup (map fst raw) ->
  (forall s s' l, In s (map fst raw) -> In s' (map fst raw) -> labels decs regs s = Some l -> labels decs regs s' = Some l -> s = s') ->
  (forall p, mass p r == mass (fun s => match labels decs regs s with Some l => p l | None => false end) raw / total raw) /\ descending r.
Proof.
  unfold multi. intros H N Inj. set (items := isort by_bits raw) in *. set (t := qsum (map snd items)) in *.
  assert (P : Permutation raw items) by apply isort_perm. assert (Pk : Permutation (map fst raw) (map fst items)) by (apply Permutation_map; exact P).
  change (fold_left _ items (Some [])) with (fold_left (stepf t) items (Some [])) in H.
  destruct (fold_left (stepf t) items (Some [])) as [d|] eqn:F; [|discriminate]. injection H as <-. split; [|apply isort_desc].
  assert (T : t == total raw). { assert (X : forall l : list (list bool * Q), qsum (map snd l) == total l). { induction l as [|[s c] l IH]; cbn; [reflexivity|]. unfold qsum in *. cbn. rewrite IH. reflexivity. } unfold t. rewrite X. symmetry. apply mass_perm, P. }
  intros p. rewrite <- (mass_perm p _ _ (isort_perm desc d)).
  rewrite (multi_fold t items [] d F).
  - cbn [mass]. rewrite T, <- (mass_perm _ _ _ P). ring.
  - intros s s' l Hs Hs' E E'. apply (Inj s s' l); try assumption; (eapply Permutation_in; [apply Permutation_sym; exact Pk|assumption]).
  - eapply Permutation_NoDup; eassumption.
  - intros s l _ _ [].
Qed.
Lemma multi_labels raw r : multi leqb decs regs raw = Some r -> forall s, In s (map fst raw) -> labels decs regs s <> None.
Proof.
  unfold multi. intros H s Hs. set (items := isort by_bits raw) in *. assert (Hi : In s (map fst items)) by (eapply Permutation_in; [apply Permutation_map, isort_perm|exact Hs]).
  set (t := qsum (map snd items)) in *. change (fold_left _ items (Some [])) with (fold_left (stepf t) items (Some [])) in H. destruct (fold_left (stepf t) items (Some [])) as [d|] eqn:F; [|discriminate]. clear H.
  revert F Hi. clearbody t items. generalize (@nil (list L * Q)) as d0. induction items as [|[s0 c] items IH]; intros d0 F Hi; [destruct Hi|]. cbn [fold_left] in F. unfold stepf at 2 in F. cbn [fst snd] in F.
  destruct (labels decs regs s0) as [l|] eqn:E; [|rewrite multi_none in F; discriminate]. destruct Hi as [<-|Hi]; [cbn [fst]; congruence|].
  destruct (Qeq_bool t 0); [rewrite multi_none in F; discriminate|]. eapply IH; eassumption.
Qed.
End multi.
