(** Proofs for the batched backend. *)
From Verif.Interface Require Import BatchModel BatchSpec.
Local Open Scope nat_scope.

Section proofs.
Context {C D E : Type}.
Variable backend : list (@call C) -> @call C -> list D + E.
Variable limit : option Z.
Notation mres := (@mres D E). Notation state := (@state C D E). Notation fresh := (@fresh D E).
Implicit Types (h : list mres) (s : state) (reqs : list (C * option Z)).

Definition zip3 reqs n : list (C * option Z * nat) := combine reqs (seq n (length reqs)).
Lemma zip3_app a b n : zip3 (a ++ b) n = zip3 a n ++ zip3 b (n + length a).
Proof.
  unfold zip3. revert n. induction a as [|x a IH]; intros n; cbn [app length seq combine].
  - rewrite Nat.add_0_r. reflexivity.
  - rewrite IH. cbn [app]. replace (n + S (length a)) with (S n + length a) by lia. reflexivity.
Qed.
Lemma zip3_length a n : length (zip3 a n) = length a.
Proof. unfold zip3. rewrite combine_length, seq_length. lia. Qed.
Lemma zip3_map cs n z : map (fun ch : C * nat => (fst ch, z, snd ch)) (combine cs (seq n (length cs))) = zip3 (map (fun c => (c, z)) cs) n.
Proof. unfold zip3. rewrite map_length. revert n. induction cs as [|c cs IH]; intros n; cbn; [reflexivity|]. f_equal. apply IH. Qed.
Lemma zip3_fst a n : map fst (zip3 a n) = a.
Proof. unfold zip3. revert n. induction a as [|x a IH]; intros n; cbn; [reflexivity|]. f_equal. apply IH. Qed.
Lemma zip3_fst2 {X} (f : C * option Z -> X) a n : map (fun q => f (fst q)) (zip3 a n) = map f a.
Proof. rewrite <- (zip3_fst a n) at 2. rewrite map_map. reflexivity. Qed.
Lemma zip3_snd a n : map snd (zip3 a n) = seq n (length a).
Proof. unfold zip3. revert n. induction a as [|x a IH]; intros n; cbn; [reflexivity|]. f_equal. apply IH. Qed.
Lemma zip3_firstn k a n : firstn k (zip3 a n) = zip3 (firstn k a) n.
Proof.
  rewrite <- (firstn_skipn k a) at 1. rewrite zip3_app, firstn_app, zip3_length.
  destruct (Nat.le_ge_cases (length a) k).
  - rewrite (firstn_all2 a) by lia. rewrite skipn_all2 by lia. unfold zip3 at 2. cbn. rewrite firstn_nil, app_nil_r. apply firstn_all2. rewrite zip3_length. lia.
  - rewrite firstn_length_le by lia. rewrite Nat.sub_diag, firstn_O, app_nil_r. apply firstn_all2. rewrite zip3_length, firstn_length. lia.
Qed.
Lemma zip3_skipn k a n : skipn k (zip3 a n) = zip3 (skipn k a) (n + length (firstn k a)).
Proof.
  rewrite <- (firstn_skipn k a) at 1. rewrite zip3_app, skipn_app, zip3_length.
  destruct (Nat.le_ge_cases (length a) k).
  - rewrite (skipn_all2 a) by lia. rewrite skipn_all2 by (rewrite zip3_length, firstn_length; lia). cbn. rewrite skipn_nil. reflexivity.
  - rewrite skipn_all2 by (rewrite zip3_length, firstn_length; lia). rewrite firstn_length_le by lia. rewrite Nat.sub_diag. reflexivity.
Qed.

Lemma requests_all d (es : list (@event C)) cs sh : valid_shots sh = true -> requests d (Run cs sh :: es) = map (fun c => (c, match sh with Some _ => sh | None => d end)) cs ++ requests d es.
Proof. destruct sh as [z|]; cbn; intros H; [rewrite H|]; reflexivity. Qed.

Lemma exec_keep es s s' (os : list (@output D E)) : Forall keeps_queue es -> exec backend limit es s = (s', os) ->
  let reqs := requests (dflt s) es in
  queue s' = queue s ++ zip3 reqs (length (heap s)) /\ heap s' = heap s ++ repeat fresh (length reqs) /\ handles os = seq (length (heap s)) (length reqs) /\ log s' = log s.
Proof.
  revert s s' os. induction es as [|e es IH]; intros s s' os F H; cbn zeta.
  - injection H as <- <-. cbn. rewrite !app_nil_r. auto.
  - inversion F as [|? ? K F']; subst. cbn [exec] in H. destruct (step backend limit s e) as [s1 o] eqn:E1. destruct (exec backend limit es s1) as [s2 os'] eqn:E2. injection H as <- <-.
    specialize (IH s1 s2 os' F' E2). cbn zeta in IH. destruct IH as (I1 & I2 & I3 & I4).
    destruct e as [cs sh| | |z|hd]; cbn [step] in E1.
    + unfold run in E1. destruct (valid_shots sh) eqn:V.
      * injection E1 as <- <-. cbn [queue heap log dflt] in *. rewrite requests_all by exact V. set (z := match sh with Some _ => sh | None => dflt s end) in *.
        rewrite !app_length, !repeat_length, !map_length in *. cbn [handles flat_map].
        rewrite I1, I2, zip3_map, zip3_app, map_length, <- !app_assoc. split; [reflexivity|]. split; [rewrite <- repeat_app; reflexivity|]. split; [|exact I4].
        unfold handles in I3. rewrite I3, seq_app. reflexivity.
      * injection E1 as <- <-. assert (R : requests (dflt s) (Run cs sh :: es) = requests (dflt s) es). { destruct sh; [|discriminate]. cbn in *. rewrite V. reflexivity. }
        rewrite R. auto.
    + destruct K as [K _]. congruence.
    + destruct K as [_ K]. congruence.
    + destruct (valid_shots z) eqn:V; injection E1 as <- <-.
      * assert (R : requests (dflt s) (SetShots z :: es) = requests z es) by (destruct z; cbn in *; [rewrite V|]; reflexivity). rewrite R. auto.
      * assert (R : requests (dflt s) (SetShots z :: es) = requests (dflt s) es) by (destruct z; [cbn in *; rewrite V; reflexivity|discriminate]). rewrite R. auto.
    + injection E1 as <- <-. cbn [requests handles flat_map]. unfold read. destruct (nth_error (heap s) hd) as [r|]; [destruct (populated r); [destruct (data r)|destruct (err r)]|]; auto.
Qed.

Lemma upd_app h h' i f : upd (h ++ h') (length h + i) f = h ++ upd h' i f.
Proof. induction h as [|x h IH]; cbn; [reflexivity|]. f_equal. apply IH. Qed.
Definition full (d : D) : mres := inject d fresh.
Lemma inject_chunk h (ds : list D) m : fold_left (fun h rc => upd h (fst rc) (inject (snd rc))) (combine (seq (length h) (length ds)) ds) (h ++ repeat fresh (length ds + m)) = h ++ map full ds ++ repeat fresh m.
Proof.
  revert h. induction ds as [|d ds IH]; intros h; cbn [length seq combine fold_left map app repeat Nat.add]; [reflexivity|].
  assert (U : upd (h ++ fresh :: repeat fresh (length ds + m)) (fst (length h, d)) (inject (snd (length h, d))) = (h ++ [full d]) ++ repeat fresh (length ds + m)).
  { cbn [fst snd]. rewrite <- (Nat.add_0_r (length h)), upd_app. cbn. rewrite <- app_assoc. reflexivity. }
  rewrite U. specialize (IH (h ++ [full d])). rewrite app_length, Nat.add_1_r in IH. rewrite IH, <- app_assoc. reflexivity.
Qed.
Definition failed (e : error) : mres := inject_error e fresh.
Lemma error_all h (ds : list D) m (e : @error E) : fold_left (fun h r => upd h r (fun m => if populated m then m else inject_error e m)) (seq (length h) (length ds + m)) (h ++ map full ds ++ repeat fresh m) = h ++ map full ds ++ repeat (failed e) m.
Proof.
  revert h. induction ds as [|d ds IH]; intros h; cbn [length seq combine fold_left map app repeat Nat.add].
  - revert h. induction m as [|m IH]; intros h; cbn [seq fold_left repeat]; [reflexivity|].
    rewrite <- (Nat.add_0_r (length h)) at 2. rewrite upd_app. cbn [upd populated fresh BatchModel.fresh]. specialize (IH (h ++ [failed e])). rewrite app_length, Nat.add_1_r, <- !app_assoc in IH. exact IH.
  - rewrite <- (Nat.add_0_r (length h)) at 2. rewrite upd_app. cbn [upd populated full inject]. specialize (IH (h ++ [full d])). rewrite app_length, Nat.add_1_r, <- !app_assoc in IH. exact IH.
Qed.
Lemma oz_eqb_ok a b : oz_eqb a b = true -> a = b.
Proof. destruct a, b; cbn; try discriminate; [intros H; apply Z.eqb_eq in H; congruence|reflexivity]. Qed.
Lemma effective_ok l : shots_match (effective l) l.
Proof.
  destruct l as [|s l]; cbn; [reflexivity|]. destruct (forallb (oz_eqb s) l) eqn:F; cbn; [|reflexivity].
  constructor; [reflexivity|]. apply Forall_forall. intros x Hx. apply oz_eqb_ok. rewrite forallb_forall in F. auto.
Qed.

Lemma submit_all_ok fuel k reqs s h : one_each backend -> 0 < k -> within limit k \/ length reqs <= k /\ within limit (length reqs) -> length reqs <= fuel -> heap s = h ++ repeat fresh (length reqs) ->
  match submit_all backend fuel k (zip3 reqs (length h)) s with
  | (s', None) => exists ds, served backend limit (log s) reqs ds /\ heap s' = h ++ map full ds /\ queue s' = queue s /\ length ds = length reqs /\ dflt s' = dflt s
  | (s', Some er) => exists e ds rest reqs1, er = EBackend e /\ refused backend limit (log s) reqs1 ds rest e /\ reqs = reqs1 ++ rest /\ length reqs1 = length ds /\ heap s' = h ++ map full ds ++ repeat fresh (length rest) /\ queue s' = queue s /\ dflt s' = dflt s
  end.
Proof.
  intros OE K0. revert reqs s h. induction fuel as [|fuel IH]; intros reqs s h W L Hh.
  - destruct reqs as [|r reqs]; [|cbn in L; lia]. cbn. exists []. cbn in *. rewrite app_nil_r in *. split; [constructor|]. auto.
  - destruct reqs as [|r0 reqs0]; [cbn; exists []; cbn in *; rewrite app_nil_r in *; split; [constructor|auto]|].
    set (reqs := r0 :: reqs0) in *. cbn [submit_all]. assert (EZ : zip3 reqs (length h) = (r0, length h) :: zip3 reqs0 (S (length h))) by reflexivity.
    rewrite EZ. rewrite <- EZ. rewrite zip3_firstn, zip3_skipn.
    set (r1 := firstn k reqs). set (r2 := skipn k reqs). assert (R : reqs = r1 ++ r2) by (symmetry; apply firstn_skipn).
    assert (N1 : r1 <> []) by (unfold r1, reqs; destruct k; [lia|discriminate]).
    assert (W1 : within limit (length r1)).
    { destruct W as [W|[W1 W2]]; [|unfold r1; rewrite firstn_all2 by lia; exact W2]. unfold within in *. destruct limit as [z|]; [|exact I]. assert (length r1 <= k) by (unfold r1; rewrite firstn_length; lia). lia. }
    unfold submit_chunk. rewrite !zip3_snd.
    rewrite (zip3_fst2 (fun q => fst q)), (zip3_fst2 (fun q => snd q)). change (map (fun q : C * option Z => fst q) r1) with (map fst r1). change (map (fun q : C * option Z => snd q) r1) with (map snd r1).
    set (f := effective (map snd r1)). assert (SM : shots_match f (map snd r1)) by apply effective_ok.
    destruct (backend (log s) (map fst r1, f)) as [ds1|e] eqn:B.
    + assert (L1 : length ds1 = length r1) by (rewrite <- (map_length fst r1); eapply OE; exact B).
      set (s1 := {| queue := queue s; heap := _; log := _; dflt := _ |}).
      assert (H1 : heap s1 = (h ++ map full ds1) ++ repeat fresh (length r2)).
      { cbn. rewrite Hh, R, app_length, <- L1, inject_chunk, <- app_assoc. reflexivity. }
      assert (L2 : length r2 <= fuel). { assert (length reqs = length r1 + length r2) by (rewrite R, app_length; reflexivity). destruct r1; [congruence|]. cbn in *. lia. }
      assert (W2 : within limit k \/ length r2 <= k /\ within limit (length r2)).
      { destruct W as [W|[Wl _]]; [left; exact W|right]. assert (r2 = []) by (apply skipn_all2; exact Wl). rewrite H in *. split; [cbn; lia|]. unfold within in *. destruct limit; [cbn; lia|exact I]. }
      specialize (IH r2 s1 (h ++ map full ds1) W2 L2 H1). rewrite app_length, map_length, L1 in IH.
      destruct (submit_all backend fuel k (zip3 r2 (length h + length r1)) s1) as [s' [er|]].
      * destruct IH as (e & ds2 & rest & q1 & -> & Rf & R2 & L3 & H2 & Hq & Hd). exists e, (ds1 ++ ds2), rest, (r1 ++ q1).
        split; [reflexivity|]. split; [eapply refused_later; eauto|]. split; [rewrite R, R2, app_assoc; reflexivity|]. split; [rewrite !app_length; lia|]. rewrite H2, map_app, <- !app_assoc. auto.
      * destruct IH as (ds2 & Sv & H2 & Hq & L3 & Hd). exists (ds1 ++ ds2). rewrite R at 1. split; [eapply served_cons; eauto|]. rewrite H2, map_app, <- app_assoc. split; [reflexivity|]. split; [exact Hq|]. split; [rewrite R, !app_length; lia|exact Hd].
    + exists e, [], reqs, []. split; [reflexivity|]. split; [rewrite R; apply (refused_now _ _ _ _ _ f); assumption|]. cbn. rewrite Hh. auto.
Qed.

Lemma read_full h (ds : list D) h' s k d : heap s = h ++ map full ds ++ h' -> nth_error ds k = Some d -> read s (length h + k) = Value d.
Proof.
  intros H N. unfold read. rewrite H, nth_error_app2 by lia. replace (length h + k - length h) with k by lia.
  rewrite nth_error_app1 by (rewrite map_length; apply nth_error_Some; congruence). rewrite nth_error_map, N. reflexivity.
Qed.
Lemma map_seq_nth {X Y} (f : nat -> Y) (g : X -> Y) (l : list X) n : (forall k x, nth_error l k = Some x -> f (n + k) = g x) -> map f (seq n (length l)) = map g l.
Proof.
  revert n. induction l as [|x l IH]; intros n H; cbn; [reflexivity|]. f_equal; [rewrite <- (Nat.add_0_r n); apply H; reflexivity|].
  apply IH. intros k y Hk. replace (S n + k) with (n + S k) by lia. apply H. exact Hk.
Qed.
Lemma read_all h (ds : list D) h' s : heap s = h ++ map full ds ++ h' -> map (read s) (seq (length h) (length ds)) = map (fun d => Value d) ds.
Proof. intros H. apply map_seq_nth. intros k d Hk. eapply read_full; eassumption. Qed.
Lemma read_failed h (ds : list D) m s e : heap s = h ++ map full ds ++ repeat (failed e) m -> map (read s) (seq (length h + length ds) m) = repeat (Raised e) m.
Proof.
  intros H. transitivity (map (fun _ : nat => @Raised D E e) (repeat 0 m)).
  - rewrite <- (repeat_length 0 m) at 1. apply map_seq_nth. intros k x Hk. unfold read. rewrite H, nth_error_app2 by lia. rewrite nth_error_app2 by (rewrite map_length; lia). rewrite map_length.
    assert (k < m). { rewrite <- (repeat_length 0 m). apply nth_error_Some. congruence. } replace (length h + length ds + k - length h - length ds) with k by lia.
    rewrite (nth_error_repeat (failed e)) by exact H0. reflexivity.
  - clear. induction m; cbn; [reflexivity|]. f_equal. exact IHm.
Qed.
Lemma read_old h h' s s' k : heap s = h -> heap s' = h ++ h' -> k < length h -> read s' k = read s k.
Proof. intros H H' L. unfold read. rewrite H, H', nth_error_app1 by exact L. reflexivity. Qed.

(** the state after the requests of [es] and a dispatch *)
Lemma dispatch_ok es s1 s2 s3 (os : list (@output D E)) o : one_each backend -> positive_limit limit -> queue s1 = [] -> Forall keeps_queue es -> exec backend limit es s1 = (s2, os) -> step backend limit s2 Dispatch = (s3, o) ->
  let reqs := requests (dflt s1) es in
  queue s3 = [] /\ dflt s3 = dflt s2 /\
  ((o = Done /\ exists ds, served backend limit (log s1) reqs ds /\ length ds = length reqs /\ heap s3 = heap s1 ++ map full ds) \/
   (exists e ds reqs1 rest, o = Raised (EBackend e) /\ reqs = reqs1 ++ rest /\ length reqs1 = length ds /\ refused backend limit (log s1) reqs1 ds rest e /\ heap s3 = heap s1 ++ map full ds ++ repeat (failed (EBackend e)) (length rest))).
Proof.
  intros OE PL Q0 F X St. cbn zeta. destruct (exec_keep _ _ _ _ F X) as (I1 & I2 & I3 & I4). set (reqs := requests (dflt s1) es) in *.
  rewrite Q0 in I1. cbn [app] in I1. cbn [step] in St. unfold dispatch in St. rewrite I1 in St.
  set (s2' := {| queue := []; heap := heap s2; log := log s2; dflt := dflt s2 |}) in *.
  destruct reqs as [|r0 reqs0] eqn:Er.
  - cbn in St. injection St as <- <-. cbn. split; [reflexivity|]. split; [reflexivity|]. left. split; [reflexivity|]. exists []. split; [constructor|]. split; [reflexivity|]. cbn in I2. exact I2.
  - rewrite <- Er in *. assert (Ne : 0 < length reqs) by (rewrite Er; cbn; lia).
    assert (EZ : exists q qs, zip3 reqs (length (heap s1)) = q :: qs). { rewrite Er. cbn. eauto. }
    destruct EZ as (q & qs & EZ). rewrite EZ in St. rewrite <- EZ in St.
    assert (S2 : heap s2' = heap s1 ++ repeat fresh (length reqs)) by exact I2.
    set (r := match limit with None => _ | Some _ => _ end) in St.
    assert (OK : exists k, 0 < k /\ (within limit k \/ length reqs <= k /\ within limit (length reqs)) /\ r = submit_all backend (length reqs) k (zip3 reqs (length (heap s1))) s2').
    { unfold r, positive_limit, within in *. rewrite zip3_length. destruct limit as [z|].
      - destruct (z =? 0)%Z eqn:Z0; [apply Z.eqb_eq in Z0; lia|]. destruct (z <? 0)%Z eqn:Z1; [apply Z.ltb_lt in Z1; lia|]. exists (Z.to_nat z). split; [lia|]. split; [left; lia|reflexivity].
      - exists (length reqs). split; [exact Ne|]. split; [left; exact I|reflexivity]. }
    destruct OK as (k & K0 & W & Rk). clearbody r. subst r.
    assert (A := submit_all_ok (length reqs) k reqs s2' (heap s1) OE K0 W (le_n _) S2).
    destruct (submit_all backend (length reqs) k (zip3 reqs (length (heap s1))) s2') as [s' [er|]].
    + destruct A as (e & ds & rest & q1 & -> & Rf & R2 & L3 & H2 & Hq & Hd). injection St as <- <-. cbn [queue dflt heap]. split; [rewrite Hq; reflexivity|]. split; [rewrite Hd; reflexivity|]. right.
      exists e, ds, q1, rest. split; [reflexivity|]. split; [exact R2|]. split; [exact L3|]. split; [rewrite <- I4; exact Rf|].
      rewrite zip3_snd, H2, R2, app_length, L3. apply error_all.
    + destruct A as (ds & Sv & H2 & Hq & L3 & Hd). injection St as <- <-. split; [rewrite Hq; reflexivity|]. split; [rewrite Hd; reflexivity|]. left. split; [reflexivity|]. exists ds. rewrite <- I4. auto.
Qed.

Lemma batched_ok es s1 s2 s3 (os : list (@output D E)) : one_each backend -> positive_limit limit -> queue s1 = [] -> Forall keeps_queue es -> exec backend limit es s1 = (s2, os) -> step backend limit s2 Dispatch = (s3, Done) ->
  exists ds, served backend limit (log s1) (requests (dflt s1) es) ds /\ length ds = length (requests (dflt s1) es) /\ map (read s3) (handles os) = map (fun d => Value d) ds /\ queue s3 = [] /\
  forall k, k < length (heap s1) -> read s3 k = read s1 k.
Proof.
  intros OE PL Q0 F X St. destruct (dispatch_ok _ _ _ _ _ _ OE PL Q0 F X St) as (Q3 & _ & [[_ (ds & Sv & L & H)]|(e & _ & _ & _ & Ab & _)]); [|discriminate].
  destruct (exec_keep _ _ _ _ F X) as (_ & _ & I3 & _). exists ds. split; [exact Sv|]. split; [exact L|]. split; [|split; [exact Q3|]].
  - rewrite I3, <- L. apply (read_all _ _ []). rewrite app_nil_r. exact H.
  - intros k Hk. eapply read_old; eauto.
Qed.
Lemma batched_failure es s1 s2 s3 (os : list (@output D E)) er : one_each backend -> positive_limit limit -> queue s1 = [] -> Forall keeps_queue es -> exec backend limit es s1 = (s2, os) -> step backend limit s2 Dispatch = (s3, Raised er) ->
  exists e reqs1 rest ds hs1 hs2, er = EBackend e /\ requests (dflt s1) es = reqs1 ++ rest /\ refused backend limit (log s1) reqs1 ds rest e /\
  handles os = hs1 ++ hs2 /\ map (read s3) hs1 = map (fun d => Value d) ds /\ map (read s3) hs2 = repeat (Raised (EBackend e)) (length rest) /\ queue s3 = [] /\
  forall k, k < length (heap s1) -> read s3 k = read s1 k.
Proof.
  intros OE PL Q0 F X St. destruct (dispatch_ok _ _ _ _ _ _ OE PL Q0 F X St) as (Q3 & _ & [[Ab _]|(e & ds & r1 & rest & A & R & L & Rf & H)]); [discriminate|]. injection A as ->.
  destruct (exec_keep _ _ _ _ F X) as (_ & _ & I3 & _).
  exists e, r1, rest, ds, (seq (length (heap s1)) (length ds)), (seq (length (heap s1) + length ds) (length rest)).
  split; [reflexivity|]. split; [exact R|]. split; [exact Rf|]. split; [rewrite I3, R, app_length, L, seq_app; reflexivity|].
  split; [eapply read_all; exact H|]. split; [eapply read_failed; exact H|]. split; [exact Q3|]. intros k Hk. eapply read_old; eauto.
Qed.
(** after a dispatch or a clear nothing is pending *)
Lemma queue_empty s e s' (o : @output D E) : e = Dispatch \/ e = Clear -> step backend limit s e = (s', o) -> queue s' = [].
Proof.
  intros [->| ->]; cbn [step]; [|intros H; injection H as <- _; reflexivity].
  assert (SA : forall fuel k qs (t : state), queue (fst (submit_all backend fuel k qs t)) = queue t).
  { induction fuel as [|fuel IH]; intros k qs t; destruct qs; cbn [submit_all]; try reflexivity.
    unfold submit_chunk. destruct (backend (log t) _); cbn [fst]; [rewrite IH|]; reflexivity. }
  unfold dispatch. intros H. destruct (queue s) as [|q qs]; [injection H as <- _; reflexivity|].
  set (s1 := {| queue := []; heap := heap s; log := log s; dflt := dflt s |}) in H.
  set (r := match limit with None => _ | Some _ => _ end) in H.
  assert (Qr : queue (fst r) = []). { unfold r. destruct limit as [z|]; [|apply SA]. destruct (z =? 0)%Z; [reflexivity|]. destruct (z <? 0)%Z; [reflexivity|apply SA]. }
  destruct r as [sr [er|]]; injection H as <- _; exact Qr.
Qed.
End proofs.
