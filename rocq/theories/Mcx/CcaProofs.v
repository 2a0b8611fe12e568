From Verif.Mcx Require Import McxModel McxSpec McxProofs RevExec TreeProofs.
Local Open Scope nat_scope.

Section cca.
Variables (qs : list qubit) (t : qubit) (r : nat).
Hypothesis ND : NoDup (t :: qs).
Hypothesis LOW : forall q, In q (t :: qs) -> fst q < r.
Let N := length qs.
Hypothesis HN : 5 <= N.
Let K := N + 1.
Let cq := cc qs r.
Let o := N mod 2.
Lemma J : forall i j, i < K -> j < K -> cq i = cq j -> i = j.
Proof. intros i j _ _ E. exact (cc_inj qs t r ND LOW i j E). Qed.
Lemma o01 : (o = 0 /\ exists h, N = 2 * h) \/ (o = 1 /\ exists h, N = 2 * h + 1).
Proof.
  pose proof (Nat.div_mod N 2 ltac:(lia)) as D. pose proof (Nat.mod_upper_bound N 2 ltac:(lia)) as M. fold o in D, M.
  destruct (Nat.eq_dec o 0); [left|right]; (split; [lia|]); exists (N / 2); lia.
Qed.
Variable v : nat -> bool.
(** the views: after the logical AND and [k] steps of the first loop *)
Definition wA (k x : nat) : bool :=
  if x =? N then v 0 && v 1 else if Nat.odd x && (x <? 2 * k) then xorb (v (x + 2) && v (x + 1)) (v x) else v x.
Definition wB (k x : nat) : bool := if x <? k then negb (wA ((N - 2) / 2) x) else wA ((N - 2) / 2) x.
(** the odd qubits, after the X gates *)
Definition xo (j : nat) : bool := negb (xorb (v (j + 2) && v (j + 1)) (v j)).
(** the even qubits, from the top *)
Let top := N + o - 6.
Definition ytop : bool := xorb (xo (top + 1) && (if o =? 0 then xo (N - 3) else v (N - 1))) (negb (v top)).
Fixpoint Y (m : nat) : bool :=
  match m with O => ytop | S m' => xorb (Y m' && xo (top - 2 * m' - 1)) (negb (v (top - 2 * m' - 2))) end.
Definition wC (k x : nat) : bool := if Nat.even x && (x <=? top) && (2 * k <=? x) then Y ((top - x) / 2) else wB (N - 2) x.
Let oK := ov cq K.
Lemma start_view s q : s (r, 0) = false -> v = bits qs s -> s q = oK (fun x => if x =? N then false else v x) s q.
Proof.
  intros Hc ->. rewrite <- (ov_id cq K J s q) at 1. apply ov_eq; [exact J|]. intros i Hi. unfold bits, cq, cc. fold N.
  destruct (Nat.ltb_spec i N), (Nat.eqb_spec i N); try lia; [reflexivity|]. subst. rewrite Nat.sub_diag. exact Hc.
Qed.
Lemma cqc i : i < N -> c_ qs i = cq i.
Proof. intros H. unfold cq. rewrite cc_c by exact H. reflexivity. Qed.
Lemma cqa : (r, 0) = cq N.
Proof. unfold cq. pose proof (cc_r qs r 0) as E. rewrite Nat.add_0_r in E. symmetry. exact E. Qed.
Lemma odd_lt_half k x : Nat.odd x = true -> (x <? 2 * S k) = (x <? 2 * k) || (x =? 2 * k + 1).
Proof.
  intros H. apply Nat.odd_spec in H as (h & ->). destruct (Nat.ltb_spec (2 * h + 1) (2 * S k)), (Nat.ltb_spec (2 * h + 1) (2 * k)), (Nat.eqb_spec (2 * h + 1) (2 * k + 1)); try reflexivity; lia.
Qed.
Lemma wB_even x : x < N - 2 -> Nat.even x = true -> wB (N - 2) x = negb (v x).
Proof.
  intros H E. unfold wB, wA. destruct (Nat.ltb_spec x (N - 2)); [|lia]. destruct (Nat.eqb_spec x N); [lia|].
  rewrite <- Nat.negb_even, E. reflexivity.
Qed.
Lemma wB_odd x : x < N - 2 -> Nat.odd x = true -> wB (N - 2) x = xo x.
Proof.
  intros H E. unfold wB, wA, xo. destruct (Nat.ltb_spec x (N - 2)); [|lia]. destruct (Nat.eqb_spec x N); [lia|].
  rewrite E. destruct (Nat.ltb_spec x (2 * ((N - 2) / 2))) as [|Hge]; [reflexivity|].
  pose proof (Nat.div_mod (N - 2) 2 ltac:(lia)). pose proof (Nat.mod_upper_bound (N - 2) 2 ltac:(lia)). apply Nat.odd_spec in E as (h & ->). lia.
Qed.
Lemma top_even : exists h, top = 2 * h.
Proof. unfold top. destruct o01 as [[-> (h & ->)]|[-> (h & ->)]]; [exists (h - 3)|exists (h - 2)]; lia. Qed.

Lemma cca_ok s : rexec (cca_mcx qs (r, 0)) (oK (fun x => if x =? N then false else v x) s) (oK (wC 0) s).
Proof.
  unfold cca_mcx. fold N. fold o. pose proof J as J'. pose proof o01 as O. destruct top_even as (ht & Ht).
  pose proof (Nat.div_mod (N - 2) 2 ltac:(lia)) as D2. pose proof (Nat.mod_upper_bound (N - 2) 2 ltac:(lia)) as M2.
  eapply rexec_app; [|eapply rexec_app; [|eapply rexec_app; [|eapply rexec_app]]].
  - rewrite (cqc 0), (cqc 1), cqa by lia. apply (view_gand cq K J') with (w := wA 0); try (unfold K; lia).
    + rewrite Nat.eqb_refl. reflexivity.
    + intros x Hx. unfold wA. destruct (Nat.eqb_spec x N); [|rewrite Nat.mul_0_r; destruct (Nat.ltb_spec x 0); [lia|]; rewrite andb_false_r; reflexivity].
      destruct (Nat.eqb_spec 0 N), (Nat.eqb_spec 1 N); try lia. reflexivity.
  - apply (rexec_loop 0 ((N - 2) / 2) ((N - 2) / 2) _ (fun k => oK (wA k) s)); [lia|]. intros k Hk. rewrite !cqc by lia. apply (view_pt2 cq K J'); try (unfold K; lia).
    intros x Hx. unfold wA. destruct (Nat.eqb_spec x N) as [->|].
    + destruct (Nat.eqb_spec N (2 * k + 1)); [lia|]. reflexivity.
    + destruct (Nat.eqb_spec (2 * k + 3) N), (Nat.eqb_spec (2 * k + 2) N), (Nat.eqb_spec (2 * k + 1) N); try lia.
      destruct (Nat.ltb_spec (2 * k + 3) (2 * k)), (Nat.ltb_spec (2 * k + 2) (2 * k)), (Nat.ltb_spec (2 * k + 1) (2 * k)); try lia. rewrite !andb_false_r.
      destruct (Nat.odd x) eqn:Eo; cbn [andb].
      * rewrite (odd_lt_half k x Eo). destruct (Nat.eqb_spec x (2 * k + 1)) as [->|].
        -- rewrite orb_true_r. replace (2 * k + 1 + 2) with (2 * k + 3) by lia. replace (2 * k + 1 + 1) with (2 * k + 2) by lia. reflexivity.
        -- rewrite orb_false_r. reflexivity.
      * destruct (Nat.eqb_spec x (2 * k + 1)) as [->|]; [|reflexivity]. rewrite Nat.add_1_r, Nat.odd_succ, Nat.even_mul in Eo. discriminate.
  - apply (rexec_ext _ (oK (wB 0) s) (oK (wB (N - 2)) s)); [|reflexivity|].
    + intros q. apply ov_eq; [exact J'|]. intros i Hi. unfold wB. destruct (Nat.ltb_spec i 0); [lia|]. reflexivity.
    + apply (rexec_loop 0 (N - 2) (N - 2) _ (fun k => oK (wB k) s)); [lia|]. intros k Hk. rewrite !cqc by lia. apply (view_x cq K J'); [unfold K; lia|].
      intros x Hx. unfold wB. destruct (Nat.eqb_spec x k) as [->|].
      * destruct (Nat.ltb_spec k (S k)), (Nat.ltb_spec k k); try lia. reflexivity.
      * destruct (Nat.ltb_spec x (S k)), (Nat.ltb_spec x k); try lia; reflexivity.
  - assert (H6 : 6 <=? N + o = true) by (apply Nat.leb_le; destruct O as [[? (h & E)]|[? _]]; lia). rewrite H6.
    assert (Eb : N + o - 5 = top + 1) by (unfold top; apply Nat.leb_le in H6; lia). assert (Ec : N + o - 6 = top) by reflexivity. rewrite Eb, Ec.
    assert (Ha : N + 2 * o - 3 < N) by (destruct O as [[? _]|[? _]]; lia).
    assert (Hb : top + 1 < N - 2) by (unfold top; destruct O as [[? _]|[? _]]; lia).
    rewrite !cqc by lia. apply (view_pt2 cq K J') with (w := wC ht); try (unfold K; lia).
    { intros x Hx. unfold wC. assert (Et : Nat.even top = true) by (apply Nat.even_spec; exists ht; exact Ht).
      assert (Eo : Nat.odd (top + 1) = true) by (rewrite Nat.add_1_r, Nat.odd_succ; exact Et).
      destruct (Nat.eqb_spec x top) as [->|Nx].
      * rewrite Et, Nat.leb_refl, Ht, Nat.leb_refl. cbn [andb]. rewrite Nat.sub_diag. cbn [Nat.div Nat.divmod fst Y]. rewrite <- Ht. unfold ytop.
        change (fst (Nat.divmod 0 1 0 1)) with 0. cbn [Y]. unfold ytop. rewrite (wB_odd (top + 1) Hb Eo), (wB_even top) by (lia || exact Et). f_equal. f_equal.
        destruct O as [[Eoo (h & E)]|[Eoo (h & E)]]; rewrite Eoo; cbn [Nat.eqb].
        -- rewrite wB_odd; [f_equal; lia|lia|]. apply Nat.odd_spec. exists (h - 2). lia.
        -- unfold wB, wA. replace (N + 2 * 1 - 3) with (N - 1) by lia. destruct (Nat.ltb_spec (N - 1) (N - 2)); [lia|]. destruct (Nat.eqb_spec (N - 1) N); [lia|].
           destruct (Nat.ltb_spec (N - 1) (2 * ((N - 2) / 2))); [lia|]. rewrite andb_false_r. reflexivity.
      * destruct (Nat.leb_spec x top), (Nat.leb_spec (2 * ht) x); try lia; rewrite ?andb_false_r; cbn; rewrite ?andb_false_r; reflexivity. }
  - apply rexec_inv. assert (En : (N + o - 5) / 2 = ht).
    { replace (N + o - 5) with (ht * 2 + 1) by (unfold top in Ht; destruct O as [[? (h & E)]|[? (h & E)]]; lia). rewrite Nat.div_add_l by lia. apply Nat.add_0_r. }
    rewrite En. apply (rexec_loop 0 ht ht _ (fun k => oK (wC k) s)); [lia|]. intros k Hk.
    assert (Htop : top < N - 2) by (unfold top; destruct O as [[? _]|[? _]]; lia).
    rewrite !cqc by lia. apply (view_pt2 cq K J'); try (unfold K; lia).
    assert (Ee : forall j, Nat.even (2 * j) = true) by (intros; apply Nat.even_spec; eexists; reflexivity).
    assert (Eo : Nat.odd (2 * k + 1) = true) by (rewrite Nat.add_1_r, Nat.odd_succ; apply Ee).
    intros x Hx. unfold wC. destruct (Nat.eqb_spec x (2 * k)) as [->|Nx].
    + rewrite Ee. replace (2 * k + 2) with (2 * S k) by lia. rewrite Ee. rewrite <- Nat.negb_odd, Eo. cbn [negb andb].
      destruct (Nat.leb_spec (2 * k) top), (Nat.leb_spec (2 * S k) (2 * k)), (Nat.leb_spec (2 * S k) top), (Nat.leb_spec (2 * k) (2 * S k)), (Nat.leb_spec (2 * k) (2 * k)); try lia.
      cbn [andb]. rewrite (wB_even (2 * k)), (wB_odd (2 * k + 1)) by (lia || auto).
      replace ((top - 2 * k) / 2) with (S ((top - 2 * S k) / 2)).
      * cbn [Y]. assert (Em : top - 2 * ((top - 2 * S k) / 2) - 2 = 2 * k /\ top - 2 * ((top - 2 * S k) / 2) - 1 = 2 * k + 1).
        { replace (top - 2 * S k) with ((ht - S k) * 2) by lia. rewrite Nat.div_mul by lia. lia. }
        destruct Em as [-> ->]. destruct (Y _), (xo _), (v (2 * k)); reflexivity.
      * replace (top - 2 * S k) with ((ht - S k) * 2) by lia. replace (top - 2 * k) with ((ht - k) * 2) by lia. rewrite !Nat.div_mul by lia. lia.
    + destruct (Nat.even x) eqn:Ex; cbn [andb]; [|reflexivity]. apply Nat.even_spec in Ex as (h & ->).
      destruct (Nat.leb_spec (2 * S k) (2 * h)), (Nat.leb_spec (2 * k) (2 * h)); try lia; reflexivity.
Qed.
Lemma cca_free : free t (cca_mcx qs (r, 0)).
Proof.
  pose proof (t_low qs t r LOW) as L. assert (R : (r, 0) <> t) by (intros E; rewrite <- E in L; cbn in L; lia).
  assert (C : forall i, i < N -> c_ qs i <> t) by (intros; apply c_t; assumption). pose proof o01 as O.
  pose proof (Nat.div_mod (N - 2) 2 ltac:(lia)) as D2. pose proof (Nat.mod_upper_bound (N - 2) 2 ltac:(lia)) as M2.
  unfold cca_mcx. fold N. fold o. apply free_app; [|apply free_app; [|apply free_app; [|apply free_app]]].
  - constructor; [|constructor]. cbn. repeat split; [apply C; lia|apply C; lia|exact R].
  - apply free_loop. intros k Hk. apply free_pt2; apply C; lia.
  - apply free_loop. intros k Hk. constructor; [|constructor]. apply C. lia.
  - destruct (Nat.leb_spec 6 (N + o)); [|constructor]. apply free_pt2; apply C; destruct O as [[? _]|[? _]]; lia.
  - apply free_inv, free_loop. intros k Hk. pose proof (Nat.div_mod (N + o - 5) 2 ltac:(lia)). apply free_pt2; apply C; destruct O as [[? _]|[? _]]; lia.
Qed.
(** from the top down, every even qubit stands for all later ones *)
Lemma and_from_top m ht : top = 2 * ht -> m <= ht -> Y m && v (top - 2 * m) && v (top - 2 * m + 1) = forallb v (seq (top - 2 * m) (N - (top - 2 * m))).
Proof.
  intros Ht Hm. induction m as [|m IH].
  - rewrite Nat.mul_0_r, Nat.sub_0_r. cbn [Y]. unfold ytop, xo. destruct o01 as [[Eo (h & E)]|[Eo (h & E)]]; rewrite Eo; cbn [Nat.eqb].
    + replace (N - top) with 6 by (unfold top; lia). cbn [seq forallb]. replace (N - 3) with (S (S (S top))) by (unfold top; lia).
      replace (top + 1 + 2) with (S (S (S top))) by lia. replace (top + 1 + 1) with (S (S top)) by lia. replace (top + 1) with (S top) by lia.
      replace (S (S (S top)) + 2) with (S (S (S (S (S top))))) by lia. replace (S (S (S top)) + 1) with (S (S (S (S top)))) by lia.
      destruct (v top), (v (S top)), (v (S (S top))), (v (S (S (S top)))), (v (S (S (S (S top))))), (v (S (S (S (S (S top)))))); reflexivity.
    + replace (N - top) with 5 by (unfold top; lia). cbn [seq forallb]. replace (N - 1) with (S (S (S (S top)))) by (unfold top; lia).
      replace (top + 1 + 2) with (S (S (S top))) by lia. replace (top + 1 + 1) with (S (S top)) by lia. replace (top + 1) with (S top) by lia.
      destruct (v top), (v (S top)), (v (S (S top))), (v (S (S (S top)))), (v (S (S (S (S top))))); reflexivity.
  - specialize (IH ltac:(lia)). assert (top < N) by (unfold top; destruct o01 as [[? _]|[? _]]; lia).
    replace (N - (top - 2 * S m)) with (S (S (N - (top - 2 * m)))) by lia. cbn [seq forallb].
    replace (S (S (top - 2 * S m))) with (top - 2 * m) by lia. rewrite <- IH. cbn [Y]. unfold xo.
    replace (top - 2 * m - 1 + 2) with (top - 2 * m + 1) by lia. replace (top - 2 * m - 1 + 1) with (top - 2 * m) by lia.
    replace (top - 2 * m - 1) with (S (top - 2 * S m)) by lia. replace (top - 2 * m - 2) with (top - 2 * S m) by lia. replace (top - 2 * S m + 1) with (S (top - 2 * S m)) by lia.
    destruct (Y m), (v (top - 2 * m)), (v (top - 2 * m + 1)), (v (S (top - 2 * S m))), (v (top - 2 * S m)); reflexivity.
Qed.
Lemma cca_value : wC 0 N && wC 0 0 = forallb v (seq 0 N).
Proof.
  destruct top_even as (ht & Ht). pose proof (and_from_top ht ht Ht (le_n ht)) as A. rewrite <- Ht, Nat.sub_diag in A. rewrite Nat.sub_0_r, Nat.add_0_l in A. rewrite <- A.
  unfold wC. rewrite Nat.mul_0_r. change (Nat.even 0) with true. cbn [Nat.leb andb]. rewrite Nat.sub_0_r. assert (Hd : top / 2 = ht) by (rewrite Ht, Nat.mul_comm; apply Nat.div_mul; lia). rewrite Hd.
  assert (top < N) by (unfold top; destruct o01 as [[? _]|[? _]]; lia). destruct (Nat.leb_spec N top); [lia|]. rewrite andb_false_r. cbn [andb].
  unfold wB, wA. destruct (Nat.ltb_spec N (N - 2)); [lia|]. rewrite Nat.eqb_refl. destruct (v 0), (v 1), (Y ht); reflexivity.
Qed.
End cca.

Lemma khattar_mcx_1_ok (qs : list qubit) t r (s : bstate) : NoDup (t :: qs) -> (forall q, In q (t :: qs) -> fst q < r) -> qs <> [] -> length qs <> 4 -> s (r, 0) = false ->
  forall p, exec (khattar_mcx_1 qs t (r, 0)) (p, s) (p, upd s t (xorb (all_set s qs) (s t))).
Proof.
  intros ND LOW Hne H4 Hc p. unfold khattar_mcx_1. cbv zeta. set (N := length qs). destruct (Nat.eqb_spec N 0) as [E|H0]; [destruct qs; [congruence|discriminate]|].
  destruct (Nat.eqb_spec N 1) as [E|H1].
  - unfold N in E. destruct qs as [|a [|? ?]]; try discriminate. eapply exec_cons; [reflexivity|]. apply exec_nil. intros q. cbn [all_set forallb c_ nth]. rewrite andb_true_r. reflexivity.
  - destruct (Nat.eqb_spec N 2) as [E|H2].
    + unfold N in E. destruct qs as [|a [|b [|? ?]]]; try discriminate. eapply exec_cons; [reflexivity|]. apply exec_nil. reflexivity.
    + destruct (Nat.eqb_spec N 3) as [E|H3]; [eapply exec_cons; [reflexivity|]; apply exec_nil; reflexivity|].
      destruct (Nat.eqb_spec N 4) as [E|_]; [contradiction|]. assert (HN : 5 <= length qs) by (unfold N in *; lia).
      pose proof (t_low qs t r LOW) as L. assert (R : forall i, (r, i) <> t) by (intros i E; rewrite <- E in L; cbn in L; lia).
      eapply exec_app; [|eapply exec_cons; [apply step_del; rewrite upd_other by apply R; exact Hc|]; apply exec_nil; reflexivity].
      pose proof (cca_ok qs t r ND LOW HN (bits qs s) s) as HR.
      eapply (conjugate_ok _ _ t _ s); [apply cca_free; assumption| |].
      * eapply rexec_ext; [|reflexivity|exact HR]. intros q. symmetry. apply (start_view qs t r ND LOW HN); [exact Hc|reflexivity].
      * intros p'. eapply exec_cons; [reflexivity|]. apply exec_nil. intros q. cbn [all_set forallb].
        rewrite (ov_out _ _ _ _ t) by (intros; apply (cc_t qs t r ND LOW)).
        pose proof (cca_value qs r HN (bits qs s)) as V. rewrite all_bits in V. rewrite <- V.
        rewrite (cqa qs r), (cqc qs r 0) by (fold N; lia).
        rewrite !ov_get by (lia || apply (J qs t r ND LOW)). rewrite andb_true_r. reflexivity.
Qed.
Theorem khattar_ok cs t r (s : bstate) : valid cs t -> before r cs t -> cs <> [] -> length cs <> 4 -> clean_from r s -> flips_iff (khattar_mcx cs t (r, 0)) cs t s.
Proof.
  intros V B Hne H4 Hc. unfold khattar_mcx. apply wrap_flips; [exact V|]. apply khattar_mcx_1_ok.
  - destruct V. constructor; assumption.
  - exact B.
  - destruct cs; [congruence|discriminate].
  - rewrite map_length. exact H4.
  - rewrite fl_out by (apply (before_low r cs t B)). apply Hc. lia.
Qed.

(** * four controls *)
Section four.
Variables (a b c d t anc : qubit).
Hypothesis ND : NoDup [a; b; c; d; t; anc].
Let pos (i : nat) : qubit := nth i [a; b; c; d; t; anc] (0, 0).
Lemma pos_inj i j : i < 6 -> j < 6 -> pos i = pos j -> i = j.
Proof. intros Hi Hj E. exact (proj1 (NoDup_nth [a; b; c; d; t; anc] (0, 0)) ND i j Hi Hj E). Qed.
Definition prog4 : list gate := cca_4ctrls [(0, 0); (0, 1); (0, 2); (0, 3)] (0, 4) (0, 5).
Definition st6 (x0 x1 x2 x3 x4 : bool) : bstate := fun q => nth (snd q) [x0; x1; x2; x3; x4; false] false.
(** the phase of four controls *)
Definition phase4 (x0 x1 x2 x3 x4 : bool) : Z :=
  match run prog4 (0%Z, st6 x0 x1 x2 x3 x4) with Some (p, _) => p | None => 0%Z end.
Lemma phase4_mod x0 x1 x2 x3 x4 : (phase4 x0 x1 x2 x3 x4 mod 8 = if negb x1 && xorb x2 x3 then 4 else 0)%Z.
Proof. destruct x0, x1, x2, x3, x4; vm_compute; reflexivity. Qed.
Lemma run_shift l : forall p s d, match run l (p, s) with Some (p', s') => run l ((d + p)%Z, s) = Some ((d + p')%Z, s') | None => run l ((d + p)%Z, s) = None end.
Proof.
  induction l as [|g l IH]; intros p s e; cbn [run]; [reflexivity|].
  assert (H : step g ((e + p)%Z, s) = match step g (p, s) with Some (p', s') => Some ((e + p')%Z, s') | None => None end).
  { destruct g; cbn [step]; try reflexivity; rewrite ?Z.add_assoc; try reflexivity.
    - destruct (eqb (s t0) (s c1 && s c2)); reflexivity.
    - destruct (s q); reflexivity. }
  rewrite H. destruct (step g (p, s)) as [[p1 s1]|]; [apply IH|reflexivity].
Qed.
Lemma run4 x0 x1 x2 x3 x4 p : exists w, run prog4 (p, st6 x0 x1 x2 x3 x4) = Some ((p + phase4 x0 x1 x2 x3 x4)%Z, w) /\
  forall i, i < 6 -> w (0, i) = nth i [x0; x1; x2; x3; xorb (x0 && x1 && x2 && x3) x4; false] false.
Proof.
  pose proof (run_shift prog4 0%Z (st6 x0 x1 x2 x3 x4) p) as H. rewrite Z.add_0_r in H. unfold phase4.
  destruct (run prog4 (0%Z, st6 x0 x1 x2 x3 x4)) as [[p' w]|] eqn:R.
  - exists w. split; [exact H|]. clear H p. intros i Hi. 
    assert (E : forall j, match run prog4 (0%Z, st6 x0 x1 x2 x3 x4) with Some (_, w) => w (0, j) | None => false end = w (0, j)) by (intros; rewrite R; reflexivity).
    rewrite <- E. clear - Hi. destruct i as [|[|[|[|[|[|i]]]]]]; [| | | | | |lia]; destruct x0, x1, x2, x3, x4; vm_compute; reflexivity.
  - exfalso. destruct x0, x1, x2, x3, x4; vm_compute in R; discriminate.
Qed.
Definition st6' (x0 x1 x2 x3 x4 : bool) : bstate := st6 x0 x1 x2 x3 (xorb (x0 && x1 && x2 && x3) x4).
Lemma run4_inv x0 x1 x2 x3 x4 p : exists w, run (inv prog4) (p, st6' x0 x1 x2 x3 x4) = Some ((p - phase4 x0 x1 x2 x3 x4)%Z, w) /\
  forall i, i < 6 -> w (0, i) = nth i [x0; x1; x2; x3; x4; false] false.
Proof.
  pose proof (run_shift (inv prog4) 0%Z (st6' x0 x1 x2 x3 x4) p) as H. rewrite Z.add_0_r in H.
  destruct (run (inv prog4) (0%Z, st6' x0 x1 x2 x3 x4)) as [[p' w]|] eqn:R.
  - exists w. assert (Ep : match run (inv prog4) (0%Z, st6' x0 x1 x2 x3 x4) with Some (p, _) => p | None => 0%Z end = p') by (rewrite R; reflexivity).
    assert (E : forall j, match run (inv prog4) (0%Z, st6' x0 x1 x2 x3 x4) with Some (_, w) => w (0, j) | None => false end = w (0, j)) by (intros; rewrite R; reflexivity).
    replace (p - phase4 x0 x1 x2 x3 x4)%Z with (p + p')%Z; [split; [exact H|]|].
    + intros i Hi. rewrite <- E. clear - Hi. destruct i as [|[|[|[|[|[|i]]]]]]; [| | | | | |lia]; destruct x0, x1, x2, x3, x4; vm_compute; reflexivity.
    + rewrite <- Ep. clear. assert (Em : match run (inv prog4) (0%Z, st6' x0 x1 x2 x3 x4) with Some (p, _) => p | None => 0%Z end = (- phase4 x0 x1 x2 x3 x4)%Z)
        by (destruct x0, x1, x2, x3, x4; vm_compute; reflexivity). lia.
  - exfalso. destruct x0, x1, x2, x3, x4; vm_compute in R; discriminate.
Qed.
Lemma four_ok (s : bstate) p : s anc = false -> exec (cca_4ctrls [a; b; c; d] t anc) (p, s)
  ((p + phase4 (s a) (s b) (s c) (s d) (s t))%Z, upd s t (xorb (s a && s b && s c && s d) (s t))).
Proof.
  intros Hc. destruct (run4 (s a) (s b) (s c) (s d) (s t) p) as (w & R & W).
  change (cca_4ctrls [a; b; c; d] t anc) with (map (place pos) prog4).
  eapply exec_post; [|apply (place_exec pos 6 pos_inj prog4 s p _ (st6 (s a) (s b) (s c) (s d) (s t)) w eq_refl); [|exact R]].
  - intros q. destruct (ov_case pos 6 q) as [(i & Hi & <-)|Hn].
    + rewrite ov_get by (exact pos_inj || exact Hi). rewrite W by exact Hi. unfold upd. change t with (pos 4) at 2.
      destruct (qeq_spec (pos i) (pos 4)) as [E|E].
      * apply pos_inj in E; [|exact Hi|lia]. subst i. reflexivity.
      * destruct i as [|[|[|[|[|[|i]]]]]]; try reflexivity; [congruence|symmetry; exact Hc|lia].
    + rewrite ov_out by exact Hn. symmetry. apply upd_other. intros ->. apply (Hn 4); [lia|reflexivity].
  - intros i Hi. destruct i as [|[|[|[|[|[|i]]]]]]; try reflexivity; [exact Hc|lia].
Qed.
Lemma four_rexec (s : bstate) : s anc = false -> rexec (cca_4ctrls [a; b; c; d] t anc) s (upd s t (xorb (s a && s b && s c && s d) (s t))).
Proof.
  intros Hc. exists (phase4 (s a) (s b) (s c) (s d) (s t)). split; [intros p; apply four_ok, Hc|]. intros p.
  destruct (run4_inv (s a) (s b) (s c) (s d) (s t) p) as (w & R & W). set (s' := upd s t _).
  assert (N0 : forall i, i < 6 -> i <> 4 -> pos i <> t).
  { intros i Hi H4 E. apply H4. apply pos_inj; [exact Hi|lia|exact E]. }
  change (inv (cca_4ctrls [a; b; c; d] t anc)) with (map (place pos) (inv prog4)).
  eapply exec_post; [|apply (place_exec pos 6 pos_inj (inv prog4) s' p _ (st6' (s a) (s b) (s c) (s d) (s t)) w eq_refl); [|exact R]].
  - intros q. destruct (ov_case pos 6 q) as [(i & Hi & <-)|Hn].
    + rewrite ov_get by (exact pos_inj || exact Hi). rewrite W by exact Hi.
      destruct i as [|[|[|[|[|[|i]]]]]]; try reflexivity; [symmetry; exact Hc|lia].
    + rewrite ov_out by exact Hn. apply upd_other. intros ->. apply (Hn 4); [lia|reflexivity].
  - intros i Hi. destruct (Nat.eq_dec i 4) as [->|Ni].
    + unfold s'. change (pos 4) with t. rewrite upd_same. reflexivity.
    + unfold s'. rewrite upd_other by (apply N0; assumption). destruct i as [|[|[|[|[|[|i]]]]]]; try reflexivity; [congruence|exact Hc|lia].
Qed.
End four.

Lemma four_list (qs : list qubit) : length qs = 4 -> exists a b c d, qs = [a; b; c; d].
Proof. destruct qs as [|a [|b [|c [|d [|? ?]]]]]; try discriminate. intros _. exists a, b, c, d. reflexivity. Qed.
Lemma four_nodup a b c d t r : NoDup [t; a; b; c; d] -> (forall q, In q [t; a; b; c; d] -> fst q < r) -> NoDup [a; b; c; d; t; (r, 0)].
Proof.
  intros H L. assert (R : forall q, In q [t; a; b; c; d] -> q <> (r, 0)) by (intros q Hq ->; specialize (L _ Hq); cbn in L; lia).
  pose proof (R a) as Ra. pose proof (R b) as Rb. pose proof (R c) as Rc. pose proof (R d) as Rd. pose proof (R t) as Rt. cbn [In] in Ra, Rb, Rc, Rd, Rt.
  repeat match goal with H : NoDup (_ :: _) |- _ => inversion H; clear H; subst end. cbn [In] in *.
  repeat constructor; cbn [In]; intuition congruence.
Qed.
Lemma khattar_mcp_1_ok (qs : list qubit) t r (s : bstate) : NoDup (t :: qs) -> (forall q, In q (t :: qs) -> fst q < r) -> qs <> [] -> s (r, 0) = false -> s t = false ->
  let '(u, q, u') := khattar_mcp_1 qs t (r, 0) in forall p, exists p1 s1, exec u (p, s) (p1, s1) /\ s1 q = all_set s qs /\ exec u' (p1, s1) (p, s).
Proof.
  intros ND LOW Hne Hc Hst. unfold khattar_mcp_1. cbv zeta. set (N := length qs).
  assert (H0 : N <> 0) by (intros E; destruct qs; [congruence|discriminate]).
  destruct (Nat.eqb_spec N 1) as [E|H1].
  - intros p. exists p, s. split; [apply exec_nil; reflexivity|]. split; [|apply exec_nil; reflexivity]. unfold N in E. destruct qs as [|a [|? ?]]; try discriminate.
    cbn. rewrite andb_true_r. reflexivity.
  - assert (G : exists s1, rexec (if N =? 2 then pt2 (c_ qs 0) (c_ qs 1) t else if N =? 3 then [MCX qs t] else if N =? 4 then cca_4ctrls qs t (r, 0)
             else cca_mcx qs (r, 0) ++ [MCX [(r, 0); c_ qs 0] t]) s s1 /\ s1 t = all_set s qs).
    { assert (Ht : ~ In t qs) by exact (proj1 (proj1 (NoDup_cons_iff t qs) ND)).
      destruct (Nat.eqb_spec N 2) as [E|H2].
      { eexists. split; [apply rexec_pt2; apply (c_t qs t ND); fold N; lia|]. rewrite upd_same, Hst, xorb_false_r.
        unfold N in E. destruct qs as [|a [|b [|? ?]]]; try discriminate. cbn. rewrite andb_true_r. reflexivity. }
      destruct (Nat.eqb_spec N 3) as [E|H3].
      { eexists. split; [apply rexec_mcx; exact Ht|]. rewrite upd_same, Hst, xorb_false_r. reflexivity. }
      destruct (Nat.eqb_spec N 4) as [E|H4].
      { destruct (four_list qs E) as (a & b & c & d & ->). eexists. split; [apply four_rexec; [apply four_nodup; assumption|exact Hc]|].
        rewrite upd_same, Hst, xorb_false_r. cbn. rewrite andb_true_r, !andb_assoc. reflexivity. }
      assert (HN : 5 <= length qs) by (fold N; lia). pose proof (cca_ok qs t r ND LOW HN (bits qs s) s) as HR.
      eexists. split.
      - eapply rexec_app; [eapply rexec_ext; [|reflexivity|exact HR]; intros q; symmetry; apply (start_view qs t r ND LOW HN); [exact Hc|reflexivity]|].
        apply rexec_mcx. cbn [In]. pose proof (t_low qs t r LOW) as L. intros [E|[E|[]]]; [rewrite <- E in L; cbn in L; lia|].
        apply (c_t qs t ND 0); [fold N; lia|exact E].
      - rewrite upd_same, (ov_out _ _ _ _ t), Hst, xorb_false_r by (intros; apply (cc_t qs t r ND LOW)).
        pose proof (cca_value qs r HN (bits qs s)) as V. rewrite all_bits in V. rewrite <- V. cbn [all_set forallb].
        rewrite (cqa qs r), (cqc qs r 0) by (fold N; lia).
        rewrite !ov_get by (lia || apply (J qs t r ND LOW)). rewrite andb_true_r. reflexivity. }
    destruct G as (s1 & (d & A & B) & V). intros p. eexists _, _. split; [apply A|]. split; [exact V|].
    specialize (B (p + d)%Z). replace (p + d - d)%Z with p in B by lia. eapply exec_app; [exact B|].
    destruct (N <=? 4); [apply exec_nil; reflexivity|]. eapply exec_cons; [apply step_del; exact Hc|]. apply exec_nil. reflexivity.
Qed.
Theorem khattar_mcp_ok cs t r (s : bstate) : valid cs t -> before r cs t -> cs <> [] -> clean_from r s -> s t = false ->
  let '(u, q, u') := khattar_mcp cs t (r, 0) in phase_iff u [q] u' cs s.
Proof.
  intros V B Hne Hc Hst. unfold khattar_mcp. destruct V as [ND Ht].
  pose proof (khattar_mcp_1_ok (map fst cs) t r (fl cs s) (NoDup_cons t Ht ND) B) as H. destruct (khattar_mcp_1 (map fst cs) t (r, 0)) as [[u q] u'].
  apply wrap_phase; [split; assumption|exact Hst|]. apply H.
  - destruct cs; [congruence|discriminate].
  - rewrite fl_out by (apply (before_low r cs t B)). apply Hc. lia.
  - rewrite fl_out by exact Ht. exact Hst.
Qed.
(** four controls: right bits, and a phase that is wrong on some states *)
Theorem khattar_four cs t r (s : bstate) : valid cs t -> before r cs t -> length cs = 4 -> clean_from r s ->
  exists d : Z, (d mod 8 = if negb (fl cs s (nth 1 (map fst cs) t)) && xorb (fl cs s (nth 2 (map fst cs) t)) (fl cs s (nth 3 (map fst cs) t)) then 4 else 0)%Z /\
  forall p : Z, exec (khattar_mcx cs t (r, 0)) (p, s) ((p + d)%Z, upd s t (xorb (matches s cs) (s t))).
Proof.
  intros [ND Ht] B H4 Hc. assert (E4 : length (map fst cs) = 4) by (rewrite map_length; exact H4). destruct (four_list (map fst cs) E4) as (a & b & c & d & E).
  unfold khattar_mcx. pose proof (fl_all cs s ND) as M. pose proof (before_low r cs t B 0) as LOW0. pose proof (NoDup_cons t Ht ND) as ND'. unfold before in B. rewrite E in *.
  cbn [nth]. exists (phase4 (fl cs s a) (fl cs s b) (fl cs s c) (fl cs s d) (fl cs s t)). split; [apply phase4_mod|]. intros p.
  change (khattar_mcx_1 [a; b; c; d] t (r, 0)) with (cca_4ctrls [a; b; c; d] t (r, 0)).
  apply exec_wrap'; [rewrite E; exact Ht|]. intros p'. eapply exec_post; [|apply four_ok; [apply four_nodup; assumption|]].
  - intros q. rewrite <- M. cbn [all_set forallb]. rewrite andb_true_r, !andb_assoc. rewrite (fl_out cs s t) by (rewrite E; exact Ht). reflexivity.
  - rewrite fl_out by (rewrite E; exact LOW0). apply Hc. lia.
Qed.
