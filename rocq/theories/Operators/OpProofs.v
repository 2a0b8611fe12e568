(** Algebra of Pauli and fermionic operators: associativity, adjoints of products, fermionic arithmetic. *)
From Coq Require Import Permutation Ring.
From Verif.Operators Require Import FermiModel FermiSpec PauliSpec PauliProofs CommuteProofs FermiProofs.
Local Open Scope nat_scope.
Add Ring gaussian4 : gring.

Lemma mprod_ext n A A' B B' r c : (forall r c, length r = n -> length c = n -> A r c = A' r c) -> (forall r c, length r = n -> length c = n -> B r c = B' r c) ->
  length r = n -> length c = n -> mprod n A B r c = mprod n A' B' r c.
Proof.
  intros HA HB Lr Lc. unfold mprod. apply gsum_ext. intros m Hm. apply bitstrings_In in Hm. rewrite HA, HB by assumption. reflexivity.
Qed.
Lemma mprod_assoc n A B C r c : mprod n (mprod n A B) C r c = mprod n A (mprod n B C) r c.
Proof.
  unfold mprod. transitivity (gsum (bitstrings n) (fun m => gsum (bitstrings n) (fun k => gmul (gmul (A r k) (B k m)) (C m c)))).
  - apply gsum_ext. intros m _. rewrite gsum_scale_r. reflexivity.
  - rewrite gsum_swap. apply gsum_ext. intros k _. rewrite <- gsum_scale. apply gsum_ext. intros m _. ring.
Qed.
Lemma omul_assoc n ord a b d : enumerates ord -> owithin n a -> owithin n b -> owithin n d ->
  same_on n (omat n (omul ord (omul ord a b) d)) (omat n (omul ord a (omul ord b d))).
Proof.
  intros En Wa Wb Wd r c Lr Lc.
  rewrite (omul_ok n ord (omul ord a b) d En (owithin_omul n ord a b En Wa Wb) Wd r c Lr Lc), (omul_ok n ord a (omul ord b d) En Wa (owithin_omul n ord b d En Wb Wd) r c Lr Lc).
  rewrite (mprod_ext n _ (mprod n (omat n a) (omat n b)) (omat n d) (omat n d)); [|intros; apply omul_ok; assumption|reflexivity|assumption|assumption].
  rewrite (mprod_ext n (omat n a) (omat n a) (omat n (omul ord b d)) (mprod n (omat n b) (omat n d))); [|reflexivity|intros; apply omul_ok; assumption|assumption|assumption].
  apply mprod_assoc.
Qed.
Lemma commute_pauli_ok n ord a b : enumerates ord -> within n a -> within n b -> (forall k, is_pauli (get a k) = true /\ is_pauli (get b k) = true) ->
  commute_pauli ord a b = true <-> commuting n a b.
Proof.
  intros En Wa Wb P. unfold commute_pauli. rewrite (commute_pauli_loop_ok (match commutator ord a b with [] => true | _ => false end) a b (ord a b) P 1).
  exact (commute_ok n ord a b En Wa Wb).
Qed.
Lemma fadj_fadj f : fadj (fadj f) = f. Proof. destruct f; reflexivity. Qed.
Lemma dom_tadj t k : In k (dom (tadj t)) -> In k (dom t).
Proof.
  unfold dom, tadj. induction t as [|[j f] t IH]; cbn; [auto|]. rewrite map_app, in_app_iff. intros [H|H]; [|auto]. left. destruct f; cbn in H; intuition.
Qed.
Lemma nice_tadj t : NoDup (dom t) -> NoDup (dom (tadj t)).
Proof.
  induction t as [|[j f] t IH]; intros H; [exact H|]. inversion H as [|? ? Hj Ht]; subst. cbn [tadj flat_map snd fst]. fold (tadj t). specialize (IH Ht).
  destruct f; cbn [app]; try exact IH; (unfold dom; cbn [map fst]; constructor; [intros Hi; apply Hj; apply dom_tadj; exact Hi|exact IH]).
Qed.
Lemma tadj_tadj t : NoDup (dom t) -> teqb (tadj (tadj t)) t = true.
Proof. intros N. apply teqb_get. intros k. rewrite get_tadj_ok by (apply nice_tadj; exact N). rewrite get_tadj_ok by exact N. apply fadj_fadj. Qed.
Lemma within_tadj n t : within n t -> within n (tadj t).
Proof. intros W k Hk. apply W, dom_tadj, Hk. Qed.
Lemma gconj_gsum {A} (l : list A) f : gconj (gsum l f) = gsum l (fun x => gconj (f x)).
Proof. induction l as [|x l IH]; [reflexivity|]. cbn [gsum]. rewrite gconj_add, IH. reflexivity. Qed.
Lemma tadj_mul n keys keys' a b : covers keys a b -> covers keys' (tadj b) (tadj a) -> within n a -> within n b -> NoDup (dom a) -> NoDup (dom b) ->
  forall r c, length r = n -> length c = n ->
  gmul (snd (tmul keys' (tadj b) (tadj a))) (tmat n (fst (tmul keys' (tadj b) (tadj a))) r c) = gconj (gmul (snd (tmul keys a b)) (tmat n (fst (tmul keys a b)) c r)).
Proof.
  intros Cv Cv' Wa Wb Na Nb r c Lr Lc. rewrite <- (tmul_ok n keys' (tadj b) (tadj a) Cv' (within_tadj n b Wb) (within_tadj n a Wa) r c Lr Lc), <- (tmul_ok n keys a b Cv Wa Wb c r Lc Lr).
  unfold mprod. rewrite gconj_gsum. apply gsum_ext. intros m Hm. apply bitstrings_In in Hm. rewrite !tadj_ok by assumption. rewrite gconj_mul. ring.
Qed.

(** ** fermionic arithmetic *)
Lemma opamp_add_del d t v s s' : opamp (fdict_add_del d t v) s s' = (opamp d s s' + v * amp t s s')%Z.
Proof.
  induction d as [|[t' v'] d IH]; cbn [fdict_add_del].
  - destruct (Z.eqb_spec v 0); [subst; cbn; lia|rewrite opamp_cons; cbn; lia].
  - destruct (fteqb t' t) eqn:E.
    + apply fteqb_eq in E. subst. destruct (Z.eqb_spec (v' + v) 0); rewrite ?opamp_cons; nia.
    + rewrite !opamp_cons, IH. lia.
Qed.
Lemma opamp_fold_add (h : Z -> Z) k (Hh : forall x, h x = (k * x)%Z) l s s' : forall d,
  opamp (fold_left (fun d tc => fdict_add_del d (fst tc) (h (snd tc))) l d) s s' = (opamp d s s' + k * opamp l s s')%Z.
Proof.
  induction l as [|[t v] l IH]; intros d; cbn [fold_left fst snd]; [cbn; lia|]. rewrite IH, opamp_add_del, opamp_cons, Hh. ring.
Qed.
Lemma fadd_ok a b s s' : opamp (fadd a b) s s' = (opamp a s s' + opamp b s s')%Z.
Proof. unfold fadd. rewrite !(opamp_fold_add (fun x => x) 1%Z) by (intros; ring). change (opamp [] s s') with 0%Z. ring. Qed.
Lemma fsub_ok a b s s' : opamp (fsub a b) s s' = (opamp a s s' - opamp b s s')%Z.
Proof. unfold fsub. rewrite (opamp_fold_add Z.opp (-1)%Z) by (intros; ring). rewrite (opamp_fold_add (fun x => x) 1%Z) by (intros; ring). change (opamp [] s s') with 0%Z. ring. Qed.
Lemma zsum_ext l f g : (forall m, In m l -> f m = g m) -> zsum l f = zsum l g.
Proof. unfold zsum. induction l as [|m l IH]; intros H; [reflexivity|]. cbn. rewrite (H m) by (left; reflexivity). rewrite IH; [reflexivity|]. intros x Hx. apply H. right. exact Hx. Qed.
Lemma zsum_add l f g : zsum l (fun m => f m + g m)%Z = (zsum l f + zsum l g)%Z.
Proof. unfold zsum. induction l as [|m l IH]; cbn; [reflexivity|]. rewrite IH. ring. Qed.
Lemma zsum_scale l k f : zsum l (fun m => k * f m)%Z = (k * zsum l f)%Z.
Proof. unfold zsum. induction l as [|m l IH]; cbn; [ring|]. rewrite IH. ring. Qed.
Lemma zsum_0 l : zsum l (fun _ => 0%Z) = 0%Z.
Proof. unfold zsum. induction l as [|m l IH]; cbn [fold_right]; [ring|]. rewrite IH. ring. Qed.
Lemma zsum_indicator l x f : NoDup l -> In x l -> zsum l (fun m => if seqb x m then f m else 0)%Z = f x.
Proof.
  induction l as [|y l IH]; intros ND H; [contradiction|]. inversion ND; subst. unfold zsum in *. cbn [fold_right]. destruct (seqb x y) eqn:E.
  - apply seqb_eq in E. subst. change (f y + zsum l (fun m => if seqb y m then f m else 0) = f y)%Z. rewrite (zsum_ext _ _ (fun _ => 0%Z)), zsum_0; [ring|]. intros z Hz. destruct (seqb y z) eqn:E; [apply seqb_eq in E; subst; contradiction|reflexivity].
  - rewrite IH; [ring|assumption|]. destruct H as [<-|H]; [|exact H]. assert (seqb y y = true) by (apply seqb_eq; reflexivity). congruence.
Qed.
Lemma amp_mul n t1 t2 s s' : length s = n -> amp (fmul t1 t2) s s' = zsum (basis n) (fun m => amp t2 s m * amp t1 m s')%Z.
Proof.
  intros Ls. unfold amp at 1, fmul. rewrite act_app. unfold basis. destruct (act t2 s) as [[sg m0]|] eqn:E.
  - rewrite (zsum_ext _ _ (fun m => if seqb m0 m then (if sg then -1 else 1) * amp t1 m s' else 0)%Z).
    2: { intros m _. unfold amp at 1. rewrite E. destruct (seqb m0 m), sg; ring. }
    rewrite (zsum_indicator _ m0 (fun m => (if sg then -1 else 1) * amp t1 m s')%Z) by (try apply bitstrings_NoDup; apply bitstrings_In; rewrite (act_length _ _ _ _ E); exact Ls).
    unfold amp. destruct (act t1 m0) as [[sg' s'']|]; [destruct (seqb s'' s'), sg, sg'; reflexivity|destruct sg; reflexivity].
  - rewrite (zsum_ext _ _ (fun _ => 0%Z)), zsum_0; [reflexivity|]. intros m _. unfold amp at 1. rewrite E. reflexivity.
Qed.
Lemma fopmul_ok n a b s s' : length s = n -> opamp (fopmul a b) s s' = zsum (basis n) (fun m => opamp b s m * opamp a m s')%Z.
Proof.
  intros Ls. unfold fopmul.
  assert (In1 : forall t1 v1 l d, opamp (fold_left (fun d tc2 => fdict_add d (fmul t1 (fst tc2)) (v1 * snd tc2)%Z) l d) s s' =
    (opamp d s s' + zsum (basis n) (fun m => opamp l s m * (v1 * amp t1 m s')))%Z).
  { intros t1 v1. induction l as [|[t2 v2] l IH]; intros d; cbn [fold_left fst snd].
    - rewrite (zsum_ext _ _ (fun _ => 0%Z)), zsum_0; [ring|]. intros. cbn. ring.
    - rewrite IH, opamp_add, (amp_mul n) by exact Ls. rewrite <- zsum_scale, <- Z.add_assoc, <- zsum_add. f_equal. apply zsum_ext. intros m _. rewrite opamp_cons. ring. }
  assert (Out : forall l d, opamp (fold_left (fun d tc1 => fold_left (fun d tc2 => fdict_add d (fmul (fst tc1) (fst tc2)) (snd tc1 * snd tc2)%Z) b d) l d) s s' =
    (opamp d s s' + zsum (basis n) (fun m => opamp b s m * opamp l m s'))%Z).
  { induction l as [|[t1 v1] l IH]; intros d; cbn [fold_left fst snd].
    - rewrite (zsum_ext _ _ (fun _ => 0%Z)), zsum_0; [ring|]. intros. cbn. ring.
    - rewrite IH, In1, <- Z.add_assoc, <- zsum_add. f_equal. apply zsum_ext. intros m _. rewrite opamp_cons. ring. }
  rewrite Out. cbn [opamp fold_right]. ring.
Qed.
Lemma dagger_dagger t : dagger (dagger t) = t.
Proof. unfold dagger. rewrite <- map_rev, rev_involutive, map_map. rewrite <- (map_id t) at 2. apply map_ext. intros [i c]. cbn. rewrite negb_involutive. reflexivity. Qed.
Lemma fteqb_refl t : fteqb t t = true.
Proof. induction t as [|[i c] t IH]; [reflexivity|]. cbn [fteqb]. unfold FermiModel.leqb. cbn [fst snd]. rewrite Nat.eqb_refl, eqb_reflx. exact IH. Qed.
Lemma fits_dagger s t : fits s t <-> fits s (dagger t).
Proof.
  assert (D : forall t, fits s t -> fits s (dagger t)).
  { intros u H l Hl. unfold dagger in Hl. apply in_map_iff in Hl. destruct Hl as (x & <- & Hx). apply in_rev in Hx. apply (H x Hx). }
  split; [apply D|]. intros H. rewrite <- (dagger_dagger t). apply D. exact H.
Qed.
Lemma amp_dagger t s s' : length s' = length s -> fits s t -> amp (dagger t) s' s = amp t s s'.
Proof.
  intros L F. unfold amp. destruct (act t s) as [[sg s1]|] eqn:E.
  - assert (L1 := act_length _ _ _ _ E). destruct (seqb s1 s') eqn:Es.
    + apply seqb_eq in Es. subst. apply dagger_ok in E; [|exact F|exact L]. rewrite E. replace (seqb s s) with true by (symmetry; apply seqb_eq; reflexivity). reflexivity.
    + destruct (act (dagger t) s') as [[sg2 s2]|] eqn:E2; [|reflexivity]. destruct (seqb s2 s) eqn:Es2; [|reflexivity]. apply seqb_eq in Es2. subst. apply dagger_ok in E2; [|exact F|exact L].
      rewrite E in E2. injection E2 as _ ->. assert (seqb s' s' = true) by (apply seqb_eq; reflexivity). congruence.
  - destruct (act (dagger t) s') as [[sg2 s2]|] eqn:E2; [|reflexivity]. destruct (seqb s2 s) eqn:Es2; [|reflexivity]. apply seqb_eq in Es2. subst. apply dagger_ok in E2; [|exact F|exact L]. congruence.
Qed.
Lemma fdict_set_fresh d t v : ~ In t (map fst d) -> fdict_set d t v = d ++ [(t, v)].
Proof.
  induction d as [|[t' v'] d IH]; intros H; [reflexivity|]. cbn [fdict_set]. destruct (fteqb t' t) eqn:E; [apply fteqb_eq in E; subst; exfalso; apply H; left; reflexivity|].
  rewrite IH; [reflexivity|]. intros Hi. apply H. right. exact Hi.
Qed.
Lemma fdagger_list a : fdict a -> fdagger a = map (fun tc => (dagger (fst tc), snd tc)) a.
Proof.
  unfold fdagger, fdict. assert (Gen : forall l d, NoDup (map fst l) -> (forall t, In t (map fst l) -> ~ In (dagger t) (map fst d)) ->
    fold_left (fun d tc => fdict_set d (dagger (fst tc)) (snd tc)) l d = d ++ map (fun tc => (dagger (fst tc), snd tc)) l).
  { induction l as [|[t v] l IH]; intros d N H; cbn [fold_left map fst snd]; [rewrite app_nil_r; reflexivity|]. inversion N as [|? ? Nt Nl]; subst.
    rewrite fdict_set_fresh by (apply H; left; reflexivity). rewrite IH; [rewrite <- app_assoc; reflexivity|exact Nl|].
    intros u Hu. rewrite map_app, in_app_iff. intros [Hi|[Hi|[]]]; [exact (H u (or_intror Hu) Hi)|]. cbn in Hi. apply Nt. replace t with u; [exact Hu|]. rewrite <- (dagger_dagger u), <- Hi. apply dagger_dagger. }
  intros N. rewrite (Gen a [] N); [reflexivity|]. intros t _ [].
Qed.
Lemma fdagger_ok a s s' : fdict a -> length s' = length s -> (forall tc, In tc a -> fits s (fst tc)) -> opamp (fdagger a) s' s = opamp a s s'.
Proof.
  intros D L F. rewrite fdagger_list by exact D. clear D. induction a as [|[t v] a IH]; [reflexivity|]. cbn [map fst snd]. rewrite !opamp_cons, IH by (intros tc H; apply F; right; exact H).
  rewrite amp_dagger; [reflexivity|exact L|]. apply (F (t, v)). left. reflexivity.
Qed.

(** ** Jordan-Wigner image of an operator *)
Definition zg (z : Z) : G := (z, 0%Z).
Lemma rep_amp n M t : rep n M (act t) -> forall r c, length r = n -> length c = n -> M r c = zg (amp t c r).
Proof. intros R r c Lr Lc. rewrite (R r c Lr Lc). unfold amp. destruct (act t c) as [[sg s']|]; [|reflexivity]. destruct (seqb s' r), sg; reflexivity. Qed.
Lemma omat_scalar n k r c : length r = n -> length c = n -> omat n (oscalar k) r c = if seqb c r then k else g0.
Proof. intros Lr Lc. unfold omat, oscalar. cbn [gsum fst snd]. unfold tmat. rewrite factors_nil, tensor_id by assumption. destruct (seqb c r); ring. Qed.
Lemma owithin_scalar n k : owithin n (oscalar k).
Proof. intros tc [<-|[]] x []. Qed.
Lemma to_qubit_operator_ok n ord a : enumerates ord -> (forall tc l, In tc a -> In l (fst tc) -> fst l < n) ->
  forall r c, length r = n -> length c = n -> omat n (to_qubit_operator ord a) r c = zg (opamp a c r).
Proof.
  intros En W r c Lr Lc. unfold to_qubit_operator.
  assert (Gen : forall l d, (forall tc x, In tc l -> In x (fst tc) -> fst x < n) ->
    omat n (fold_left (fun res tc => oadd res (omul ord (to_qubit_term ord (fst tc)) (oscalar (snd tc, 0%Z)))) l d) r c = gadd (omat n d r c) (zg (opamp l c r))).
  { induction l as [|[t v] l IH]; intros d Wl; cbn [fold_left fst snd]; [change (zg (opamp [] c r)) with g0; ring|].
    rewrite IH by (intros tc x H; apply Wl; right; exact H). rewrite oadd_ok.
    destruct (to_qubit_term_ok n ord t En ltac:(intros x Hx; apply (Wl (t, v) x); [left; reflexivity|exact Hx])) as [Wt Rt].
    rewrite (omul_ok n ord _ _ En Wt (owithin_scalar n _) r c Lr Lc). unfold mprod.
    rewrite (gsum_ext _ _ (fun m => if seqb c m then gmul (zg (amp t m r)) (zg v) else g0)).
    2: { intros m Hm. apply bitstrings_In in Hm. rewrite (rep_amp n _ t Rt r m Lr Hm), omat_scalar by assumption. change (v, 0%Z) with (zg v). destruct (seqb c m); ring. }
    rewrite (gsum_indicator _ c (fun m => gmul (zg (amp t m r)) (zg v))) by (try apply bitstrings_NoDup; apply bitstrings_In; exact Lc).
    rewrite opamp_cons. replace (zg (v * amp t c r + opamp l c r)) with (gadd (gmul (zg (amp t c r)) (zg v)) (zg (opamp l c r))); [ring|].
    unfold zg, gadd, gmul. cbn [fst snd]. f_equal; ring. }
  rewrite Gen by exact W. unfold omat at 1. cbn [gsum]. ring.
Qed.

(** ** equality *)
Lemma fdict_add_fresh d t v : ~ In t (map fst d) -> fdict_add d t v = d ++ [(t, v)].
Proof.
  induction d as [|[t' v'] d IH]; intros H; [reflexivity|]. cbn [fdict_add]. destruct (fteqb t' t) eqn:E; [apply fteqb_eq in E; subst; exfalso; apply H; left; reflexivity|].
  rewrite IH; [reflexivity|]. intros Hi. apply H. right. exact Hi.
Qed.
Lemma freduce_sorted a : fdict a -> (forall tc, In tc a -> fsort (fst tc) = (fst tc, 1%Z) /\ snd tc <> 0%Z) -> freduce a = a.
Proof.
  intros D H. unfold freduce.
  assert (Gen : forall l d, NoDup (map fst l) -> (forall tc, In tc l -> fsort (fst tc) = (fst tc, 1%Z)) -> (forall t, In t (map fst l) -> ~ In t (map fst d)) ->
    fold_left (fun d tc => let '(s, f) := fsort (fst tc) in fdict_add d s (f * snd tc)%Z) l d = d ++ l).
  { induction l as [|[t v] l IH]; intros d N S F; cbn [fold_left fst snd]; [rewrite app_nil_r; reflexivity|]. inversion N as [|? ? Nt Nl]; subst.
    assert (St := S (t, v) (or_introl eq_refl)). cbn [fst] in St. rewrite St, Z.mul_1_l.
    rewrite fdict_add_fresh by (apply F; left; reflexivity). rewrite IH; [rewrite <- app_assoc; reflexivity|exact Nl|intros tc Htc; apply S; right; exact Htc|].
    intros u Hu. rewrite map_app, in_app_iff. intros [Hi|[Hi|[]]]; [exact (F u (or_intror Hu) Hi)|]. cbn in Hi. subst. contradiction. }
  rewrite (Gen a [] D) by (try (intros tc Htc; apply H; exact Htc); intros t _ []). cbn [app].
  clear Gen D. induction a as [|[t v] a IH]; [reflexivity|]. cbn [filter snd]. destruct (H (t, v) (or_introl eq_refl)) as [_ Hv]. cbn in Hv. apply Z.eqb_neq in Hv. rewrite Hv. cbn [negb]. f_equal. apply IH. intros tc Htc. apply H. right. exact Htc.
Qed.
Lemma fget_in a : fdict a -> forall t v, In (t, v) a -> fget a t = Some v.
Proof.
  unfold fdict. induction a as [|[t' v'] a IH]; intros D t v H; [contradiction|]. inversion D as [|? ? Nt Nd]; subst. cbn [fget]. destruct H as [[= -> ->]|H].
  - rewrite fteqb_refl. reflexivity.
  - destruct (fteqb t' t) eqn:E; [apply fteqb_eq in E; subst; exfalso; apply Nt, (in_map fst _ _ H)|]. apply IH; assumption.
Qed.
Lemma feq_refl a : fdict a -> (forall tc, In tc a -> fsort (fst tc) = (fst tc, 1%Z) /\ snd tc <> 0%Z) -> feq a a = Some true.
Proof.
  intros D H. unfold feq. rewrite freduce_sorted by assumption. rewrite Nat.eqb_refl. cbn [negb].
  assert (Gen : forall l, (forall tc, In tc l -> In tc a) -> fold_left (fun acc tc => match acc with
    | Some true => match fget a (fst tc) with
        | None => let '(d, f) := fsort (dagger (fst tc)) in match fget a d with None => Some false | Some v => Some (snd tc =? f * v)%Z end
        | Some _ => match fget a (fst tc) with None => None | Some v => Some (snd tc =? v)%Z end end
    | acc => acc end) l (Some true) = Some true).
  { induction l as [|[t v] l IH]; intros S; [reflexivity|]. cbn [fold_left fst snd]. rewrite (fget_in a D t v) by (apply S; left; reflexivity). rewrite Z.eqb_refl. apply IH. intros tc Htc. apply S. right. exact Htc. }
  apply Gen. auto.
Qed.
