(** Proofs for PauliModel: commutation, adjoint of operators, matrices. *)
From Coq Require Import Permutation Ring.
From Verif.Operators Require Import PauliModel PauliSpec PauliProofs.
Local Open Scope Z_scope.
Add Ring gaussian2 : gring.

(** ** independence of distinct tensor products *)
Lemma mat1_nonzero f : exists r c u, gmul u (mat1 f r c) = g1.
Proof.
  destruct f; [exists false, false, g1|exists false, true, g1|exists true, false, (gneg gi)|exists false, false, g1|exists false, true, g1|exists true, false, g1|exists false, false, g1|exists true, true, g1]; reflexivity.
Qed.
Lemma mat1_indep f g : f <> g -> exists r c r' c', gsub (gmul (mat1 f r c) (mat1 g r' c')) (gmul (mat1 f r' c') (mat1 g r c)) <> g0.
Proof.
  intros H.
  destruct (existsb (fun q => let '(r, c, r', c') := q in negb (geqb (gsub (gmul (mat1 f r c) (mat1 g r' c')) (gmul (mat1 f r' c') (mat1 g r c))) g0))
    (flat_map (fun r => flat_map (fun c => flat_map (fun r' => map (fun c' => (r, c, r', c')) [true; false]) [true; false]) [true; false]) [true; false])) eqn:E.
  - apply existsb_exists in E. destruct E as ([[[r c] r'] c'] & _ & E). exists r, c, r', c'. apply geqb_false. apply negb_true_iff. exact E.
  - exfalso. destruct f, g; try congruence; vm_compute in E; discriminate.
Qed.
Lemma tensor_nonzero fs : exists r c, length r = length fs /\ length c = length fs /\ tensor fs r c <> g0.
Proof.
  induction fs as [|f fs (r & c & Lr & Lc & H)]; [exists [], []; repeat split; discriminate|].
  destruct (mat1_nonzero f) as (x & y & u & Hu). exists (x :: r), (y :: c). cbn. repeat split; try congruence.
  intros E. apply gmul_zero in E. destruct E as [E|E]; [rewrite E in Hu; rewrite gmul_0_r in Hu; discriminate|contradiction].
Qed.
Lemma tensor_indep fs : forall gs k l, length gs = length fs -> k <> g0 ->
  (forall r c, length r = length fs -> length c = length fs -> gmul k (tensor fs r c) = gmul l (tensor gs r c)) -> fs = gs /\ k = l.
Proof.
  induction fs as [|f fs IH]; intros [|g gs] k l L Hk H; try discriminate.
  - split; [reflexivity|]. specialize (H [] [] eq_refl eq_refl). cbn in H. transitivity (gmul k g1); [ring|]. rewrite H. ring.
  - cbn in L. injection L as L.
    assert (H' : forall x y r c, length r = length fs -> length c = length fs -> gmul (mat1 f x y) (gmul k (tensor fs r c)) = gmul (mat1 g x y) (gmul l (tensor gs r c))).
    { intros x y r c Lr Lc. specialize (H (x :: r) (y :: c) ltac:(cbn; congruence) ltac:(cbn; congruence)). cbn in H.
      transitivity (gmul k (gmul (mat1 f x y) (tensor fs r c))); [ring|]. rewrite H. ring. }
    assert (f = g).
    { destruct (feqb f g) eqn:E; [apply feqb_eq; exact E|]. exfalso. assert (Hn : f <> g) by (intros ->; rewrite feqb_refl in E; discriminate).
      destruct (mat1_indep f g Hn) as (x & y & x' & y' & D). destruct (tensor_nonzero fs) as (r & c & Lr & Lc & N).
      set (A := gmul k (tensor fs r c)) in *. set (B := gmul l (tensor gs r c)) in *.
      assert (E1 := H' x y r c Lr Lc). assert (E2 := H' x' y' r c Lr Lc). fold A B in E1, E2.
      assert (Z0 : gmul (gsub (gmul (mat1 f x y) (mat1 g x' y')) (gmul (mat1 f x' y') (mat1 g x y))) A = g0).
      { transitivity (gsub (gmul (mat1 g x' y') (gmul (mat1 f x y) A)) (gmul (mat1 g x y) (gmul (mat1 f x' y') A))); [ring|]. rewrite E1, E2. ring. }
      apply gmul_zero in Z0. destruct Z0 as [Z0|Z0]; [contradiction|]. unfold A in Z0. apply gmul_zero in Z0. tauto. }
    subst g. destruct (mat1_nonzero f) as (x & y & u & Hu).
    destruct (IH gs k l L Hk) as [-> ->]; [|auto]. intros r c Lr Lc. specialize (H' x y r c Lr Lc).
    transitivity (gmul (gmul u (mat1 f x y)) (gmul k (tensor fs r c))); [rewrite Hu; ring|].
    transitivity (gmul u (gmul (mat1 f x y) (gmul k (tensor fs r c)))); [ring|]. rewrite H'.
    transitivity (gmul (gmul u (mat1 f x y)) (gmul l (tensor gs r c))); [ring|]. rewrite Hu. ring.
Qed.

Lemma factors_get n a b : within n a -> within n b -> factors n a = factors n b -> teqb a b = true.
Proof.
  intros Wa Wb E. apply teqb_get. intros k. destruct (lt_dec k n) as [H|H].
  - assert (F := f_equal (fun l => nth k l FI) E). cbv beta in F. unfold factors in F.
    change FI with (get [] 0) in F. 
    rewrite !nth_indep with (d' := get a 0) in F by (rewrite map_length, seq_length; exact H).
    rewrite map_nth, seq_nth in F by exact H. rewrite nth_indep with (d' := get b 0) in F by (rewrite map_length, seq_length; exact H).
    rewrite map_nth, seq_nth in F by exact H. exact F.
  - rewrite !get_out; [reflexivity| |]; intros Hi; [apply Wb in Hi|apply Wa in Hi]; lia.
Qed.

(** ** commute *)

Lemma commutator_empty (ta tb : term) (ca cb : G) :
  osub [(ta, ca)] [(tb, cb)] = [] <-> (ca = g0 /\ cb = g0) \/ (teqb ta tb = true /\ ca = cb).
Proof.
  unfold osub. cbn [fold_left fst snd dict_add_del]. destruct (geqb ca g0) eqn:Ea.
  - apply geqb_eq in Ea. subst. cbn [dict_add_del]. destruct (geqb (gneg cb) g0) eqn:Eb.
    + apply geqb_eq in Eb. assert (cb = g0) by (transitivity (gneg (gneg cb)); [ring|rewrite Eb; reflexivity]). tauto.
    + split; [discriminate|]. intros [[_ ->]|[_ <-]]; discriminate.
  - apply geqb_false in Ea. cbn [dict_add_del]. destruct (teqb ta tb) eqn:Et.
    + destruct (geqb (gadd ca (gneg cb)) g0) eqn:E.
      * apply geqb_eq in E. assert (ca = cb) by (transitivity (gadd (gadd ca (gneg cb)) cb); [ring|rewrite E; ring]). tauto.
      * apply geqb_false in E. split; [discriminate|]. intros [[H _]|[_ ->]]; [contradiction|]. contradict E. ring.
    + destruct (geqb (gneg cb) g0); (split; [discriminate|intros [[H _]|[H _]]; [contradiction|discriminate]]).
Qed.

Lemma commuting_iff n ord a b : enumerates ord -> within n a -> within n b ->
  let '(ta, ca) := tmul (ord a b) a b in let '(tb, cb) := tmul (ord b a) b a in
  commuting n a b <-> (ca = g0 /\ cb = g0) \/ (teqb ta tb = true /\ ca = cb).
Proof.
  intros En Wa Wb. assert (Cab := En a b). assert (Cba := En b a).
  assert (Pab := tmul_ok n _ a b Cab Wa Wb). assert (Pba := tmul_ok n _ b a Cba Wb Wa).
  assert (Sab := tmul_spec n _ a b Cab Wa Wb). assert (Sba := tmul_spec n _ b a Cba Wb Wa).
  destruct (tmul (ord a b) a b) as [ta ca], (tmul (ord b a) b a) as [tb cb]. cbn [fst snd] in *.
  destruct Sab as (_ & _ & W1), Sba as (_ & _ & W2). unfold commuting, same_on.
  split.
  - intros H. destruct (geqb ca g0) eqn:Ea.
    + apply geqb_eq in Ea. subst. destruct (geqb cb g0) eqn:Eb; [apply geqb_eq in Eb; tauto|]. apply geqb_false in Eb. exfalso.
      destruct (tensor_nonzero (factors n tb)) as (r & c & Lr & Lc & N). rewrite factors_length in Lr, Lc. specialize (H r c Lr Lc). rewrite Pab, Pba in H by assumption.
      rewrite gmul_0_l in H. symmetry in H. apply gmul_zero in H. destruct H; contradiction.
    + apply geqb_false in Ea. right.
      destruct (tensor_indep (factors n ta) (factors n tb) ca cb) as [F E]; [rewrite !factors_length; reflexivity|exact Ea| |split; [apply (factors_get n); assumption|exact E]].
      intros r c. rewrite factors_length. intros Lr Lc. specialize (H r c Lr Lc). rewrite Pab, Pba in H by assumption. exact H.
  - intros H r c Lr Lc. rewrite Pab, Pba by assumption. destruct H as [[-> ->]|[T ->]]; [ring|]. unfold tmat. rewrite (teqb_factors _ _ n T). reflexivity.
Qed.

(** same names imply equal or opposite coefficients, both non-zero *)
Lemma table_same f g : tfst f g = tfst g f -> (tsnd f g = g0 /\ tsnd g f = g0) \/ (tsnd f g <> g0 /\ tsnd g f <> g0 /\ (tsnd f g = tsnd g f \/ tsnd f g = gneg (tsnd g f))).
Proof. destruct f, g; vm_compute; intros H; try discriminate H; solve [left; split; reflexivity | right; repeat split; try discriminate; auto]. Qed.

Lemma gneg_self x : x = gneg x -> x = g0.
Proof. destruct x as [a b]. unfold gneg, g0. cbn. intros [= H1 H2]. f_equal; lia. Qed.

Lemma commute_loop_ok comm a b (PA PB : G) : forall keys sign,
  sign = 1 \/ sign = -1 ->
  (* the remaining products *)
  let Ra := gprod keys (fun k => tsnd (get a k) (get b k)) in
  let Rb := gprod keys (fun k => tsnd (get b k) (get a k)) in
  (exists k, In k keys /\ tsnd (get a k) (get b k) = g0 /\ tsnd (get b k) (get a k) = g0 /\ Ra = g0 /\ Rb = g0 /\ (commute_loop comm a b keys sign = true \/ commute_loop comm a b keys sign = comm)) \/
  (commute_loop comm a b keys sign = comm) \/
  (commute_loop comm a b keys sign = true <-> sign = 1 /\ Ra = Rb \/ sign = -1 /\ Ra = gneg Rb) /\ Ra <> g0 /\ Rb <> g0 /\
    (Ra = Rb \/ Ra = gneg Rb) /\ forall k, In k keys -> tfst (get a k) (get b k) = tfst (get b k) (get a k).
Proof.
  induction keys as [|k keys IH]; intros sign Hs; cbn [commute_loop gprod].
  - right. right. destruct Hs as [-> | ->]; cbn; (split; [|repeat split; try discriminate; try tauto; auto; intros ? []]).
    + split; [auto|reflexivity]. 
    + split; [discriminate|]. intros [[H _]|[_ H]]; [discriminate|discriminate H].
  - destruct (pauli_table (get a k) (get b k)) as [fa ca] eqn:Ea. destruct (pauli_table (get b k) (get a k)) as [fb cb] eqn:Eb.
    assert (Fa : tfst (get a k) (get b k) = fa) by (unfold tfst; rewrite Ea; reflexivity). assert (Ca : tsnd (get a k) (get b k) = ca) by (unfold tsnd; rewrite Ea; reflexivity).
    assert (Fb : tfst (get b k) (get a k) = fb) by (unfold tfst; rewrite Eb; reflexivity). assert (Cb : tsnd (get b k) (get a k) = cb) by (unfold tsnd; rewrite Eb; reflexivity).
    rewrite Ca, Cb. assert (TS := table_same (get a k) (get b k)). rewrite Fa, Fb, Ca, Cb in TS.
    destruct (geqb ca g0 && geqb cb g0) eqn:Ez.
    + apply andb_true_iff in Ez. rewrite !geqb_eq in Ez. destruct Ez as [-> ->]. left. exists k. cbn [In]. rewrite !gmul_0_l. repeat split; auto.
    + destruct (feqb fa fb) eqn:Ef; [|right; left; reflexivity]. apply feqb_eq in Ef. destruct (TS Ef) as [[-> ->]|(Na & Nb & TS')]; [vm_compute in Ez; discriminate|]. clear TS.
      assert (Step : exists sign', (sign' = 1 \/ sign' = -1) /\ ((sign' = sign /\ ca = cb) \/ (sign' = - sign /\ ca = gneg cb)) /\
        (if geqb ca cb then commute_loop comm a b keys sign else if geqb ca (gneg cb) then commute_loop comm a b keys (- sign) else commute_loop comm a b keys sign) = commute_loop comm a b keys sign').
      { destruct (geqb ca cb) eqn:E1; [apply geqb_eq in E1; exists sign; auto|]. destruct (geqb ca (gneg cb)) eqn:E2.
        - apply geqb_eq in E2. exists (- sign). split; [destruct Hs; subst; cbn; auto|auto].
        - exfalso. apply geqb_false in E1, E2. tauto. }
      destruct Step as (sign' & Hs' & Rel & ->).
      destruct (IH sign' Hs') as [(j & Hj & J1 & J2 & J3 & J4 & J5)|[E|(E & Z1 & Z2 & P & N)]]; cbv zeta in *.
      * left. exists j. rewrite J3, J4. refine (conj (or_intror Hj) (conj J1 (conj J2 (conj _ (conj _ J5))))); ring.
      * right. left. exact E.
      * right. right. set (Ra := gprod keys (fun k => tsnd (get a k) (get b k))) in *. set (Rb := gprod keys (fun k => tsnd (get b k) (get a k))) in *. clearbody Ra Rb.
        assert (Na' : gmul ca Ra <> g0) by (intros H; apply gmul_zero in H; tauto). assert (Nb' : gmul cb Rb <> g0) by (intros H; apply gmul_zero in H; tauto).
        split; [|split; [exact Na'|split; [exact Nb'|split]]].
        -- rewrite E. clear E. assert (NR : Ra <> gneg Rb \/ Ra <> Rb).
           { destruct P as [P|P]; [left|right]; intros Q; rewrite P in Q; [apply gneg_self in Q|symmetry in Q; apply gneg_self in Q]; contradiction. }
           assert (D : forall x, x <> g0 -> x <> gneg x) by (intros x Hx H; apply gneg_self in H; contradiction).
           assert (Neg : forall x y : G, gmul (gneg x) y = gneg (gmul x y)) by (intros; ring).
           assert (Neg' : forall x y : G, gmul x (gneg y) = gneg (gmul x y)) by (intros; ring). assert (NN : forall x, gneg (gneg x) = x) by (intros; ring).
           assert (Dc := D (gmul cb Rb) Nb'). assert (Dr := D Rb Z2).
           destruct Rel as [[-> ->]|[-> ->]], P as [-> | ->], Hs as [-> | ->]; rewrite ?Neg, ?Neg', ?NN; cbn [Z.opp]; intuition (try congruence; try discriminate).
        -- destruct Rel as [[_ ->]|[_ ->]], P as [-> | ->]; [left|right|right|left]; ring.
        -- intros j [<-|Hj]; [congruence|apply N; exact Hj].
Qed.

Lemma gprod_keys n keys a b : covers keys a b -> within n a -> within n b ->
  gprod keys (fun k => tsnd (get a k) (get b k)) = coeffs (factors n a) (factors n b).
Proof.
  intros [ND K] Wa Wb. unfold factors. rewrite coeffs_map. symmetry. apply gprod_sub; [exact ND| |].
  - intros k Hk. apply K in Hk. destruct Hk; auto.
  - intros k Hk. rewrite !get_out; [reflexivity| |]; intros H; apply Hk, K; auto.
Qed.

Lemma commute_ok n ord a b : enumerates ord -> within n a -> within n b -> commute ord a b = true <-> commuting n a b.
Proof.
  intros En Wa Wb. assert (CI := commuting_iff n ord a b En Wa Wb).
  assert (Sab := tmul_spec n _ a b (En a b) Wa Wb). assert (Sba := tmul_spec n _ b a (En b a) Wb Wa).
  unfold commute, commutator.
  assert (Kab := gprod_keys n (ord a b) a b (En a b) Wa Wb).
  assert (Cv' : covers (ord a b) b a) by (destruct (En a b) as [N1 N2]; split; [exact N1|intros k; rewrite N2; tauto]).
  assert (Kba := gprod_keys n (ord a b) b a Cv' Wb Wa).
  destruct (tmul (ord a b) a b) as [ta ca], (tmul (ord b a) b a) as [tb cb].
  destruct Sab as (Ca & Fa & W1), Sba as (Cb & Fb & W2). rewrite CI.
  set (comm := match osub _ _ with [] => true | _ => false end).
  assert (Hc : comm = true <-> ca = g0 /\ cb = g0 \/ teqb ta tb = true /\ ca = cb).
  { rewrite <- commutator_empty. unfold comm. destruct (osub _ _); split; congruence. }
  destruct (commute_loop_ok comm a b g1 g1 (ord a b) 1 (or_introl eq_refl)) as [(k & Hk & _ & _ & Za & Zb & E)|[E|(E & Z1 & Z2 & P & N)]]; cbv zeta in *.
  - rewrite Kab in Za. rewrite Kba in Zb. rewrite <- Ca in Za. rewrite <- Cb in Zb.
    assert (comm = true) by (apply Hc; auto). destruct E as [E|E]; rewrite E; tauto.
  - rewrite E. exact Hc.
  - rewrite E, Kab, Kba, <- Ca, <- Cb. rewrite Kab, <- Ca in Z1. rewrite Kba, <- Cb in Z2.
    assert (T : teqb ta tb = true).
    { apply (factors_get n); try assumption. rewrite Fa, Fb by assumption. unfold factors. rewrite !map2_map. apply map_ext. intros k.
      destruct (in_dec Nat.eq_dec k (ord a b)) as [H|H]; [apply N; exact H|]. destruct (En a b) as [_ K]. rewrite !(get_out _ k); [reflexivity| |]; intros X; apply H, K; auto. }
    split.
    + intros [[_ H]|[H _]]; [right; auto|discriminate].
    + intros [[H _]|[_ H]]; [contradiction|left; auto].
Qed.

(** ** commute_qw *)
Lemma table_commute1 f g : feqb (tfst f g) (tfst g f) && geqb (tsnd f g) (tsnd g f) = true <-> commute1 f g.
Proof.
  unfold commute1. split.
  - intros H r c. rewrite !table_ok. apply andb_true_iff in H. rewrite feqb_eq, geqb_eq in H. unfold tfst, tsnd in H. destruct H as [-> ->]. reflexivity.
  - intros H. assert (H' : forallb (fun r => forallb (fun c => geqb (gmul (tsnd f g) (mat1 (tfst f g) r c)) (gmul (tsnd g f) (mat1 (tfst g f) r c))) [true; false]) [true; false] = true).
    { apply forallb_forall. intros r _. apply forallb_forall. intros c _. apply geqb_eq. unfold tfst, tsnd. rewrite <- !table_ok. apply H. }
    clear H. destruct f, g; try reflexivity; vm_compute in H'; discriminate.
Qed.
Lemma commute_qw_ok ord a b : enumerates ord -> commute_qw ord a b = true <-> forall k, commute1 (get a k) (get b k).
Proof.
  intros En. unfold commute_qw. rewrite forallb_forall. destruct (En a b) as [_ K].
  assert (Conv : forall k, (let '(fa, ca) := pauli_table (get a k) (get b k) in let '(fb, cb) := pauli_table (get b k) (get a k) in feqb fa fb && geqb ca cb) =
     feqb (tfst (get a k) (get b k)) (tfst (get b k) (get a k)) && geqb (tsnd (get a k) (get b k)) (tsnd (get b k) (get a k))).
  { intros k. unfold tfst, tsnd. destruct (pauli_table (get a k) (get b k)), (pauli_table (get b k) (get a k)). reflexivity. }
  split.
  - intros H k. destruct (in_dec Nat.eq_dec k (ord a b)) as [Hi|Hn].
    + apply table_commute1. rewrite <- Conv. apply H. exact Hi.
    + rewrite !get_out; [intros r c; reflexivity| |]; intros X; apply Hn, K; auto.
  - intros H k _. rewrite Conv. apply table_commute1. apply H.
Qed.
Lemma commute_qw_sound n ord a b : enumerates ord -> within n a -> within n b -> commute_qw ord a b = true -> commuting n a b.
Proof.
  intros En Wa Wb H. rewrite commute_qw_ok in H by exact En. assert (CI := commuting_iff n ord a b En Wa Wb).
  assert (Sab := tmul_spec n _ a b (En a b) Wa Wb). assert (Sba := tmul_spec n _ b a (En b a) Wb Wa).
  destruct (tmul (ord a b) a b) as [ta ca], (tmul (ord b a) b a) as [tb cb]. apply CI. clear CI.
  destruct Sab as (Ca & Fa & W1), Sba as (Cb & Fb & W2).
  assert (T : forall k, tfst (get a k) (get b k) = tfst (get b k) (get a k) /\ tsnd (get a k) (get b k) = tsnd (get b k) (get a k)).
  { intros k. specialize (H k). apply table_commute1, andb_true_iff in H. rewrite feqb_eq, geqb_eq in H. exact H. }
  assert (Eq : ca = cb). { rewrite Ca, Cb. unfold factors. rewrite !coeffs_map. clear -T. induction (seq 0 n) as [|k l IH]; cbn; [reflexivity|]. rewrite IH. destruct (T k) as [_ ->]. reflexivity. }
  destruct (geqb ca g0) eqn:E; [apply geqb_eq in E; left; split; congruence|]. apply geqb_false in E. right. split; [|exact Eq].
  apply (factors_get n); try assumption. rewrite Fa, Fb by congruence. unfold factors. rewrite !map2_map. apply map_ext. intros k. apply T.
Qed.

(** ** commute_pauli on Pauli terms *)
Lemma commute_pauli_loop_ok comm a b keys : (forall k, is_pauli (get a k) = true /\ is_pauli (get b k) = true) ->
  forall sign, commute_pauli_loop a b keys sign = commute_loop comm a b keys sign.
Proof.
  intros P. induction keys as [|k keys IH]; intros sign; [reflexivity|]. cbn [commute_pauli_loop commute_loop]. destruct (P k) as [Pa Pb].
  destruct (get a k), (get b k); try discriminate; cbn; rewrite <- ?IH; reflexivity.
Qed.

(** ** adjoint of operators *)
Lemma fadj_inj f g : fadj f = fadj g -> f = g. Proof. destruct f, g; cbn; congruence. Qed.
Lemma tadj_teqb a b : nice a -> nice b -> teqb (tadj a) (tadj b) = teqb a b.
Proof.
  intros Na Nb. apply eq_true_iff_eq. rewrite !teqb_get. split; intros H k; specialize (H k).
  - rewrite !get_tadj_ok in H by assumption. apply fadj_inj. exact H.
  - rewrite !get_tadj_ok by assumption. congruence.
Qed.
Lemma dict_set_fresh d t v : (forall tc, In tc d -> teqb (fst tc) t = false) -> dict_set d t v = d ++ [(t, v)].
Proof.
  induction d as [|[t' v'] d IH]; intros H; [reflexivity|]. cbn [dict_set app]. assert (E := H (t', v') (or_introl eq_refl)). cbn [fst] in E. rewrite E, IH; [reflexivity|]. intros tc Htc. apply H. right. exact Htc.
Qed.
(** a dictionary: no two entries with equal keys *)
Lemma oadj_list a : dict a -> (forall tc, In tc a -> nice (fst tc)) -> forall d,
  (forall tc td, In tc a -> In td d -> teqb (fst td) (tadj (fst tc)) = false) ->
  fold_left (fun d tc => dict_set d (tadj (fst tc)) (gconj (snd tc))) a d = d ++ map (fun tc => (tadj (fst tc), gconj (snd tc))) a.
Proof.
  induction a as [|[t v] a IH]; intros D N d F; cbn [fold_left map fst snd]; [rewrite app_nil_r; reflexivity|].
  destruct D as [D1 D2]. rewrite dict_set_fresh by (intros td Htd; apply (F (t, v)); [left; reflexivity|exact Htd]).
  rewrite IH; [rewrite <- app_assoc; reflexivity|exact D2| |].
  - intros tc Htc. apply N. right. exact Htc.
  - intros tc td Htc Htd. apply in_app_iff in Htd. destruct Htd as [Htd|[<-|[]]]; [apply F; [right; exact Htc|exact Htd]|]. cbn [fst].
    rewrite tadj_teqb; [apply D1; exact Htc|apply (N (t, v)); left; reflexivity|apply N; right; exact Htc].
Qed.
Lemma oadj_ok n a : dict a -> (forall tc, In tc a -> nice (fst tc)) -> forall r c, length r = n -> length c = n ->
  omat n (oadj a) r c = gconj (omat n a c r).
Proof.
  intros D N r c Lr Lc. unfold oadj. rewrite oadj_list by (auto; intros ? ? ? []). cbn [app]. unfold omat. rewrite gsum_map. cbn [fst snd]. clear D.
  induction a as [|[t v] a IH]; [reflexivity|]. cbn [gsum fst snd]. rewrite IH by (intros tc H; apply N; right; exact H).
  rewrite gconj_add, gconj_mul, tadj_ok by (auto; apply (N (t, v)); left; reflexivity). reflexivity.
Qed.

(** ** matrices *)
Lemma bits_msb_length n x : length (bits_msb n x) = n.
Proof. unfold bits_msb. rewrite map_length, seq_length. reflexivity. Qed.
Lemma bits_msb_S n x : bits_msb (S n) x = Z.testbit x (Z.of_nat n) :: bits_msb n (x mod 2 ^ Z.of_nat n).
Proof.
  unfold bits_msb. cbn [seq map]. f_equal; [f_equal; lia|]. rewrite <- seq_shift, map_map. apply map_ext_in. intros k Hk. apply in_seq in Hk.
  rewrite Z.mod_pow2_bits_low by lia. reflexivity.
Qed.
Lemma recursive_kron_cons k keys t : keys <> [] -> recursive_kron (k :: keys) t = kron2 (operator_matrices (get t k)) (length keys) (recursive_kron keys t).
Proof. destruct keys; [congruence|reflexivity]. Qed.
Lemma recursive_kron_ok t keys : keys <> [] -> forall i j, 0 <= i < 2 ^ Z.of_nat (length keys) -> 0 <= j < 2 ^ Z.of_nat (length keys) ->
  recursive_kron keys t i j = tensor (map (get t) keys) (bits_msb (length keys) i) (bits_msb (length keys) j).
Proof.
  induction keys as [|k keys IH]; intros H i j Hi Hj; [congruence|].
  destruct keys as [|k' keys].
  - cbn [recursive_kron map length tensor]. rewrite !bits_msb_S. cbn [tensor bits_msb]. unfold bits_msb. cbn [seq map]. cbn [Z.of_nat].
    rewrite operator_matrices_eq, !Z.bit0_odd. cbn [tensor]. ring.
  - rewrite recursive_kron_cons by discriminate. set (ks := k' :: keys) in *. cbn [map length]. rewrite !bits_msb_S. cbn [tensor]. unfold kron2.
    assert (P : 0 < 2 ^ Z.of_nat (length ks)) by (apply Z.pow_pos_nonneg; lia).
    rewrite IH by (try discriminate; apply Z.mod_pos_bound; exact P). rewrite operator_matrices_eq.
    rewrite !Z.testbit_odd, !Z.shiftr_div_pow2 by lia. reflexivity.
Qed.
Lemma to_matrix_ok n o i j : (0 < n)%nat -> 0 <= i < 2 ^ Z.of_nat n -> 0 <= j < 2 ^ Z.of_nat n ->
  to_matrix n o i j = omat n o (bits_msb n i) (bits_msb n j).
Proof.
  intros Hn Hi Hj. unfold to_matrix.
  assert (K : forall t, recursive_kron (seq 0 n) t i j = tmat n t (bits_msb n i) (bits_msb n j)).
  { intros t. assert (E : length (seq 0 n) = n) by apply seq_length. rewrite recursive_kron_ok; [|intros X; rewrite X in E; cbn in E; lia|rewrite E; assumption|rewrite E; assumption]. rewrite E. reflexivity. }
  assert (Gen : forall l m, fold_left (fun m tc => gadd m (gmul (snd tc) (recursive_kron (seq 0 n) (fst tc) i j))) l m = gadd m (omat n l (bits_msb n i) (bits_msb n j))).
  { induction l as [|[t v] l IH]; intros m; cbn [fold_left fst snd]; [unfold omat; cbn; ring|]. rewrite IH, K. unfold omat. cbn. ring. }
  rewrite Gen. ring.
Qed.

(** from_matrix *)
Lemma mat1_table x y r c : mat1 (operator_table x y) r c = if eqb x r && eqb y c then g1 else g0.
Proof. destruct x, y, r, c; reflexivity. Qed.
Lemma get_map_seq (idx : nat -> nat) (f : nat -> factor) l k0 : (forall i j, In i l -> In j l -> idx i = idx j -> i = j) -> In k0 l ->
  get (map (fun k => (idx k, f k)) l) (idx k0) = f k0.
Proof.
  induction l as [|k l IH]; intros Inj H; [contradiction|]. cbn. destruct (Nat.eqb_spec (idx k) (idx k0)) as [E|E].
  - f_equal. apply Inj; [left; reflexivity|exact H|exact E].
  - apply IH; [intros i j Hi Hj; apply Inj; right; assumption|]. destruct H; congruence.
Qed.
Lemma entry_factors n row col : factors n (entry_term n row col) =
  map (fun k => operator_table (Z.testbit row (Z.of_nat (n - k - 1))) (Z.testbit col (Z.of_nat (n - k - 1)))) (seq 0 n).
Proof.
  unfold factors. apply map_ext_in. intros k Hk. apply in_seq in Hk. unfold entry_term.
  replace k with (n - (n - k - 1) - 1)%nat at 1 by lia.
  apply (get_map_seq (fun k => (n - k - 1)%nat) (fun k => operator_table (Z.testbit row (Z.of_nat k)) (Z.testbit col (Z.of_nat k)))).
  - intros i j Hi Hj. apply in_seq in Hi, Hj. lia.
  - apply in_seq. lia.
Qed.
Fixpoint leqb (a b : list bool) : bool := match a, b with [], [] => true | x :: a, y :: b => eqb x y && leqb a b | _, _ => false end.
Lemma leqb_eq a : forall b, leqb a b = true <-> a = b.
Proof. induction a as [|x a IH]; intros [|y b]; cbn; try (split; congruence). rewrite andb_true_iff, IH, eqb_true_iff. split; [intros [-> ->]; reflexivity|intros [= -> ->]; auto]. Qed.
Lemma entry_mat n row col r c : length r = n -> length c = n ->
  tmat n (entry_term n row col) r c = if leqb (bits_msb n row) r && leqb (bits_msb n col) c then g1 else g0.
Proof.
  intros Lr Lc. unfold tmat. rewrite entry_factors. unfold bits_msb. revert r c Lr Lc.
  assert (Gen : forall l r c, length r = length l -> length c = length l ->
    tensor (map (fun k => operator_table (Z.testbit row (Z.of_nat (n - k - 1))) (Z.testbit col (Z.of_nat (n - k - 1)))) l) r c =
    if leqb (map (fun k => Z.testbit row (Z.of_nat (n - k - 1))) l) r && leqb (map (fun k => Z.testbit col (Z.of_nat (n - k - 1))) l) c then g1 else g0).
  { induction l as [|k l IH]; intros [|x r] [|y c] Lr Lc; try discriminate; [reflexivity|]. cbn [map tensor leqb]. rewrite IH by (cbn in *; lia). rewrite mat1_table.
    destruct (eqb _ x), (eqb _ y), (leqb _ r), (leqb _ c); reflexivity. }
  intros r c Lr Lc. apply Gen; rewrite seq_length; assumption.
Qed.
Lemma bits_msb_inj n x y : 0 <= x < 2 ^ Z.of_nat n -> 0 <= y < 2 ^ Z.of_nat n -> bits_msb n x = bits_msb n y -> x = y.
Proof.
  revert x y. induction n as [|n IH]; intros x y Hx Hy E; [cbn in *; lia|]. rewrite !bits_msb_S in E. injection E as E1 E2.
  rewrite Nat2Z.inj_succ, Z.pow_succ_r in Hx, Hy by lia.
  assert (P : 0 < 2 ^ Z.of_nat n) by (apply Z.pow_pos_nonneg; lia).
  apply IH in E2; try (apply Z.mod_pos_bound; exact P).
  rewrite !Z.testbit_odd, !Z.shiftr_div_pow2 in E1 by lia.
  assert (B : forall z, 0 <= z < 2 * 2 ^ Z.of_nat n -> z / 2 ^ Z.of_nat n = 0 \/ z / 2 ^ Z.of_nat n = 1).
  { intros z Hz. assert (0 <= z / 2 ^ Z.of_nat n < 2) by (split; [apply Z.div_pos; lia|apply Z.div_lt_upper_bound; lia]). lia. }
  rewrite (Z.div_mod x (2 ^ Z.of_nat n)), (Z.div_mod y (2 ^ Z.of_nat n)), E2 by lia.
  destruct (B x Hx) as [Ex|Ex], (B y Hy) as [Ey|Ey]; rewrite Ex, Ey in *; try reflexivity; discriminate.
Qed.
Lemma entry_teqb n r c r' c' : 0 <= r < 2 ^ Z.of_nat n -> 0 <= c < 2 ^ Z.of_nat n -> 0 <= r' < 2 ^ Z.of_nat n -> 0 <= c' < 2 ^ Z.of_nat n ->
  teqb (entry_term n r c) (entry_term n r' c') = true -> r = r' /\ c = c'.
Proof.
  intros H1 H2 H3 H4 E. apply (teqb_factors _ _ n) in E. rewrite !entry_factors in E.
  assert (T : forall x y x' y', operator_table x y = operator_table x' y' -> x = x' /\ y = y') by (intros [] [] [] []; cbn; intuition congruence).
  split; apply (bits_msb_inj n); try assumption; unfold bits_msb; revert E; generalize (seq 0 n); induction l as [|k l IH]; cbn; intros E; try reflexivity; injection E as E1 E2; apply T in E1; destruct E1 as [E1 E3]; rewrite ?E1, ?E3, IH by assumption; reflexivity.
Qed.
Lemma from_matrix_list n es : Forall (in_range n) es -> NoDup (map fst es) -> forall d,
  (forall row col v td, In (row, col, v) es -> In td d -> teqb (fst td) (entry_term n row col) = false) ->
  fold_left (fun d e => let '(row, col, v) := e in dict_set d (entry_term n row col) v) es d = d ++ map (fun e => (entry_term n (fst (fst e)) (snd (fst e)), snd e)) es.
Proof.
  induction es as [|[[row col] v] es IH]; intros R ND d F; cbn [fold_left map fst snd]; [rewrite app_nil_r; reflexivity|].
  inversion R; subst. inversion ND; subst. rewrite dict_set_fresh by (intros td Htd; apply (F row col v); [left; reflexivity|exact Htd]).
  rewrite IH; [rewrite <- app_assoc; reflexivity|assumption|assumption|].
  intros r' c' v' td Hin Htd. apply in_app_iff in Htd. destruct Htd as [Htd|[<-|[]]]; [apply (F r' c' v'); [right; exact Hin|exact Htd]|]. cbn [fst].
  apply not_true_iff_false. intros E. rewrite Forall_forall in H2. assert (Q := H2 _ Hin). cbn in Q, H1. apply entry_teqb in E; try tauto. destruct E as [-> ->].
  apply H3. apply (in_map fst) in Hin. exact Hin.
Qed.
Lemma from_matrix_ok n es : Forall (in_range n) es -> NoDup (map fst es) -> forall i j, 0 <= i < 2 ^ Z.of_nat n -> 0 <= j < 2 ^ Z.of_nat n ->
  omat n (from_matrix n es) (bits_msb n i) (bits_msb n j) = gsum es (fun e => if (fst (fst e) =? i) && (snd (fst e) =? j) then snd e else g0).
Proof.
  intros R ND i j Hi Hj. unfold from_matrix. rewrite from_matrix_list by (auto; intros ? ? ? ? ? []). cbn [app]. unfold omat. rewrite gsum_map. apply gsum_ext.
  intros [[row col] v] Hin. cbn [fst snd]. rewrite Forall_forall in R. specialize (R _ Hin). cbn in R. rewrite entry_mat by apply bits_msb_length.
  assert (B : forall x y, 0 <= x < 2 ^ Z.of_nat n -> 0 <= y < 2 ^ Z.of_nat n -> leqb (bits_msb n x) (bits_msb n y) = (x =? y)).
  { intros x y Hx Hy. apply eq_true_iff_eq. rewrite leqb_eq, Z.eqb_eq. split; [apply bits_msb_inj; assumption|congruence]. }
  rewrite !B by tauto. destruct ((row =? i) && (col =? j)); ring.
Qed.
