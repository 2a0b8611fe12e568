(** Proofs for PauliModel. *)
From Coq Require Import Permutation Ring.
From Verif.Operators Require Import PauliModel PauliSpec.
Local Open Scope Z_scope.

(** ** the ring of Gaussian integers *)
Ltac gcrush := intros; unfold g0, g1, gi, gadd, gneg, gsub, gmul, gconj in *; cbn [fst snd] in *;
  repeat match goal with x : G |- _ => destruct x end; cbn [fst snd] in *; f_equal; ring.
Lemma gadd_comm x y : gadd x y = gadd y x. Proof. gcrush. Qed.
Lemma gmul_comm x y : gmul x y = gmul y x. Proof. gcrush. Qed.
Lemma gadd_0_l x : gadd g0 x = x. Proof. gcrush. Qed.
Lemma gmul_1_l x : gmul g1 x = x. Proof. gcrush. Qed.
Lemma gmul_0_l x : gmul g0 x = g0. Proof. gcrush. Qed.
Lemma gmul_0_r x : gmul x g0 = g0. Proof. gcrush. Qed.
Lemma gring : ring_theory g0 g1 gadd gmul gsub gneg eq.
Proof. constructor; try reflexivity; gcrush. Qed.
Add Ring gaussian : gring.
Arguments gadd : simpl never.
Arguments gmul : simpl never.
Arguments gneg : simpl never.
Arguments gsub : simpl never.
Arguments gconj : simpl never.
Arguments geqb : simpl never.
Arguments g0 : simpl never.
Arguments g1 : simpl never.

Lemma geqb_eq a b : geqb a b = true <-> a = b.
Proof.
  destruct a, b. unfold geqb. cbn. rewrite andb_true_iff, !Z.eqb_eq. split; [intros [-> ->]; reflexivity|intros [= -> ->]; auto].
Qed.
Lemma geqb_false a b : geqb a b = false <-> a <> b.
Proof. rewrite <- not_true_iff_false, geqb_eq. reflexivity. Qed.
Lemma gmul_zero a b : gmul a b = g0 -> a = g0 \/ b = g0.
Proof.
  destruct a as [a b0], b as [c d]. unfold gmul, g0. cbn. intros [= E1 E2].
  assert (N : (a * a + b0 * b0) * (c * c + d * d) = 0).
  { replace ((a * a + b0 * b0) * (c * c + d * d)) with ((a * c - b0 * d) * (a * c - b0 * d) + (a * d + b0 * c) * (a * d + b0 * c)) by ring. rewrite E1, E2. reflexivity. }
  apply Z.mul_eq_0 in N. destruct N; [left|right]; f_equal; nia.
Qed.
Lemma feqb_eq a b : feqb a b = true <-> a = b.
Proof. destruct a, b; cbn; split; congruence. Qed.
Lemma feqb_refl a : feqb a a = true. Proof. apply feqb_eq. reflexivity. Qed.

(** ** sums *)
Lemma gsum_app {A} (l1 l2 : list A) f : gsum (l1 ++ l2) f = gadd (gsum l1 f) (gsum l2 f).
Proof. induction l1 as [|x l IH]; cbn; [ring|].  rewrite IH. ring. Qed.
Lemma gsum_map {A B} (g : A -> B) l f : gsum (map g l) f = gsum l (fun x => f (g x)).
Proof. induction l as [|x l IH]; cbn; [reflexivity|].  rewrite IH. reflexivity. Qed.
Lemma gsum_ext {A} (l : list A) f g : (forall x, In x l -> f x = g x) -> gsum l f = gsum l g.
Proof. induction l as [|x l IH]; intros H; cbn; [reflexivity|]. rewrite (H x) by (left; reflexivity). f_equal. apply IH. intros y Hy. apply H. right. exact Hy. Qed.
Lemma gsum_scale {A} (l : list A) f k : gsum l (fun x => gmul k (f x)) = gmul k (gsum l f).
Proof. induction l as [|x l IH]; cbn; [ring|].  rewrite IH. ring. Qed.
Lemma gsum_scale_r {A} (l : list A) f k : gsum l (fun x => gmul (f x) k) = gmul (gsum l f) k.
Proof. induction l as [|x l IH]; cbn; [ring|].  rewrite IH. ring. Qed.
Lemma gsum_add {A} (l : list A) f g : gsum l (fun x => gadd (f x) (g x)) = gadd (gsum l f) (gsum l g).
Proof. induction l as [|x l IH]; cbn; [ring|].  rewrite IH. ring. Qed.
Lemma gsum_0 {A} (l : list A) : gsum l (fun _ => g0) = g0.
Proof. induction l as [|x l IH]; cbn; [ring|].  rewrite IH. ring. Qed.
Lemma gsum_swap {A B} (l : list A) (l' : list B) f : gsum l (fun x => gsum l' (f x)) = gsum l' (fun y => gsum l (fun x => f x y)).
Proof.
  induction l as [|x l IH]; cbn; [symmetry; apply gsum_0|]. fold (gsum l (fun x => gsum l' (f x))). rewrite IH, <- gsum_add. reflexivity.
Qed.

(** ** single-qubit facts, by exhaustion over the table *)
Lemma table_ok a b r c :
  gadd (gmul (mat1 a r false) (mat1 b false c)) (gmul (mat1 a r true) (mat1 b true c)) =
  gmul (snd (pauli_table a b)) (mat1 (fst (pauli_table a b)) r c).
Proof. destruct a, b, r, c; reflexivity. Qed.
Lemma table_I_coeff a b : fst (pauli_table a b) = FI -> snd (pauli_table a b) <> g0 -> snd (pauli_table a b) = g1.
Proof. destruct a, b; cbn; try discriminate; try reflexivity; intros _ H; contradiction H; reflexivity. Qed.
Lemma mat1_adj f r c : mat1 (fadj f) r c = gconj (mat1 f c r).
Proof. destruct f, r, c; reflexivity. Qed.
Lemma operator_matrices_eq f r c : operator_matrices f r c = mat1 f r c.
Proof. destruct f, r, c; reflexivity. Qed.

(** ** tensor products *)
Definition tfst (a b : factor) := fst (pauli_table a b).
Definition tsnd (a b : factor) := snd (pauli_table a b).
Fixpoint map2 (fs gs : list factor) : list factor := match fs, gs with f :: fs, g :: gs => tfst f g :: map2 fs gs | _, _ => [] end.
Fixpoint coeffs (fs gs : list factor) : G := match fs, gs with f :: fs, g :: gs => gmul (tsnd f g) (coeffs fs gs) | _, _ => g1 end.

Lemma tensor_mul fs : forall gs r c, length gs = length fs -> length r = length fs -> length c = length fs ->
  mprod (length fs) (tensor fs) (tensor gs) r c = gmul (coeffs fs gs) (tensor (map2 fs gs) r c).
Proof.
  induction fs as [|f fs IH]; intros gs r c Lg Lr Lc.
  - destruct gs, r, c; try discriminate. reflexivity.
  - destruct gs as [|g gs], r as [|x r], c as [|y c]; try discriminate. cbn [length] in *. injection Lg as Lg. injection Lr as Lr. injection Lc as Lc.
    unfold mprod. cbn [bitstrings]. rewrite gsum_app, !gsum_map. cbn [tensor].
    rewrite (gsum_ext _ _ (fun m => gmul (gmul (mat1 f x false) (mat1 g false y)) (gmul (tensor fs r m) (tensor gs m c)))) by (intros; ring).
    rewrite (gsum_ext (bitstrings (length fs)) (fun m => gmul (gmul (mat1 f x true) _) _) (fun m => gmul (gmul (mat1 f x true) (mat1 g true y)) (gmul (tensor fs r m) (tensor gs m c)))) by (intros; ring).
    rewrite !gsum_scale. fold (mprod (length fs) (tensor fs) (tensor gs) r c). rewrite IH by assumption.
    cbn [coeffs map2 tensor]. unfold tsnd at 1, tfst. 
    transitivity (gmul (gadd (gmul (mat1 f x false) (mat1 g false y)) (gmul (mat1 f x true) (mat1 g true y))) (gmul (coeffs fs gs) (tensor (map2 fs gs) r c))); [ring|].
    rewrite table_ok. ring.
Qed.

Lemma factors_length n t : length (factors n t) = n.
Proof. unfold factors. rewrite map_length, seq_length. reflexivity. Qed.

Lemma get_out t k : ~ In k (dom t) -> get t k = FI.
Proof.
  induction t as [|[j f] t IH]; cbn; intros H; [reflexivity|]. destruct (Nat.eqb_spec j k); [subst; exfalso; auto|apply IH; auto].
Qed.
Lemma get_app t1 t2 k : ~ In k (dom t1) -> get (t1 ++ t2) k = get t2 k.
Proof.
  induction t1 as [|[j f] t IH]; cbn; intros H; [reflexivity|]. destruct (Nat.eqb_spec j k); [subst; exfalso; auto|apply IH; auto].
Qed.
Lemma get_app_in t1 t2 k : In k (dom t1) -> get (t1 ++ t2) k = get t1 k.
Proof.
  induction t1 as [|[j f] t IH]; cbn; intros H; [contradiction|]. destruct (Nat.eqb_spec j k); [reflexivity|]. apply IH. intuition congruence.
Qed.

(** products over index lists *)
Fixpoint gprod (l : list nat) (f : nat -> G) : G := match l with [] => g1 | k :: l => gmul (f k) (gprod l f) end.
Lemma gprod_perm l l' f : Permutation l l' -> gprod l f = gprod l' f.
Proof. induction 1; cbn; try congruence; ring. Qed.
Lemma gprod_app l l' f : gprod (l ++ l') f = gmul (gprod l f) (gprod l' f).
Proof. induction l as [|k l IH]; cbn; [ring|].  rewrite IH. ring. Qed.
Lemma gprod_one l f : (forall k, In k l -> f k = g1) -> gprod l f = g1.
Proof. induction l as [|k l IH]; intros H; cbn; [reflexivity|]. rewrite (H k) by (left; reflexivity). fold (gprod l f). rewrite IH; [ring|]. intros j Hj. apply H. right. exact Hj. Qed.
Lemma gprod_sub n keys f : NoDup keys -> (forall k, In k keys -> (k < n)%nat) -> (forall k, ~ In k keys -> f k = g1) ->
  gprod (seq 0 n) f = gprod keys f.
Proof.
  intros ND B O. set (rest := filter (fun k => negb (existsb (Nat.eqb k) keys)) (seq 0 n)).
  assert (R : forall k, In k rest <-> (k < n)%nat /\ ~ In k keys).
  { intros k. unfold rest. rewrite filter_In, in_seq. split.
    - intros [H1 H2]. split; [lia|]. intros H. apply negb_true_iff in H2. rewrite <- not_true_iff_false in H2. apply H2. apply existsb_exists. exists k. split; [exact H|apply Nat.eqb_refl].
    - intros [H1 H2]. split; [lia|]. apply negb_true_iff, not_true_iff_false. intros H. apply existsb_exists in H. destruct H as (j & Hj & E). apply Nat.eqb_eq in E. congruence. }
  assert (P : Permutation (seq 0 n) (keys ++ rest)).
  { apply NoDup_Permutation.
    - apply seq_NoDup.
    - assert (NR : NoDup rest) by (apply NoDup_filter, seq_NoDup). assert (D : forall k, In k keys -> ~ In k rest) by (intros k Hk Hr; apply R in Hr; tauto).
      clearbody rest. clear -ND NR D. induction keys as [|h t IH]; [exact NR|]. inversion ND; subst. cbn. constructor.
      + rewrite in_app_iff. intros [H|H]; [auto|]. apply (D h); [left; reflexivity|exact H].
      + apply IH; [assumption|]. intros k Hk. apply D. right. exact Hk.
    - intros k. rewrite in_app_iff, R, in_seq. split.
      + intros Hk. destruct (in_dec Nat.eq_dec k keys); [left; assumption|right; split; [lia|assumption]].
      + intros [H|[H _]]; [apply B in H|]; lia. }
  rewrite (gprod_perm _ _ _ P), gprod_app, (gprod_one rest); [ring|]. intros k Hk. apply O. apply R in Hk. tauto.
Qed.
Lemma coeffs_map (f g : nat -> factor) l : coeffs (map f l) (map g l) = gprod l (fun k => tsnd (f k) (g k)).
Proof. induction l as [|k l IH]; cbn; [reflexivity|]. rewrite IH. reflexivity. Qed.
Lemma map2_map (f g : nat -> factor) l : map2 (map f l) (map g l) = map (fun k => tfst (f k) (g k)) l.
Proof. induction l as [|k l IH]; cbn; [reflexivity|]. rewrite IH. reflexivity. Qed.

(** ** the multiplication loop *)
Lemma gprod_zero l f k : In k l -> f k = g0 -> gprod l f = g0.
Proof. induction l as [|j l IH]; intros H E; [contradiction|]. cbn. fold (gprod l f). destruct H as [->|H]; [rewrite E; ring|rewrite (IH H E); ring]. Qed.

Lemma mul_loop_zero a b keys : (exists k, In k keys /\ tsnd (get a k) (get b k) = g0) -> forall res co, mul_loop a b keys res co = ([], g0).
Proof.
  induction keys as [|k keys IH]; intros (j & Hj & E) res co; [contradiction|]. cbn [mul_loop].
  destruct (pauli_table (get a k) (get b k)) as [f c] eqn:Et. destruct (geqb c g0) eqn:Ec; [reflexivity|].
  destruct Hj as [->|Hj]; [unfold tsnd in E; rewrite Et in E; cbn in E; subst; discriminate|].
  destruct (feqb f FI); apply IH; exists j; auto.
Qed.
Lemma mul_loop_ok a b keys : NoDup keys -> (forall k, In k keys -> tsnd (get a k) (get b k) <> g0) ->
  forall res co, (forall k, In k keys -> ~ In k (dom res)) ->
  snd (mul_loop a b keys res co) = gmul co (gprod keys (fun k => tsnd (get a k) (get b k))) /\
  forall j, get (fst (mul_loop a b keys res co)) j = if existsb (Nat.eqb j) keys then tfst (get a j) (get b j) else get res j.
Proof.
  induction keys as [|k keys IH]; intros ND NZ res co D; [cbn; split; [ring|reflexivity]|].
  inversion ND as [|? ? Nk ND']; subst. assert (NZk := NZ k (or_introl eq_refl)).
  assert (Hex : existsb (Nat.eqb k) keys = false).
  { apply not_true_iff_false. intros H. apply existsb_exists in H. destruct H as (x & Hx & E). apply Nat.eqb_eq in E. congruence. }
  cbn [mul_loop gprod existsb]. fold (gprod keys (fun k => tsnd (get a k) (get b k))).
  assert (NZ' : forall j, In j keys -> tsnd (get a j) (get b j) <> g0) by (intros j Hj; apply NZ; right; exact Hj).
  destruct (pauli_table (get a k) (get b k)) as [f c] eqn:Et.
  assert (Ef : tfst (get a k) (get b k) = f) by (unfold tfst; rewrite Et; reflexivity). assert (Ec : tsnd (get a k) (get b k) = c) by (unfold tsnd; rewrite Et; reflexivity).
  rewrite Ec in *. destruct (geqb c g0) eqn:Eg; [apply geqb_eq in Eg; contradiction|].
  destruct (feqb f FI) eqn:Ei.
  - apply feqb_eq in Ei. assert (c = g1). { rewrite <- Ec. apply table_I_coeff; fold (tfst (get a k) (get b k)); fold (tsnd (get a k) (get b k)); congruence. }
    destruct (IH ND' NZ' res co ltac:(intros j Hj; apply D; right; exact Hj)) as [H1 H2]. split.
    + rewrite H1, H. ring.
    + intros j. rewrite H2. destruct (Nat.eqb_spec j k) as [->|]; cbn [orb]; [|reflexivity]. rewrite Hex, Ef, Ei. apply get_out. apply D. left. reflexivity.
  - destruct (IH ND' NZ' (res ++ [(k, f)]) (gmul co c)) as [H1 H2].
    { intros j Hj. unfold dom. rewrite map_app, in_app_iff. cbn. intros [H|[H|[]]]; [apply (D j); [right; exact Hj|exact H]|subst; contradiction]. }
    split; [rewrite H1; ring|]. intros j. rewrite H2.
    destruct (Nat.eqb_spec j k) as [->|Hn]; cbn [orb].
    + rewrite Hex, Ef. rewrite get_app by (apply D; left; reflexivity). cbn. rewrite Nat.eqb_refl. reflexivity.
    + destruct (existsb (Nat.eqb j) keys); [reflexivity|]. destruct (in_dec Nat.eq_dec j (dom res)).
      * apply get_app_in. exact i.
      * rewrite get_app by exact n. cbn. destruct (Nat.eqb_spec k j); [congruence|]. symmetry. apply get_out. exact n.
Qed.
Lemma mul_loop_dom a b keys : forall res co k, In k (dom (fst (mul_loop a b keys res co))) -> In k keys \/ In k (dom res).
Proof.
  induction keys as [|h keys IH]; intros res co k; cbn [mul_loop]; [auto|].
  destruct (pauli_table (get a h) (get b h)) as [f c]. destruct (geqb c g0); [cbn; tauto|]. destruct (feqb f FI); intros H; apply IH in H.
  - destruct H; [left; right; assumption|right; assumption].
  - unfold dom in H. rewrite map_app, in_app_iff in H. cbn in H. cbn. intuition.
Qed.

Lemma existsb_In j keys : existsb (Nat.eqb j) keys = true <-> In j keys.
Proof. rewrite existsb_exists. split; [intros (x & H & E); apply Nat.eqb_eq in E; congruence|intros H; exists j; split; [exact H|apply Nat.eqb_refl]]. Qed.

(** everything about the product of two terms *)
Lemma tmul_spec n keys a b : covers keys a b -> within n a -> within n b ->
  let '(t, co) := tmul keys a b in
  co = coeffs (factors n a) (factors n b) /\ (co <> g0 -> factors n t = map2 (factors n a) (factors n b)) /\ within n t.
Proof.
  intros [ND K] Wa Wb. unfold factors. rewrite coeffs_map, map2_map.
  assert (B : forall k, In k keys -> (k < n)%nat) by (intros k Hk; apply K in Hk; destruct Hk; auto).
  assert (Out : forall k, ~ In k keys -> get a k = FI /\ get b k = FI).
  { intros k Hk. split; apply get_out; intros H; apply Hk; apply K; auto. }
  destruct (tmul keys a b) as [t co] eqn:E.
  assert (W : within n t).
  { intros k Hk. assert (H := mul_loop_dom a b keys [] g1 k). fold (tmul keys a b) in H. rewrite E in H. specialize (H Hk). cbn in H. destruct H as [H|[]]. auto. }
  rewrite (gprod_sub n keys) by (auto; intros k Hk; destruct (Out k Hk) as [-> ->]; reflexivity).
  destruct (Exists_dec (fun k => tsnd (get a k) (get b k) = g0) keys) as [Ex|NEx].
  { intros k. destruct (geqb (tsnd (get a k) (get b k)) g0) eqn:Eg; [left; apply geqb_eq; exact Eg|right; apply geqb_false; exact Eg]. }
  - apply Exists_exists in Ex. destruct Ex as (k & Hk & Ek). unfold tmul in E. rewrite mul_loop_zero in E by (exists k; auto). injection E as <- <-.
    rewrite (gprod_zero keys _ k Hk Ek). split; [reflexivity|]. split; [intros H; contradiction H; reflexivity|exact W].
  - assert (NZ : forall k, In k keys -> tsnd (get a k) (get b k) <> g0).
    { intros k Hk H. apply NEx. apply Exists_exists. exists k. auto. }
    destruct (mul_loop_ok a b keys ND NZ [] g1 ltac:(auto)) as [H1 H2]. fold (tmul keys a b) in H1, H2. rewrite E in H1, H2. cbn [fst snd] in *.
    split; [rewrite H1; ring|]. split; [|exact W]. intros _. apply map_ext. intros k. rewrite H2.
    destruct (existsb (Nat.eqb k) keys) eqn:Ek; [reflexivity|]. cbn. destruct (Out k) as [-> ->]; [|reflexivity]. intros H. apply existsb_In in H. congruence.
Qed.
Lemma tmul_ok n keys a b : covers keys a b -> within n a -> within n b ->
  forall r c, length r = n -> length c = n ->
  mprod n (tmat n a) (tmat n b) r c = gmul (snd (tmul keys a b)) (tmat n (fst (tmul keys a b)) r c).
Proof.
  intros Cv Wa Wb r c Lr Lc. assert (S := tmul_spec n keys a b Cv Wa Wb). destruct (tmul keys a b) as [t co]. destruct S as (H1 & H2 & _). cbn [fst snd].
  unfold tmat. assert (T := tensor_mul (factors n a) (factors n b) r c). rewrite !factors_length in T. rewrite T by auto. rewrite <- H1.
  destruct (geqb co g0) eqn:E; [apply geqb_eq in E; rewrite E; ring|]. apply geqb_false in E. rewrite (H2 E). reflexivity.
Qed.

(** ** adjoint *)
Lemma get_tadj t k : get (tadj t) k = if (match get t k with FI => true | _ => false end) then get (tadj t) k else fadj (get t k).
Proof.
  destruct (get t k) eqn:E; try reflexivity; cbn [fadj].
  all: induction t as [|[j f] t IH]; cbn in E; [discriminate|]; destruct (Nat.eqb_spec j k).
  all: try (subst; cbn; rewrite Nat.eqb_refl; reflexivity).
  all: specialize (IH E); cbn [tadj flat_map]; fold (tadj t); destruct f; cbn; try exact IH; destruct (Nat.eqb_spec j k); congruence.
Qed.
Definition nice (t : term) : Prop := NoDup (dom t).
Lemma get_in_FI t k : nice t -> In (k, FI) t -> get t k = FI.
Proof.
  induction t as [|[j f] t IH]; intros N H; [contradiction|]. cbn. inversion N; subst. destruct H as [[= -> ->]|H]; [rewrite Nat.eqb_refl; reflexivity|].
  destruct (Nat.eqb_spec j k); [|apply IH; assumption]. subst. exfalso. apply H2. apply (in_map fst) in H. exact H.
Qed.
Lemma dom_tadj t k : In k (dom (tadj t)) -> In k (dom t).
Proof.
  induction t as [|[j f] t IH]; cbn; [tauto|]. fold (tadj t). unfold dom. rewrite map_app, in_app_iff. destruct f; cbn; intuition.
Qed.
Lemma get_tadj_ok t : nice t -> forall k, get (tadj t) k = fadj (get t k).
Proof.
  induction t as [|[j f] t IH]; intros N k; [reflexivity|]. inversion N as [|? ? Nj Nt]; subst. cbn [get].
  destruct (Nat.eqb_spec j k) as [->|Hn].
  - cbn [tadj flat_map fst snd]. fold (tadj t). destruct f; cbn; rewrite ?Nat.eqb_refl; try reflexivity.
    apply get_out. intros H. apply dom_tadj in H. contradiction.
  - cbn [tadj flat_map fst snd]. fold (tadj t). rewrite <- IH by assumption.
    destruct f; cbn; try reflexivity; destruct (Nat.eqb_spec j k); congruence.
Qed.
Lemma gconj_mul x y : gconj (gmul x y) = gmul (gconj x) (gconj y). Proof. gcrush. Qed.
Lemma gconj_add x y : gconj (gadd x y) = gadd (gconj x) (gconj y). Proof. gcrush. Qed.
Lemma gconj_conj x : gconj (gconj x) = x. Proof. gcrush. Qed.
Lemma tensor_adj fs : forall r c, length r = length fs -> length c = length fs -> tensor (map fadj fs) r c = gconj (tensor fs c r).
Proof.
  induction fs as [|f fs IH]; intros [|x r] [|y c] Lr Lc; try discriminate; [reflexivity|]. cbn. rewrite IH, gconj_mul, mat1_adj by (cbn in *; lia). reflexivity.
Qed.
Lemma tadj_ok n t : nice t -> forall r c, length r = n -> length c = n -> tmat n (tadj t) r c = gconj (tmat n t c r).
Proof.
  intros N r c Lr Lc. unfold tmat. rewrite <- tensor_adj by (rewrite factors_length; assumption). f_equal. unfold factors. rewrite map_map. apply map_ext.
  intros k. apply get_tadj_ok. exact N.
Qed.

(** ** operators *)
Lemma teqb_factors a b n : teqb a b = true -> factors n a = factors n b.
Proof.
  intros H. unfold factors. apply map_ext. intros k. unfold teqb in H. rewrite forallb_forall in H.
  destruct (in_dec Nat.eq_dec k (dom a ++ dom b)) as [Hi|Hn]; [apply feqb_eq, H, Hi|].
  rewrite in_app_iff in Hn. rewrite !get_out by tauto. reflexivity.
Qed.
Lemma teqb_get a b : teqb a b = true <-> forall k, get a k = get b k.
Proof.
  split.
  - intros H k. unfold teqb in H. rewrite forallb_forall in H.
    destruct (in_dec Nat.eq_dec k (dom a ++ dom b)) as [Hi|Hn]; [apply feqb_eq, H, Hi|].
    rewrite in_app_iff in Hn. rewrite !get_out by tauto. reflexivity.
  - intros H. unfold teqb. apply forallb_forall. intros k _. rewrite H. apply feqb_refl.
Qed.
Lemma dict_add_del_mat n d t v r c : omat n (dict_add_del d t v) r c = gadd (omat n d r c) (gmul v (tmat n t r c)).
Proof.
  induction d as [|[t' v'] d IH]; cbn [dict_add_del].
  - destruct (geqb v g0) eqn:E; [apply geqb_eq in E; subst|]; cbn; ring.
  - destruct (teqb t' t) eqn:Et.
    + assert (Em : tmat n t' r c = tmat n t r c) by (unfold tmat; rewrite (teqb_factors _ _ n Et); reflexivity).
      destruct (geqb (gadd v' v) g0) eqn:E.
      * apply geqb_eq in E. cbn. fold (omat n d r c). rewrite Em.
        transitivity (gadd (omat n d r c) (gmul (gadd v' v) (tmat n t r c))); [rewrite E; ring|ring].
      * cbn. rewrite Em. ring.
    + cbn. cbn in IH. fold (omat n (dict_add_del d t v) r c). rewrite IH. cbn. unfold omat. ring.
Qed.
Lemma dict_add_mat n d t v r c : omat n (dict_add d t v) r c = gadd (omat n d r c) (gmul v (tmat n t r c)).
Proof.
  induction d as [|[t' v'] d IH]; cbn [dict_add]; [cbn; ring|]. destruct (teqb t' t) eqn:Et.
  - assert (Em : tmat n t' r c = tmat n t r c) by (unfold tmat; rewrite (teqb_factors _ _ n Et); reflexivity). cbn. rewrite Em. ring.
  - cbn. fold (omat n (dict_add d t v) r c). rewrite IH. unfold omat. ring.
Qed.
Lemma fold_add_mat n (f : G -> G) l r c : forall d, omat n (fold_left (fun d tc => dict_add_del d (fst tc) (f (snd tc))) l d) r c =
  gadd (omat n d r c) (gsum l (fun tc => gmul (f (snd tc)) (tmat n (fst tc) r c))).
Proof. induction l as [|[t v] l IH]; intros d; cbn [fold_left gsum fst snd]; [ring|]. rewrite IH, dict_add_del_mat. ring. Qed.

Lemma oadd_ok n a b r c : omat n (oadd a b) r c = gadd (omat n a r c) (omat n b r c).
Proof. unfold oadd. rewrite !(fold_add_mat n (fun x => x)). cbn. unfold omat. ring. Qed.
Lemma gsum_neg n l r c : gsum l (fun tc => gmul (gneg (snd tc)) (tmat n (fst tc) r c)) = gneg (omat n l r c).
Proof. unfold omat. induction l as [|x l IH]; cbn; [ring|].  rewrite IH. ring. Qed.
Lemma osub_ok n a b r c : omat n (osub a b) r c = gsub (omat n a r c) (omat n b r c).
Proof. unfold osub. rewrite (fold_add_mat n gneg), (fold_add_mat n (fun x => x)), gsum_neg. cbn. unfold omat. ring. Qed.
Lemma orsub_ok n a b r c : omat n (orsub a b) r c = gsub (omat n b r c) (omat n a r c).
Proof. unfold orsub. rewrite (fold_add_mat n (fun x => x)), (fold_add_mat n gneg), gsum_neg. cbn. unfold omat. ring. Qed.

Lemma filter_mat n d r c : omat n (filter (fun tc => negb (geqb (snd tc) g0)) d) r c = omat n d r c.
Proof.
  induction d as [|[t v] d IH]; [reflexivity|]. cbn [filter snd]. destruct (geqb v g0) eqn:E; cbn [negb].
  - rewrite IH. apply geqb_eq in E. subst. cbn. unfold omat. ring.
  - cbn. fold (omat n d r c). rewrite <- IH. reflexivity.
Qed.
Lemma omul_ok n ord a b : enumerates ord -> owithin n a -> owithin n b -> forall r c, length r = n -> length c = n ->
  omat n (omul ord a b) r c = mprod n (omat n a) (omat n b) r c.
Proof.
  intros En Wa Wb r c Lr Lc. unfold omul. rewrite filter_mat.
  assert (Inner : forall t1 v1, within n t1 -> forall l d, owithin n l ->
    omat n (fold_left (fun d tc2 => let '(t, c0) := tmul (ord t1 (fst tc2)) t1 (fst tc2) in dict_add d t (gmul (gmul c0 v1) (snd tc2))) l d) r c =
    gadd (omat n d r c) (gmul v1 (mprod n (tmat n t1) (omat n l) r c))).
  { intros t1 v1 W1. induction l as [|[t2 v2] l IH]; intros d Wl.
    - cbn [fold_left]. unfold mprod. rewrite (gsum_ext _ _ (fun _ => g0)), gsum_0; [ring|]. intros. cbn. ring.
    - cbn [fold_left fst snd]. assert (T := tmul_ok n (ord t1 t2) t1 t2 (En t1 t2) W1 (Wl (t2, v2) (or_introl eq_refl)) r c Lr Lc).
      destruct (tmul (ord t1 t2) t1 t2) as [t c0]. cbn [fst snd] in T. rewrite IH by (intros x Hx; apply Wl; right; exact Hx). rewrite dict_add_mat.
      replace (mprod n (tmat n t1) (omat n ((t2, v2) :: l)) r c) with (gadd (gmul v2 (mprod n (tmat n t1) (tmat n t2) r c)) (mprod n (tmat n t1) (omat n l) r c)).
      + rewrite T. ring.
      + unfold mprod. rewrite <- gsum_scale, <- gsum_add. apply gsum_ext. intros m _. cbn. unfold omat. ring. }
  assert (Outer : forall l d, owithin n l ->
    omat n (fold_left (fun d tc1 => fold_left (fun d tc2 => let '(t, c0) := tmul (ord (fst tc1) (fst tc2)) (fst tc1) (fst tc2) in
        dict_add d t (gmul (gmul c0 (snd tc1)) (snd tc2))) b d) l d) r c = gadd (omat n d r c) (mprod n (omat n l) (omat n b) r c)).
  { induction l as [|[t1 v1] l IH]; intros d Wl.
    - cbn [fold_left]. unfold mprod. rewrite (gsum_ext _ _ (fun _ => g0)), gsum_0; [ring|]. intros. cbn. ring.
    - cbn [fold_left fst snd]. rewrite IH by (intros x Hx; apply Wl; right; exact Hx).
      rewrite Inner by (auto; apply (Wl (t1, v1)); left; reflexivity).
      replace (mprod n (omat n ((t1, v1) :: l)) (omat n b) r c) with (gadd (gmul v1 (mprod n (tmat n t1) (omat n b) r c)) (mprod n (omat n l) (omat n b) r c)); [ring|].
      unfold mprod. rewrite <- gsum_scale, <- gsum_add. apply gsum_ext. intros m _. cbn. unfold omat. ring. }
  rewrite Outer by exact Wa. cbn. ring.
Qed.
