(** Proofs about the classical parts of Shor's algorithm. *)
From Verif.ContFrac Require Import CFSpec CFProofs.
From Verif.Shor Require Import ShorSpec ShorModel.
From Coq Require Import ZArith List Lia Znumtheory Permutation Sorting.Sorted Bool.
Import ListNotations.
Local Open Scope Z_scope.

Lemma cf_iter_ok : forall fuel n d, 0 < d -> d <= Z.of_nat fuel -> cf_digits n d (cf_iter fuel n d).
Proof.
  induction fuel as [|f IH]; intros n d Hd Hf; [lia|].
  cbn [cf_iter]. pose proof (Z.mod_pos_bound n d Hd).
  destruct (Z.eqb_spec (n mod d) 0) as [E|E]; [now apply cf_last|].
  apply cf_next; [exact Hd|exact E|]. apply IH; lia.
Qed.
Lemma cf_conv_zconv : forall l p0 p1 q0 q1, cf_conv l p0 p1 q0 q1 = zconv l p0 p1 q0 q1.
Proof. induction l; intros; cbn [cf_conv zconv]; [reflexivity|]. now rewrite IHl. Qed.

Lemma zconv_sorted : forall l a b p0 p1 q0 q1, cf_digits a b l -> 0 <= a -> 0 <= q0 -> 0 <= q1 -> b <= a \/ q1 <= q0 ->
  StronglySorted Z.le (map snd (zconv l p0 p1 q0 q1)) /\ Forall (Z.le q1) (map snd (zconv l p0 p1 q0 q1)).
Proof.
  intros l a b p0 p1 q0 q1 H. revert p0 p1 q0 q1.
  assert (step : forall a b q0 q1, 0 < b -> 0 <= a -> 0 <= q0 -> 0 <= q1 -> b <= a \/ q1 <= q0 -> q1 <= a / b * q1 + q0).
  { intros a0 b0 q0 q1 Hb Ha H0 H1 [C|C].
    - assert (1 <= a0 / b0) by (apply Z.div_le_lower_bound; lia).
      assert (1 * q1 <= a0 / b0 * q1) by (apply Z.mul_le_mono_nonneg_r; lia). lia.
    - assert (0 <= a0 / b0) by (apply Z.div_pos; lia).
      assert (0 <= a0 / b0 * q1) by (apply Z.mul_nonneg_nonneg; lia). lia. }
  induction H as [a b Hb Hz|a b l Hb Hz HC IH]; intros p0 p1 q0 q1 Ha H0 H1 C; cbn [zconv map snd].
  - split; [repeat constructor|]. apply Forall_cons; [now apply step|apply Forall_nil].
  - pose proof (step a b q0 q1 Hb Ha H0 H1 C) as S. pose proof (Z.mod_pos_bound a b Hb).
    destruct (IH p1 (a / b * p1 + p0) q1 (a / b * q1 + q0)) as [I1 I2]; [lia|lia|lia|left; lia|].
    split; [now apply SSorted_cons|]. apply Forall_cons; [exact S|].
    eapply Forall_impl; [|exact I2]. intros x Hx. cbn in Hx. lia.
Qed.

Lemma find_first_sorted (f : Z -> bool) : forall l r, StronglySorted Z.le l -> In r l -> f r = true ->
  exists r', find f l = Some r' /\ r' <= r.
Proof.
  induction l as [|x l IH]; intros r HS HI Hf; [contradiction|].
  inversion HS as [|? ? HS' HF]; subst. cbn [find]. destruct (f x) eqn:E.
  - exists x. split; [reflexivity|]. destruct HI as [->|HI]; [lia|]. rewrite Forall_forall in HF. now apply HF.
  - destruct HI as [->|HI]; [congruence|]. now apply IH.
Qed.
Lemma sorted_filter (f : Z -> bool) : forall l, StronglySorted Z.le l -> StronglySorted Z.le (filter f l).
Proof.
  induction 1 as [|x l HS IH HF]; cbn [filter]; [constructor|].
  destruct (f x); [|exact IH]. constructor; [exact IH|]. rewrite Forall_forall in *. intros y Hy.
  apply filter_In in Hy. now apply HF.
Qed.

Lemma r_values_sound x r : In r (get_r_values x) -> 1 < r.
Proof. destruct x as [n d]. unfold get_r_values. intros H. apply filter_In in H. destruct H as [_ H]. now apply Z.ltb_lt. Qed.

Lemma extract_recovers mes rest a N n d s r :
  remove_zero mes = (n, d) :: rest -> 0 <= n -> 0 < d -> order_of a N r -> 1 < r -> Z.gcd s r = 1 ->
  2 * r * Z.abs (n * r - d * s) < d -> extract_order mes a N = Ok (PyInt r).
Proof.
  intros HM Hn Hd (R1 & R2 & R3) Hr G HE. unfold extract_order. rewrite HM. cbn [extract_loop].
  set (ds := cf_iter (Z.to_nat d) n d).
  assert (HC : cf_digits n d ds) by (apply cf_iter_ok; lia).
  destruct (legendre_core n d s r ds n d 0 1 1 0 HC Hn (st_inv_init n d) Hd ltac:(lia) G ltac:(lia) eq_refl HE) as [E|HI].
  { injection E as _ E. lia. }
  destruct (zconv_sorted ds n d 0 1 1 0 HC Hn ltac:(lia) ltac:(lia) ltac:(lia)) as [HS _].
  assert (HI' : In r (get_r_values (n, d))).
  { unfold get_r_values. apply filter_In. split; [|now apply Z.ltb_lt]. rewrite cf_conv_zconv. fold ds.
    change r with (snd (s, r)). now apply in_map. }
  destruct (find_first_sorted (fun r => is_order a N (PyInt r)) (get_r_values (n, d)) r) as (r' & F & L).
  - unfold get_r_values. apply sorted_filter. rewrite cf_conv_zconv. exact HS.
  - exact HI'.
  - unfold is_order, power. now apply Z.eqb_eq.
  - rewrite F. apply find_some in F. destruct F as [F1 F2]. apply r_values_sound in F1.
    unfold is_order, power in F2. apply Z.eqb_eq in F2.
    destruct (Z.lt_ge_cases r' r) as [C|C]; [exfalso; apply (R3 r'); [lia|exact F2]|].
    do 2 f_equal. lia.
Qed.

(** soundness of the extracted order *)
Definition sound (a N : Z) (r : num) : Prop :=
  match r with
  | PyInt r => 1 < r /\ a ^ r mod N = 1
  | Np64 r => 0 <= r /\ wrap64 (a ^ r) mod N = 1
  end.
Lemma first_comb_sound a N : forall rs r, first_comb a N rs = Ok (Some r) -> sound a N r.
Proof.
  induction rs as [|x rs IH]; intros r H; cbn [first_comb] in H; [discriminate|].
  unfold power in H. destruct (Z.ltb_spec x 0); [discriminate|].
  destruct (Z.eqb_spec (wrap64 (a ^ x) mod N) 1) as [E|E]; [|now apply IH].
  injection H as <-. now split.
Qed.
Lemma extract_sound a N : forall l c r, extract_loop a N l c = Ok r -> sound a N r.
Proof.
  induction l as [|x l IH]; intros c r H; cbn [extract_loop] in H; [discriminate|].
  destruct (find (fun r => is_order a N (PyInt r)) (get_r_values x)) as [y|] eqn:F.
  - injection H as <-. apply find_some in F. destruct F as [F1 F2]. split; [now apply r_values_sound in F1|].
    unfold is_order, power in F2. now apply Z.eqb_eq.
  - destruct (first_comb a N (map lcm_reduce (product (c ++ [get_r_values x])))) as [[y|]| | |] eqn:FC; try discriminate.
    + injection H as <-. now apply first_comb_sound in FC.
    + eapply IH. exact H.
Qed.

Lemma wrap64_small x : - 2 ^ 63 <= x < 2 ^ 63 -> wrap64 x = x.
Proof. intros H. unfold wrap64. rewrite Z.mod_small; lia. Qed.

(** ** shors_alg *)
Lemma gcd_proper x N : 2 < N -> Z.gcd x N <> N -> Z.gcd x N <> 1 -> proper_divisor (Z.gcd x N) N.
Proof.
  intros HN H1 H2. pose proof (Z.gcd_nonneg x N). pose proof (Z.gcd_divide_r x N) as D.
  split; [exact D|]. assert (HN0 : 0 < N) by lia. pose proof (Z.divide_pos_le _ _ HN0 D).
  destruct (Z.eq_dec (Z.gcd x N) 0) as [E|]; [|lia]. apply Z.gcd_eq_0_r in E. lia.
Qed.
Lemma candidates_spec N a : In a (candidates N) -> 2 <= a /\ a < N - 1 /\ a < 100 /\ Z.gcd a N = 1.
Proof.
  unfold candidates. intros H. apply filter_In in H. destruct H as [H G]. apply Z.eqb_eq in G.
  apply in_map_iff in H. destruct H as (k & <- & H). apply in_seq in H. lia.
Qed.
Lemma candidates_complete N a : 2 <= a < N - 1 -> a < 100 -> Z.gcd a N = 1 -> In a (candidates N).
Proof.
  intros H1 H2 G. unfold candidates. apply filter_In. split; [|now apply Z.eqb_eq].
  apply in_map_iff. exists (Z.to_nat a). split; [lia|]. apply in_seq. lia.
Qed.

Lemma shor_loop_proper N order : 2 < N -> forall ps g, (forall a, In a ps -> Z.gcd a N = 1) ->
  shor_loop N order ps = Ok g -> proper_divisor g N.
Proof.
  intros HN. induction ps as [|a ps IH]; intros g HP H; cbn [shor_loop] in H; [discriminate|].
  rewrite (HP a (or_introl eq_refl)) in H. cbn [Z.eqb negb] in H.
  change (1 =? 1) with true in H. cbn [negb] in H.
  assert (HP' : forall a, In a ps -> Z.gcd a N = 1) by (intros; apply HP; now right).
  destruct (order a) as [r| | |]; try discriminate.
  destruct (num_val r mod 2 =? 0); cbn [negb] in H; [|now apply IH].
  destruct (power a _) as [p| | |]; try discriminate.
  set (x := match r with PyInt _ => p + 1 | Np64 _ => wrap64 (p + 1) end) in H.
  destruct (Z.eqb_spec (Z.gcd x N) N) as [E|E]; cbn [orb] in H; [now apply IH|].
  destruct (Z.eqb_spec (Z.gcd x N) 1) as [E'|E']; [now apply IH|].
  injection H as <-. now apply gcd_proper.
Qed.

Lemma even_order_factor a N r : 2 < N -> order_of a N r -> r mod 2 = 0 -> a ^ (r / 2) mod N <> N - 1 ->
  Z.gcd (a ^ (r / 2) + 1) N <> N /\ Z.gcd (a ^ (r / 2) + 1) N <> 1.
Proof.
  intros HN (R1 & R2 & R3) He Hm.
  assert (E : r = r / 2 + r / 2) by (pose proof (Z.div_mod r 2 ltac:(lia)); lia).
  assert (P : 0 < r / 2 < r) by lia.
  set (x := a ^ (r / 2)) in *.
  assert (X2 : (x * x) mod N = 1) by (unfold x; rewrite <- Z.pow_add_r by lia; rewrite <- E; exact R2).
  assert (D : (N | (x + 1) * (x - 1))).
  { apply Z.mod_divide; [lia|]. replace ((x + 1) * (x - 1)) with (x * x - 1) by ring.
    rewrite Zminus_mod, X2, (Z.mod_small 1) by lia. apply Z.mod_0_l. lia. }
  split; intros G.
  - apply Hm. pose proof (Z.gcd_divide_l (x + 1) N) as [k K]. rewrite G in K.
    replace x with (N - 1 + (k - 1) * N) by lia. rewrite Z.mod_add by lia. apply Z.mod_small. lia.
  - apply (R3 (r / 2) P). fold x. rewrite Z.gcd_comm in G. destruct (Z.gauss _ _ _ D G) as [k K].
    replace x with (1 + k * N) by lia. rewrite Z.mod_add by lia. apply Z.mod_small. lia.
Qed.

Lemma shor_loop_succeeds N order : 2 < N -> forall ps, (forall a, In a ps -> Z.gcd a N = 1) ->
  (forall a, In a ps -> exists r, order a = Ok (PyInt r) /\ order_of a N r) ->
  (exists a r, In a ps /\ order_of a N r /\ r mod 2 = 0 /\ a ^ (r / 2) mod N <> N - 1) ->
  exists g, shor_loop N order ps = Ok g.
Proof.
  intros HN. induction ps as [|a ps IH]; intros HP HO HE; [destruct HE as (? & ? & [] & _)|].
  assert (HP' : forall a, In a ps -> Z.gcd a N = 1) by (intros; apply HP; now right).
  assert (HO' : forall a, In a ps -> exists r, order a = Ok (PyInt r) /\ order_of a N r) by (intros; apply HO; now right).
  destruct (HO a (or_introl eq_refl)) as (r & Or & Hr).
  cbn [shor_loop]. rewrite (HP a (or_introl eq_refl)). change (1 =? 1) with true. cbn [negb].
  rewrite Or. cbn [num_val power].
  destruct HE as (b & rb & [<-|Hb] & Hrb & Eb & Mb).
  - assert (r = rb).
    { destruct Hr as (U1 & U2 & U3). destruct Hrb as (V1 & V2 & V3).
      destruct (Z.lt_trichotomy r rb) as [C|[C|C]]; [exfalso; apply (V3 r); [lia|exact U2]|exact C|
        exfalso; apply (U3 rb); [lia|exact V2]]. }
    subst rb. destruct (even_order_factor a N r HN Hr Eb Mb) as [G1 G2].
    rewrite Eb. cbn [Z.eqb negb]. change (0 =? 0) with true. cbn [negb].
    rewrite (proj2 (Z.eqb_neq _ _) G1), (proj2 (Z.eqb_neq _ _) G2). cbn [orb]. eexists. reflexivity.
  - destruct IH as [g Hg]; [exact HP'|exact HO'|exists b, rb; auto|].
    destruct (r mod 2 =? 0); cbn [negb]; [|exists g; exact Hg].
    destruct ((_ =? N) || (_ =? 1)); [exists g; exact Hg|eexists; reflexivity].
Qed.
