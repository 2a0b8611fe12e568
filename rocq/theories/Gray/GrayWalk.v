From Coq Require Import Field.
From Verif.Gray Require Import GrayModel GraySpec GrayProofs.
Local Open Scope nat_scope.

(** ** the Gray code *)
Lemma path_map_lxor n m z l : n <= m -> path n l -> path m (map (N.lxor z) l).
Proof.
  intros Hn. induction l as [|x l IH]; [auto|]. destruct l as [|y l]; [cbn; auto|]. intros H. destruct (proj1 (path_cons _ _ _ _) H) as ((k & Hk & E) & P).
  cbn [map]. apply path_cons. split; [|exact (IH P)]. exists k. split; [lia|]. rewrite E, N.lxor_assoc. reflexivity.
Qed.
Lemma gray_SS n : gray_code (S (S n)) = map (fun k => (bit (S n) + k)%N) (rev (gray_code (S n))) ++ gray_code (S n).
Proof. reflexivity. Qed.
Lemma gray_ok n : let g := gray_code (S n) in
  good (S n) g /\ hd 0%N g = bit n /\ last g 0%N = 0%N /\ (forall x, state (S n) x -> In x g).
Proof.
  cbv zeta. induction n as [|n (( NE & P & F) & H & L & C)].
  - cbn. split; [split; [discriminate|split]|].
    + split; [exists 0; split; [lia|reflexivity]|]. cbn. auto.
    + repeat constructor.
    + split; [reflexivity|]. split; [reflexivity|]. intros x Hx. unfold state, bit in Hx. cbn in Hx. assert (x = 0 \/ x = 1)%N as [->| ->] by lia; auto.
  - rewrite gray_SS. set (g := gray_code (S n)) in *.
    assert (E : map (fun k => (bit (S n) + k)%N) (rev g) = map (N.lxor (bit (S n))) (rev g)).
    { apply map_ext_in. intros k Hk. apply in_rev in Hk. rewrite Forall_forall in F. rewrite <- (lxor_bit_add (S n) k (F k Hk)). apply N.lxor_comm. }
    rewrite E. clear E. destruct g as [|x g'] eqn:G; [contradiction|]. cbn [hd] in H. subst x. set (B := bit (S n)) in *.
    split; [split; [|split]|split; [|split]].
    + intros E. apply app_eq_nil in E. destruct E; discriminate.
    + (* path *) cbn [rev]. rewrite map_app. cbn [map]. rewrite <- app_assoc. cbn [app]. apply path_app.
      * change (path (S (S n)) (map (N.lxor B) (rev g') ++ map (N.lxor B) [bit n])). rewrite <- map_app. change (rev g' ++ [bit n]) with (rev (bit n :: g')).
        apply (path_map_lxor (S n)); [lia|]. apply path_rev, P.
      * apply path_cons. split; [exists (S n); split; [lia|]; rewrite (N.lxor_comm B), lxor_lxor; reflexivity|]. apply (path_mono (S n)); [lia|exact P].
    + apply Forall_app. split.
      * apply Forall_forall. intros y Hy. apply in_map_iff in Hy. destruct Hy as (z & <- & Hz). apply in_rev in Hz. rewrite Forall_forall in F.
        apply state_lxor; [apply state_bit; lia|]. apply (state_mono (S n)); [lia|apply F, Hz].
      * eapply Forall_impl; [|exact F]. intros y. apply state_mono. lia.
    + (* head *) rewrite (app_removelast_last 0%N NE), L, rev_app_distr. cbn [rev app map hd]. apply N.lxor_0_r.
    + rewrite last_app by discriminate. exact L.
    + intros x Hx. apply in_or_app. destruct (tb x (S n)) eqn:T.
      * left. apply in_map_iff. exists (N.lxor B x). split; [rewrite <- N.lxor_assoc, N.lxor_nilpotent; apply N.lxor_0_l|]. apply -> in_rev. apply C.
        apply state_bits. intros j Hj. rewrite tb_lxor. unfold B. rewrite tb_bit. destruct (Nat.eqb_spec (S n) j) as [<-|]; [rewrite T; reflexivity|].
        rewrite (proj1 (state_bits _ x) Hx) by lia. reflexivity.
      * right. apply C. apply state_bits. intros j Hj. destruct (Nat.eq_dec j (S n)) as [->|]; [exact T|]. apply (proj1 (state_bits _ x) Hx). lia.
Qed.

(** ** the walk of one operation bit *)
Lemma minimum_spec l : l <> [] -> In (minimum l) l /\ forall x, In x l -> (minimum l <= x)%N.
Proof.
  intros Hl. unfold minimum. assert (G : forall l a, let m := fold_left N.min l a in (m = a \/ In m l) /\ (m <= a)%N /\ forall x, In x l -> (m <= x)%N).
  { clear. induction l as [|x l IH]; intros a m; subst m; cbn [fold_left]; [split; [auto|]; split; [lia|intros x []]|]. specialize (IH (N.min a x)). cbv zeta in IH. destruct IH as (I & A & B).
    split; [|split].
    - destruct I as [E|I]; [|right; right; exact I]. rewrite E. destruct (N.min_spec a x) as [(_ & ->)|(_ & ->)]; [auto|]. right. left. reflexivity.
    - lia.
    - intros y [<-|Hy]; [lia|apply B, Hy]. }
  destruct l as [|x l]; [contradiction|]. cbn [hd]. specialize (G (x :: l) x). cbv zeta in G. destruct G as (I & A & B). split; [|exact B].
  destruct I as [E|I]; [rewrite E; left; reflexivity|exact I].
Qed.
(** 0, or a single bit *)
Definition near (n : nat) (x : N) : Prop := x = 0%N \/ exists k, k < n /\ x = bit k.
Lemma near_adj n x : near n x -> x <> 0%N -> adj n 0 x.
Proof. intros [->|(k & Hk & ->)] H; [contradiction|]. exists k. auto. Qed.
Definition closed (n : nat) (ls tr : list N) : Prop :=
  good n tr /\ hd 0%N tr = 0%N /\ last tr 0%N = 0%N /\ forall x, In x ls -> In x tr.
Lemma traversal_ok n ls b : 0 < n -> b = S n -> ls <> [] -> Forall (state n) ls -> near n (minimum ls) ->
  closed n (0%N :: ls) (snd (single_qb_traversal (0%N :: ls) b)).
Proof.
  intros Hn Hb Hls Fls Hm. unfold single_qb_traversal. cbn [snd]. set (tr := hamming_tsp (0%N :: ls) b).
  assert (H : good n tr /\ near n (hd 0%N tr) /\ near n (last tr 0%N) /\ forall x, In x (0%N :: ls) -> In x tr).
  { assert (FA : forall x, In x (0%N :: ls) -> state n x) by (intros x [<-|H]; [apply state_0|rewrite Forall_forall in Fls; apply Fls, H]).
    assert (GR : let g := gray_code (max (b - 1) 1) in good n g /\ near n (hd 0%N g) /\ near n (last g 0%N) /\ forall x, In x (0%N :: ls) -> In x g).
    { cbv zeta. replace (max (b - 1) 1) with (S (n - 1)) by lia. destruct (gray_ok (n - 1)) as (A & B & C & D). replace (S (n - 1)) with n in * by lia.
      split; [exact A|]. split; [right; exists (n - 1); split; [lia|exact B]|]. split; [left; exact C|]. intros x Hx. apply D, FA, Hx. }
    subst tr. unfold hamming_tsp. destruct (length (0%N :: ls) =? 2 ^ (b - 1) + 1); [exact GR|].
    destruct ls as [|y [|z ls]]; [contradiction| |].
    - (* one location *) cbn [app] in *. rewrite N.max_0_l, N.min_0_l. assert (Hy : state n y) by (apply FA; cbn; auto). replace (minimum [y]) with y in Hm by (unfold minimum; cbn; lia).
      destruct (movement_ok n 0%N (state_0 n) b y Hy) as (P & L & F); [rewrite N.lxor_0_r; apply (state_mono n); [lia|exact Hy]|].
      split; [split; [discriminate|split; [exact P|constructor; assumption]]|]. cbn [hd]. split; [exact Hm|]. rewrite last_cons, L. split; [left; reflexivity|].
      intros x [<-|[<-|[]]]; [|left; reflexivity]. rewrite <- L at 1. rewrite <- (last_cons _ y 0%N). apply last_in. discriminate.
    - set (l2 := y :: z :: ls) in *. assert (M0 : minimum (0%N :: l2) = 0%N).
      { destruct (minimum_spec (0%N :: l2)) as (_ & M); [discriminate|]. specialize (M 0%N ltac:(left; reflexivity)). lia. }
      rewrite M0. assert (P0 : pop 0 (0%N :: l2) = l2) by reflexivity. rewrite P0. set (m2 := minimum l2) in *.
      destruct (minimum_spec l2) as (IM & _); [discriminate|]. fold m2 in IM.
      pose proof (salesmen_ok n b ltac:(lia) (length (0%N :: l2)) (pop m2 l2) [0%N] [m2]) as S.
      destruct (salesmen (length (0%N :: l2)) b (pop m2 l2) [0%N] [m2]) as [s1 s2].
      destruct S as (G1 & G2 & H1 & H2 & C).
      + pose proof (pop_length m2 l2 IM). cbn [length]. lia.
      + apply Forall_forall. intros x Hx. apply FA. right. apply (pop_in m2 x l2 IM). auto.
      + split; [discriminate|]. split; [cbn; auto|]. constructor; [apply state_0|constructor].
      + split; [discriminate|]. split; [cbn; auto|]. constructor; [apply FA; right; exact IM|constructor].
      + set (sol := (s1 ++ _) ++ rev (removelast s2)). assert (SOL : good n sol /\ hd 0%N sol = 0%N /\ last sol 0%N = m2 /\ forall x, In x (0%N :: l2) -> In x sol).
        { assert (L2 : state n (last s2 0%N)) by (destruct G2 as (A & _ & B); rewrite Forall_forall in B; apply B, last_in, A).
          destruct (good_extend n b s1 _ G1 L2 ltac:(lia)) as (E1 & E2 & E3). set (w := s1 ++ _) in *.
          destruct E1 as (W1 & W2 & W3). destruct G2 as (T1 & T2 & T3).
          assert (R2 : rev s2 = last s2 0%N :: rev (removelast s2)) by (rewrite (last_split s2 0%N T1) at 1; rewrite rev_app_distr; reflexivity).
          assert (SE : sol = removelast w ++ rev s2) by (unfold sol; fold w; rewrite (last_split w 0%N W1) at 1; rewrite E2, R2, <- app_assoc; reflexivity).
          split; [split; [|split]|split; [|split]].
          - unfold sol. intros E. apply app_eq_nil in E. tauto.
          - rewrite SE, R2. apply path_app; [rewrite <- E2, <- last_split by exact W1; exact W2|]. rewrite <- R2. apply path_rev, T2.
          - unfold sol. apply Forall_app. split; [exact W3|]. apply Forall_forall. intros x Hx. rewrite Forall_forall in T3. apply T3. rewrite (last_split s2 0%N T1). apply in_or_app. left. apply in_rev, Hx.
          - unfold sol. rewrite hd_app by exact W1. unfold w. rewrite hd_app by apply G1. exact H1.
          - rewrite SE, last_app; [|rewrite R2; discriminate]. destruct s2 as [|a s2]; [contradiction|]. cbn [rev hd] in *. rewrite last_app by discriminate. exact H2.
          - intros x Hx. rewrite SE. assert (Q : In x s1 \/ In x s2).
            { apply C. destruct Hx as [<-|Hx]; [right; left; left; reflexivity|]. apply (pop_in m2 x l2 IM) in Hx. destruct Hx as [->|Hx]; [right; right; left; reflexivity|auto]. }
            destruct Q as [Q|Q]; [|apply in_or_app; right; apply -> in_rev; exact Q]. assert (Q' : In x w) by (unfold w; apply in_or_app; auto).
            rewrite (last_split w 0%N W1), E2 in Q'. apply in_app_or in Q'. apply in_or_app. destruct Q' as [Q'|[<-|[]]]; [auto|]. right. rewrite R2. left. reflexivity. }
        destruct (2 ^ max (b - 1) 1 <? length sol); [exact GR|]. destruct SOL as (A & B & D & E). rewrite B, D. split; [exact A|]. split; [left; reflexivity|]. split; [exact Hm|exact E]. }
  clearbody tr. destruct H as ((NE & P & F) & A & B & C).
  set (tr1 := if N.eqb (last tr 0%N) 0 then tr else tr ++ [0%N]).
  assert (H1 : good n tr1 /\ near n (hd 0%N tr1) /\ last tr1 0%N = 0%N /\ forall x, In x (0%N :: ls) -> In x tr1).
  { unfold tr1. destruct (N.eqb_spec (last tr 0%N) 0) as [E|E].
    - split; [split; [exact NE|split; assumption]|]. auto.
    - split; [split; [|split]|split; [|split]].
      + intros Q. apply app_eq_nil in Q. tauto.
      + rewrite (last_split tr 0%N NE), <- app_assoc. cbn [app]. apply path_app; [rewrite <- last_split by exact NE; exact P|]. apply path_cons. split; [apply adj_sym, near_adj; assumption|cbn; auto].
      + apply Forall_app. split; [exact F|]. constructor; [apply state_0|constructor].
      + rewrite hd_app by exact NE. exact A.
      + rewrite last_app by discriminate. reflexivity.
      + intros x Hx. apply in_or_app. left. apply C, Hx. }
  clearbody tr1. clear tr NE P F A B C. destruct H1 as ((NE & P & F) & A & B & C).
  destruct (N.eqb_spec (hd 0%N tr1) 0) as [E|E].
  - split; [split; [exact NE|split; assumption]|]. auto.
  - split; [split; [|split]|split; [|split]].
    + discriminate.
    + destruct tr1 as [|x t]; [contradiction|]. apply path_cons. split; [apply near_adj; assumption|exact P].
    + constructor; [apply state_0|exact F].
    + reflexivity.
    + destruct tr1 as [|x t]; [contradiction|]. rewrite last_cons. rewrite last_cons in B |- *. exact B.
    + intros x Hx. right. apply C, Hx.
Qed.
