(** Set covers, portfolios and colourings. *)
From Coq Require Import List Arith Bool Reals Lia Lra Ring.
Import ListNotations.
From Verif.Inverse Require Import InvSpec InvProofs.
From Verif.Fourier Require Import RegProofs.
From Verif.CtrlOps Require Import CtrlComplex.
From Verif.StatePrep Require Import PrepModel PrepSpec PrepNum XxyyProofs WProofs DickeProofs.
From Verif.Mixers Require Import MixModel MixSpec MixProofs MixProofs2.
Local Open Scope R_scope.
Add Ring cring3 : complex_ring.

(** * A sequence of gates, each of which flips a qubit of its own *)
Lemma forth_flips {T} (off : nat) (F : nat * T -> list mgate) (h : list bool -> T -> bool) (d : T) :
  (forall k e x, forth (F (k, e)) x = if h x e then flip x (off + k) else x) -> (forall x q e, (off <= q)%nat -> h (flip x q) e = h x e) ->
  forall s k0 x q, (off + k0 + length s <= length x)%nat ->
  getbit (forth (flat_map F (combine (seq k0 (length s)) s)) x) q =
    if ((off + k0 <=? q) && (q <? off + k0 + length s))%nat then xorb (getbit x q) (h x (nth (q - off - k0) s d)) else getbit x q.
Proof.
  intros HF Hh s. induction s as [|e s IH]; intros k0 x q L.
  - cbn [length seq combine flat_map]. replace ((off + k0 <=? q) && (q <? off + k0 + 0))%nat with false; [reflexivity|]. symmetry. destruct (Nat.leb_spec (off + k0) q), (Nat.ltb_spec q (off + k0 + 0)); try reflexivity; lia.
  - cbn [length] in L. cbn [length seq combine flat_map]. rewrite forth_app, HF. set (x' := if h x e then flip x (off + k0) else x). assert (L' : length x' = length x) by (unfold x'; destruct (h x e); [apply flip_length|reflexivity]).
    assert (H' : forall u, h x' u = h x u) by (intros u; unfold x'; destruct (h x e); [apply Hh; lia|reflexivity]). rewrite IH by lia. rewrite H'.
    assert (G : getbit x' q = if (q =? off + k0)%nat then xorb (getbit x q) (h x e) else getbit x q).
    { unfold x'. destruct (h x e); [rewrite flip_get by lia|]; destruct (q =? off + k0)%nat; destruct (getbit x q); reflexivity. }
    rewrite G. destruct (Nat.leb_spec (off + S k0) q), (Nat.ltb_spec q (off + S k0 + length s)), (Nat.leb_spec (off + k0) q), (Nat.ltb_spec q (off + k0 + S (length s))), (Nat.eqb_spec q (off + k0)); cbn [andb]; try lia; try reflexivity.
    + replace (q - off - k0)%nat with (S (q - off - S k0)) by lia. reflexivity.
    + replace (q - off - k0)%nat with 0%nat by lia. reflexivity.
Qed.
Lemma nots_flat {T} (f : nat -> nat) (s : list T) : forall k0, map (fun k => Std (Not (f k))) (seq k0 (length s)) = flat_map (fun p : nat * T => [Std (Not (f (fst p)))]) (combine (seq k0 (length s)) s).
Proof. induction s as [|e s IH]; intros k0; [reflexivity|]. cbn [length seq map combine flat_map]. rewrite IH. reflexivity. Qed.
Lemma forth_nots {T} off (s : list T) x q : (off + length s <= length x)%nat ->
  getbit (forth (map (fun k => Std (Not (off + k))) (seq 0 (length s))) x) q = if ((off <=? q) && (q <? off + length s))%nat then negb (getbit x q) else getbit x q.
Proof.
  intros L. destruct s as [|d s'] eqn:Es; [cbn [length seq map]; replace ((off <=? q) && (q <? off + 0))%nat with false; [reflexivity|]; symmetry; destruct (Nat.leb_spec off q), (Nat.ltb_spec q (off + 0)); try reflexivity; lia|]. rewrite <- Es in *. clear Es.
  rewrite (nots_flat (fun k => (off + k)%nat)). rewrite (forth_flips off _ (fun _ _ => true) d); [|intros; reflexivity|intros; reflexivity|lia]. rewrite Nat.add_0_r. destruct (_ && _); [apply xorb_true_r|reflexivity].
Qed.
Lemma plain_nots i off (ks : list nat) : (forall k, In k ks -> (off + k)%nat <> i) -> Forall (plain i) (map (fun k => Std (Not (off + k))) ks).
Proof. intros H. apply Forall_forall. intros g G. apply in_map_iff in G. destruct G as (k & <- & K). cbn. apply H. exact K. Qed.

(** * Set covers *)
Section cover.
Context (sets : list (list nat)).
Local Notation n := (length sets).
Definition others (i e : nat) : list nat := filter (fun j => negb (j =? i)%nat) (membership sets e).
Lemma others_in i e j : In j (others i e) <-> ((j < n)%nat /\ In e (nth j sets []) /\ j <> i).
Proof.
  unfold others, membership. rewrite !filter_In, in_seq, existsb_exists, negb_true_iff, Nat.eqb_neq. split.
  - intros [[A (w & W & E)] B]. apply Nat.eqb_eq in E. subst w. repeat split; try assumption; lia.
  - intros (A & B & C). split; [|exact C]. split; [lia|]. exists e. split; [exact B|apply Nat.eqb_refl].
Qed.
(** what the predicate computes *)
Definition replaceable (x : list bool) (i e : nat) : bool := match others i e with [] => true | l => existsb (getbit x) l end.
Lemma existsb_forallb {A} (f : A -> bool) l : existsb f l = negb (forallb (fun a => negb (f a)) l).
Proof. induction l as [|a l IH]; [reflexivity|]. cbn. rewrite IH. destruct (f a); reflexivity. Qed.
Lemma mcx_plain i cs t : t <> i -> (forall c, In c (map fst cs) -> c <> t /\ c <> i) -> Forall (plain i) (mcx cs t).
Proof. intros T C. unfold mcx. destruct cs; constructor; [|constructor]. split; assumption. Qed.
Lemma cover_plain i : (i < n)%nat -> Forall (plain i) (cover_predicate sets i).
Proof.
  intros I. unfold cover_predicate. apply Forall_app. split; [apply (plain_nots i (S n)); intros k _; lia|]. apply Forall_app. split.
  - apply Forall_forall. intros g G. apply in_flat_map in G. destruct G as ([k e] & _ & G). revert g G. apply Forall_forall. apply mcx_plain; [lia|]. intros c C. rewrite map_map in C. cbn in C. rewrite map_id in C. apply others_in in C. lia.
  - apply mcx_plain; [lia|]. intros c C. rewrite map_map in C. cbn in C. apply in_map_iff in C. destruct C as (k & <- & _). lia.
Qed.
Definition clean (x : list bool) : Prop := forall q, (n <= q)%nat -> getbit x q = false.
Lemma matches_true x f (ks : list nat) : matches x (map (fun k => (f k, true)) ks) = forallb (fun k => getbit x (f k)) ks.
Proof. unfold matches. induction ks as [|k ks IH]; [reflexivity|]. cbn [map forallb]. rewrite IH. destruct (getbit x (f k)); reflexivity. Qed.
Lemma forallb_nth {A} (f : A -> bool) d l : forallb (fun k => f (nth k l d)) (seq 0 (length l)) = forallb f l.
Proof. induction l as [|a l IH]; [reflexivity|]. cbn [length seq forallb nth]. rewrite <- seq_shift. rewrite <- IH. f_equal. clear. induction (seq 0 (length l)) as [|k ks IHk]; [reflexivity|]. cbn [map forallb nth]. rewrite IHk. reflexivity. Qed.
Lemma cover_eval i x : (S n + length (nth i sets []) <= length x)%nat -> clean x ->
  getbit (forth (cover_predicate sets i) x) n = negb (length (nth i sets []) =? 0)%nat && forallb (replaceable x i) (nth i sets []).
Proof.
  intros L C. unfold cover_predicate. rewrite !forth_app. set (s := nth i sets []) in *. cbn zeta.
  set (x1 := forth (map (fun k => Std (Not (S n + k))) (seq 0 (length s))) x).
  assert (G1 : forall q, getbit x1 q = if ((S n <=? q) && (q <? S n + length s))%nat then negb (getbit x q) else getbit x q) by (intros q; apply forth_nots; lia).
  assert (L1 : length x1 = length x) by apply forth_length.
  set (h := fun (x : list bool) e => match others i e with [] => false | l => forallb (fun j => negb (getbit x j)) l end).
  set (F := fun '(k, e) => mcx (map (fun j => (j, false)) (filter (fun j => negb (j =? i)%nat) (membership sets e))) (S n + k)). set (x2 := forth (flat_map F (combine (seq 0 (length s)) s)) x1).
  assert (HF : forall k e y, forth (F (k, e)) y = if h y e then flip y (S n + k) else y).
  { intros k e y. unfold F, h. fold (others i e). unfold mcx. destruct (others i e) as [|j l] eqn:O; [reflexivity|]. rewrite <- O. destruct (map (fun j => (j, false)) (others i e)) as [|o1 l1] eqn:M; [rewrite O in M; discriminate|]. rewrite <- M.
    cbn [forth fold_left cstep]. rewrite matches_zero. reflexivity. }
  assert (Hh : forall y q e, (S n <= q)%nat -> h (flip y q) e = h y e).
  { intros y q e Q. unfold h. destruct (others i e) as [|o l] eqn:O; [reflexivity|]. rewrite <- O. apply forallb_ext_in. intros j J. apply others_in in J. rewrite flip_other by lia. reflexivity. }
  assert (G2 : forall q, getbit x2 q = if ((S n + 0 <=? q) && (q <? S n + 0 + length s))%nat then xorb (getbit x1 q) (h x1 (nth (q - S n - 0) s 0%nat)) else getbit x1 q) by (intros q; apply forth_flips; [exact HF|exact Hh|lia]).
  assert (Hx : forall e, h x1 e = h x e).
  { intros e. unfold h. destruct (others i e) as [|o l] eqn:O; [reflexivity|]. rewrite <- O. apply forallb_ext_in. intros j J. apply others_in in J. rewrite G1. replace (S n <=? j)%nat with false by (symmetry; apply Nat.leb_gt; lia). reflexivity. }
  assert (Hr : forall e, replaceable x i e = negb (h x e)). { intros e. unfold replaceable, h. destruct (others i e) as [|o l] eqn:O; [reflexivity|]. rewrite <- O. apply existsb_forallb. }
  assert (Gn : getbit x2 n = false). { rewrite G2. replace (S n + 0 <=? n)%nat with false by (symmetry; apply Nat.leb_gt; lia). cbn [andb]. rewrite G1. replace (S n <=? n)%nat with false by (symmetry; apply Nat.leb_gt; lia). apply C. lia. }
  unfold mcx. destruct s as [|e0 s0] eqn:Es; [exact Gn|]. rewrite <- Es in *. destruct (map (fun k => (S n + k, true))%nat (seq 0 (length s))) as [|o2 l2] eqn:M; [rewrite Es in M; discriminate|]. rewrite <- M.
  cbn [forth fold_left cstep]. rewrite (matches_true x2 (fun k => S n + k)%nat). rewrite (forallb_ext_in _ (fun k => replaceable x i (nth k s 0%nat))).
  - rewrite forallb_nth. replace (length s =? 0)%nat with false by (rewrite Es; reflexivity). cbn [negb andb]. destruct (forallb (replaceable x i) s); [|exact Gn]. rewrite flip_get, Nat.eqb_refl, Gn; [reflexivity|]. unfold x2. rewrite forth_length. lia.
  - intros k K. apply in_seq in K. rewrite G2. replace (S n + 0 <=? S n + k)%nat with true by (symmetry; apply Nat.leb_le; lia). replace (S n + k <? S n + 0 + length s)%nat with true by (symmetry; apply Nat.ltb_lt; lia).
    cbn [andb]. rewrite Hx, Hr. replace (S n + k - S n - 0)%nat with k by lia. rewrite G1. replace (S n <=? S n + k)%nat with true by (symmetry; apply Nat.leb_le; lia). replace (S n + k <? S n + length s)%nat with true by (symmetry; apply Nat.ltb_lt; lia).
    cbn [andb]. rewrite C by lia. destruct (h x (nth k s 0%nat)); reflexivity.
Qed.
Context (m : nat) (Hm : forall i, (length (nth i sets []) <= m)%nat) (H2 : forall i e, In e (nth i sets []) -> exists j, j <> i /\ In e (nth j sets [])).
Definition cover_ok (x : list bool) : Prop := clean x /\ covers sets (firstn n x).
Lemma clean_flip i x : (i < n)%nat -> clean (flip x i) -> clean x. Proof. intros I C q Q. rewrite <- (C q Q), flip_other by lia. reflexivity. Qed.
Lemma set_in j e : In e (nth j sets []) -> (j < n)%nat. Proof. intros H. destruct (le_lt_dec n j); [rewrite nth_overflow in H by lia; destruct H|assumption]. Qed.
Lemma keeps_cover beta : keeps (S n + m) cover_ok (min_set_cover_mixer sets beta).
Proof.
  apply keeps_flat. intros i I. apply in_seq in I. apply keeps_step; [apply cover_plain; lia|]. intros x Lx G [C H]. apply clean_flip in C; [|lia]. rewrite cover_eval in G by (try assumption; specialize (Hm i); lia).
  apply andb_true_iff in G. destruct G as [_ G]. rewrite forallb_forall in G. split; [exact C|]. intros u e U. destruct (H u e U) as (j & J & E). rewrite get_firstn in J. destruct (Nat.ltb_spec j n) as [Lj|]; [|discriminate].
  destruct (Nat.eq_dec j i) as [->|D].
  - specialize (G e E). unfold replaceable in G. destruct (H2 i e E) as (j' & D' & E'). assert (O : In j' (others i e)) by (apply others_in; repeat split; try assumption; apply (set_in _ e); exact E').
    destruct (others i e) as [|o l] eqn:Eo; [destruct O|]. rewrite <- Eo in G. apply existsb_exists in G. destruct G as (w & W & B). apply others_in in W. exists w. rewrite get_firstn. replace (w <? n)%nat with true by (symmetry; apply Nat.ltb_lt; apply W). split; [exact B|apply W].
  - exists j. rewrite get_firstn. replace (j <? n)%nat with true by (symmetry; apply Nat.ltb_lt; exact Lj). rewrite flip_other in J by exact D. split; assumption.
Qed.
Lemma start_ones (L : nat) (P : list bool -> Prop) : (n <= L)%nat -> (forall x, length x = L -> (forall q, getbit x q = (q <? n)%nat) -> P x) -> supp L P (mrun (map (fun q => Std (Not q)) (seq 0 n)) (zero_state L)).
Proof.
  intros Ln H x Lx N. assert (Pl : Forall (plain n) (map (fun q => Std (Not (0 + q))) (seq 0 n))) by (apply plain_nots; intros k K; apply in_seq in K; lia).
  change (map (fun q => Std (Not q)) (seq 0 n)) with (map (fun q => Std (Not (0 + q))) (seq 0 n)). set (c := map (fun q => Std (Not (0 + q))) (seq 0 n)) in *. rewrite (run_back n) by exact Pl. unfold zero_state, basis_state. destruct (bits_eqb _ _) eqn:E; [|reflexivity]. exfalso. apply bits_eqb_eq in E. apply N, H; [exact Lx|]. intros q.
  rewrite <- (forth_back n c x) by exact Pl. rewrite E. unfold c. rewrite forth_nots by (rewrite repeat_length; lia). cbn [Nat.leb andb]. rewrite get_repeat_false, Nat.add_0_l. destruct (q <? n)%nat; reflexivity.
Qed.
Lemma cover_run angles x : length x = (S n + m)%nat -> ~ cover_ok x -> mrun (min_set_cover sets angles) (zero_state (S n + m)) x = c0.
Proof.
  intros Lx N. unfold min_set_cover. rewrite mrun_app. revert x Lx N. apply keeps_layers; [intros g; apply keeps_rz|apply keeps_cover|]. apply start_ones; [lia|]. intros x Lx B. split.
  - intros q Q. rewrite B. apply Nat.ltb_ge. exact Q.
  - intros i e E. exists i. assert (I := set_in i e E). rewrite get_firstn, B. apply Nat.ltb_lt in I. rewrite I. split; [reflexivity|exact E].
Qed.
End cover.

(** * Circuits of partial swaps *)
Lemma other_cases x q e v : (q < length x)%nat -> (e < length x)%nat -> q <> e -> xorb (getbit x q) (getbit x e) = true -> other x q e v = x \/ other x q e v = exchange x q e.
Proof.
  intros Q E D X. destruct (Bool.bool_dec v (getbit x q)) as [V|V]; [left|right]; apply bits_ext; unfold other; rewrite ?exchange_length, ?setbit_length; try reflexivity; intros p _; rewrite ?exchange_get by assumption;
    rewrite !get_set by (rewrite ?setbit_length; assumption); destruct (Nat.eqb_spec p e) as [Ee|Ee], (Nat.eqb_spec p q) as [Eq|Eq]; try (exfalso; congruence); try reflexivity; rewrite ?Ee, ?Eq; destruct v, (getbit x q), (getbit x e); cbn in X |- *; congruence.
Qed.
Lemma keeps_block L (P : list bool -> Prop) q e ex t : q <> e -> (q < L)%nat -> (e < L)%nat -> (forall c, In c ex -> c <> q /\ c <> e) ->
  (forall x, length x = L -> P (exchange x q e) -> P x) -> keeps L P (map Std (block q e ex t)).
Proof.
  intros D Q E X H psi S x Lx N. rewrite mrun_std, block_ok by (try assumption; lia). destruct (xorb (getbit x q) (getbit x e) && forallb (getbit x) ex) eqn:C; [|apply S; assumption].
  apply andb_true_iff in C. destruct C as [C _]. assert (Z : forall v, psi (other x q e v) = c0).
  { intros v. apply S; [unfold other; rewrite !setbit_length; exact Lx|]. destruct (other_cases x q e v) as [->| ->]; try assumption; try lia. intros F. apply N, H; assumption. }
  rewrite !Z. destruct (getbit x q); ring.
Qed.
Inductive Blocks (lo hi : nat) : list gate -> Prop :=
| Bnil : Blocks lo hi []
| Bcons q e ex t c : q <> e -> (lo <= q < hi)%nat -> (lo <= e < hi)%nat -> (forall d, In d ex -> d <> q /\ d <> e) -> Blocks lo hi c -> Blocks lo hi (block q e ex t ++ c).
Lemma Blocks_app lo hi c d : Blocks lo hi c -> Blocks lo hi d -> Blocks lo hi (c ++ d).
Proof. intros C D. induction C; [exact D|]. rewrite <- app_assoc. constructor; assumption. Qed.
Lemma Blocks_one lo hi q e ex t : q <> e -> (lo <= q < hi)%nat -> (lo <= e < hi)%nat -> (forall d, In d ex -> d <> q /\ d <> e) -> Blocks lo hi (block q e ex t).
Proof. intros. rewrite <- (app_nil_r (block q e ex t)). constructor; try assumption. constructor. Qed.
Lemma Blocks_flat {T} lo hi (f : T -> list gate) l : (forall t, In t l -> Blocks lo hi (f t)) -> Blocks lo hi (flat_map f l).
Proof. intros H. induction l as [|t l IH]; [constructor|]. cbn [flat_map]. apply Blocks_app; [apply H; left; reflexivity|apply IH; intros u U; apply H; right; exact U]. Qed.
Lemma Blocks_shift off n c : Blocks 0 n c -> Blocks off (off + n) (map (shift_gate off) c).
Proof.
  intros C. induction C as [|q e ex t c D Q E X C IH]; [constructor|]. rewrite map_app. change (map (shift_gate off) (block q e ex t)) with (block (off + q) (off + e) (map (Nat.add off) ex) t).
  constructor; try lia; [|exact IH]. intros d I. apply in_map_iff in I. destruct I as (w & <- & W). specialize (X w W). lia.
Qed.
Lemma Blocks_inv lo hi c : Blocks lo hi c -> Blocks lo hi (rev (map inv_gate c)).
Proof.
  intros C. induction C as [|q e ex t c D Q E X C IH]; [constructor|]. rewrite map_app, rev_app_distr. apply Blocks_app; [exact IH|]. change (rev (map inv_gate (block q e ex t))) with (block q e ex (- t)). apply Blocks_one; assumption.
Qed.
Lemma Blocks_dicke n : Blocks 0 n (dicke_state n n).
Proof.
  unfold dicke_state. rewrite Nat.sub_diag. cbn [seq flat_map app]. apply Blocks_flat. intros o O. apply in_seq in O. unfold split_cycle_shift. cbn zeta.
  match goal with |- Blocks _ _ ([CNot ?a ?b; CRy _ ?t _; _] ++ _) => change [CNot a b; CRy [b] t a; CNot a b] with (block a b [] t) end.
  apply Blocks_app; [apply Blocks_one; try lia; intros d []|]. apply Blocks_flat. intros i I. apply in_seq in I. cbn zeta.
  match goal with |- Blocks _ _ [CNot ?a ?b; CRy [_; ?u] ?t _; _] => change [CNot a b; CRy [b; u] t a; CNot a b] with (block a b [u] t) end. apply Blocks_one; try lia. intros d [<-|[]]. lia.
Qed.
Lemma Blocks_keeps L (P : list bool -> Prop) lo hi c : Blocks lo hi c -> (hi <= L)%nat -> (forall x a b, length x = L -> (lo <= a < hi)%nat -> (lo <= b < hi)%nat -> a <> b -> P (exchange x a b) -> P x) -> keeps L P (map Std c).
Proof.
  intros C LL H. induction C as [|q e ex t c D Q E X C IH]; [apply keeps_nil|]. rewrite map_app. apply keeps_app; [|exact IH]. apply keeps_block; try assumption; try lia. intros x Lx. apply H; assumption.
Qed.
Lemma keeps_portfolio_register L (P : list bool -> Prop) off half beta : (off + half <= L)%nat ->
  (forall x a b, length x = L -> (off <= a < off + half)%nat -> (off <= b < off + half)%nat -> a <> b -> P (exchange x a b) -> P x) -> keeps L P (portfolio_register off half beta).
Proof.
  intros LL H. unfold portfolio_register. apply keeps_app; [|apply keeps_app].
  - apply (Blocks_keeps _ _ off (off + half)); try assumption. apply Blocks_inv, Blocks_shift, Blocks_dicke.
  - apply keeps_map. intros i _. apply keeps_mcp.
  - apply (Blocks_keeps _ _ off (off + half)); try assumption. apply Blocks_shift, Blocks_dicke.
Qed.
(** ** weights of registers *)
Lemma register_exchange k r m x a b v : length x = (m * k)%nat -> (r < m)%nat -> (v * k <= a < v * k + k)%nat -> (v * k <= b < v * k + k)%nat -> (v < m)%nat -> a <> b -> weight (register k r (exchange x a b)) = weight (register k r x).
Proof.
  intros Lx R A B V D. assert (Rk : (r * k + k <= m * k)%nat) by (replace (r * k + k)%nat with (S r * k)%nat by lia; apply Nat.mul_le_mono_r; lia). assert (Vk : (v * k + k <= m * k)%nat) by (replace (v * k + k)%nat with (S v * k)%nat by lia; apply Nat.mul_le_mono_r; lia).
  unfold register. rewrite !weight_ones by (rewrite ?exchange_length; lia). destruct (Nat.eq_dec r v) as [->|N].
  - apply ones_exchange; try lia; [apply seq_NoDup| |]; apply in_seq; lia.
  - assert (O : (r * k + k <= v * k \/ v * k + k <= r * k)%nat). { destruct (Nat.lt_total r v) as [H|[H|H]]; [left|lia|right]; [replace (r * k + k)%nat with (S r * k)%nat by lia|replace (v * k + k)%nat with (S v * k)%nat by lia]; apply Nat.mul_le_mono_r; lia. }
    apply ones_exchange_out; try lia; intros I; apply in_seq in I; lia.
Qed.
(** * Colourings *)
Lemma keeps_coloring m k edges (w : nat -> nat) angles : (2 <= k)%nat -> keeps (m * k) (fun x => forall r, (r < m)%nat -> weight (register k r x) = w r) (graph_coloring m k edges angles).
Proof.
  intros K. apply keeps_layers.
  - intros g. apply keeps_flat. intros [v u] _. apply keeps_map. intros i _. apply keeps_mcp.
  - intros b. apply keeps_flat. intros r R. apply in_seq in R. assert (Rk : (r * k + k <= m * k)%nat) by (replace (r * k + k)%nat with (S r * k)%nat by lia; apply Nat.mul_le_mono_r; lia). apply keeps_xy; try lia. intros x p q Lx Pp Qq D H r' R'. rewrite <- (H r' R'). symmetry. apply (register_exchange k r' m x p q r); try assumption; lia.
Qed.
(** ** the state without ones *)
Definition zeros (L : nat) : list bool := repeat false L.
Lemma zeros_get L q : getbit (zeros L) q = false. Proof. apply get_repeat_false. Qed.
Lemma fixes_xy L off n beta psi : (2 <= n)%nat -> (off + n <= L)%nat -> mrun (XY_mixer off n beta) psi (zeros L) = psi (zeros L).
Proof.
  intros N O. unfold XY_mixer. assert (H : forall a b, In (a, b) (xy_pairs n) -> (a < n /\ b < n /\ a <> b)%nat) by (intros a b I; apply (xy_pairs_in n a b N I)). revert psi. induction (xy_pairs n) as [|[a b] l IH]; intros psi; [reflexivity|]. cbn [flat_map]. rewrite mrun_app, IH by (intros c d I; apply H; right; exact I).
  destruct (H a b (or_introl eq_refl)) as (A & B & D). rewrite mrun_std, (view_here (off + a) (off + b)), view_xxyy by (unfold zeros; rewrite ?repeat_length; lia). unfold xxyy_map. rewrite (view_here (off + a) (off + b) (zeros L) psi). rewrite !zeros_get. reflexivity.
Qed.
Lemma fixes_coloring m k edges angles psi : (2 <= k)%nat -> mrun (graph_coloring m k edges angles) psi (zeros (m * k)) = psi (zeros (m * k)).
Proof.
  intros K. unfold graph_coloring, layers. revert psi. induction angles as [|[g b] angles IH]; intros psi; [reflexivity|]. cbn [flat_map]. rewrite mrun_app, IH, mrun_app.
  assert (F : forall l psi, (forall r, In r l -> (r < m)%nat) -> mrun (flat_map (fun r => XY_mixer (r * k) k b) l) psi (zeros (m * k)) = psi (zeros (m * k))).
  { intros l. induction l as [|r l IHl]; intros phi H; [reflexivity|]. cbn [flat_map]. rewrite mrun_app, IHl by (intros u U; apply H; right; exact U). apply fixes_xy; [exact K|]. specialize (H r (or_introl eq_refl)). replace (r * k + k)%nat with (S r * k)%nat by lia. apply Nat.mul_le_mono_r. lia. }
  unfold apply_XY_mixer. rewrite F by (intros r R; apply in_seq in R; lia). unfold coloring_operator. clear IH F. generalize psi. induction edges as [|[v w] edges IHe]; intros phi; [reflexivity|]. cbn [flat_map]. rewrite mrun_app, IHe.
  clear IHe. generalize phi. induction (seq 0 k) as [|i l IHi]; intros xi; [reflexivity|]. cbn [map]. change (mrun (?g :: ?c) xi) with (mrun c (mapply g xi)). rewrite IHi. cbn [mapply matches forallb]. rewrite zeros_get. reflexivity.
Qed.
Lemma start_zeros L : forall j, (j <= L)%nat -> let phi := mrun (map (fun q => Std (U (mk_u (PI / 2) 0 PI 0) q)) (seq 0 j)) (zero_state L) in
  (forall x, length x = L -> (exists q, (j <= q)%nat /\ getbit x q = true) -> phi x = c0) /\ phi (zeros L) = real (cos (PI / 4) ^ j).
Proof.
  induction j as [|j IH]; intros J; cbn zeta.
  - cbn [seq map mrun fold_left]. unfold zero_state, basis_state. split.
    + intros x Lx (q & _ & G). destruct (bits_eqb x (repeat false L)) eqn:E; [|reflexivity]. apply bits_eqb_eq in E. subst x. rewrite get_repeat_false in G. discriminate.
    + replace (bits_eqb _ _) with true by (symmetry; apply bits_eqb_eq; reflexivity). reflexivity.
  - cbn zeta in IH. destruct (IH ltac:(lia)) as [A B]. rewrite seq_S, map_app, mrun_app. cbn [plus map]. set (phi := mrun _ (zero_state L)) in *. cbn [mrun fold_left mapply apply]. unfold act, on_qubit. split.
    + intros x Lx (q & Q & G). assert (Z : forall v, phi (setbit x j v) = c0) by (intros v; apply A; [rewrite setbit_length; exact Lx|exists q; split; [lia|rewrite getbit_set_other by lia; exact G]]). rewrite !Z. ring.
    + rewrite zeros_get. assert (E : setbit (zeros L) j false = zeros L) by (rewrite <- (zeros_get L j); apply setbit_get). rewrite E, B. rewrite (A (setbit (zeros L) j true)).
      * rewrite c_mul_0. unfold u3m, u3_matrix. cbn [theta phi lam gp]. replace (PI / 2 / 2) with (PI / 4) by field. rewrite cos_0, sin_0. unfold real. cbn [pow]. apply cplx_eq; cbn; ring.
      * rewrite setbit_length. apply repeat_length.
      * exists j. split; [lia|]. rewrite getbit_set_same; [reflexivity|unfold zeros; rewrite repeat_length; lia].
Qed.
