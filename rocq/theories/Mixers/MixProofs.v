(** Mixers: the gates keep feasible solutions. *)
From Coq Require Import List Arith Bool Reals Lia Lra Ring.
Import ListNotations.
From Verif.Inverse Require Import InvSpec InvProofs.
From Verif.CtrlOps Require Import CtrlComplex.
From Verif.StatePrep Require Import PrepModel PrepSpec PrepNum XxyyProofs WProofs DickeProofs.
From Verif.Mixers Require Import MixModel MixSpec.
Local Open Scope R_scope.
Add Ring cring : complex_ring.

(** * Support *)
Definition supp (L : nat) (P : list bool -> Prop) (psi : state) : Prop := forall x, length x = L -> ~ P x -> psi x = c0.
Definition keeps (L : nat) (P : list bool -> Prop) (c : list mgate) : Prop := forall psi, supp L P psi -> supp L P (mrun c psi).
Lemma mrun_app c d psi : mrun (c ++ d) psi = mrun d (mrun c psi). Proof. unfold mrun. apply fold_left_app. Qed.
Lemma mrun_std c psi : mrun (map Std c) psi = run c psi.
Proof. revert psi. induction c as [|g c IH]; intros psi; [reflexivity|]. cbn [map]. change (mrun (map Std c) (apply g psi) = run c (apply g psi)). apply IH. Qed.
Lemma keeps_nil L P : keeps L P []. Proof. intros psi H. exact H. Qed.
Lemma keeps_app L P c d : keeps L P c -> keeps L P d -> keeps L P (c ++ d).
Proof. intros A B psi H. rewrite mrun_app. apply B, A, H. Qed.
Lemma keeps_flat {T} L P (f : T -> list mgate) l : (forall t, In t l -> keeps L P (f t)) -> keeps L P (flat_map f l).
Proof. intros H. induction l as [|t l IH]; [apply keeps_nil|]. cbn [flat_map]. apply keeps_app; [apply H; left; reflexivity|apply IH; intros u I; apply H; right; exact I]. Qed.
Lemma keeps_map {T} L P (f : T -> mgate) l : (forall t, In t l -> keeps L P [f t]) -> keeps L P (map f l).
Proof. intros H. induction l as [|t l IH]; [apply keeps_nil|]. change (map f (t :: l)) with ([f t] ++ map f l). apply keeps_app; [apply H; left; reflexivity|apply IH; intros u I; apply H; right; exact I]. Qed.
Lemma keeps_layers L P cost mixer angles : (forall g, keeps L P (cost g)) -> (forall b, keeps L P (mixer b)) -> keeps L P (layers cost mixer angles).
Proof. intros A B. apply keeps_flat. intros [g b] _. apply keeps_app; auto. Qed.
(** diagonal gates *)
Lemma act_rz a q psi x : act (rz a) q psi x = cmul (turn (if getbit x q then a / 2 else - a / 2)) (psi x).
Proof.
  unfold act, on_qubit. rewrite !m_rz. destruct (getbit x q) eqn:E; cbn [xorb].
  - replace (setbit x q true) with x by (rewrite <- E; symmetry; apply setbit_get). ring.
  - replace (setbit x q false) with x by (rewrite <- E; symmetry; apply setbit_get). ring.
Qed.
Lemma c_mul_0 (z : cplx) : cmul z c0 = c0. Proof. ring. Qed.
Lemma keeps_rz L P n g : keeps L P (RZ_mixer n g).
Proof. apply keeps_map. intros q _ psi H x Lx N. cbn [mrun fold_left mapply apply]. rewrite act_rz, H by assumption. apply c_mul_0. Qed.
Lemma keeps_mcp L P a cs : keeps L P [MCP a cs].
Proof. intros psi H x Lx N. cbn [mrun fold_left mapply]. destruct (matches x cs); rewrite H by assumption; [apply c_mul_0|reflexivity]. Qed.
(** a gate that mixes x only with the basis states with q0 and q1 exchanged *)
Definition exchange (x : list bool) (a b : nat) : list bool := setbit (setbit x a (getbit x b)) b (getbit x a).
Lemma keeps_xxyy L (P : list bool -> Prop) t beta a b : a <> b -> (a < L)%nat -> (b < L)%nat -> (forall x, length x = L -> P (exchange x a b) -> P x) -> keeps L P (map Std (xxyy t beta a b)).
Proof.
  intros D A B E psi H x Lx N. rewrite mrun_std, (view_here a b x), view_xxyy by lia.
  assert (V : view a b x psi (getbit x a) (getbit x b) = c0) by (rewrite <- view_here; apply H; assumption).
  assert (V' : view a b x psi (getbit x b) (getbit x a) = c0). { apply H; [rewrite !setbit_length; exact Lx|]. intros Q. apply N, E; assumption. }
  unfold xxyy_map. destruct (getbit x a), (getbit x b); try exact V; rewrite V, V'; ring.
Qed.
Lemma exchange_length x a b : length (exchange x a b) = length x. Proof. unfold exchange. rewrite !setbit_length. reflexivity. Qed.
Lemma exchange_get x a b p : (a < length x)%nat -> (b < length x)%nat -> getbit (exchange x a b) p = if (p =? b)%nat then getbit x a else if (p =? a)%nat then getbit x b else getbit x p.
Proof. intros A B. unfold exchange. rewrite !get_set by (rewrite ?setbit_length; assumption). reflexivity. Qed.
(** ** the number of ones among some qubits *)
Definition ones (x : list bool) (qs : list nat) : nat := length (filter (getbit x) qs).
Lemma ones_ext x y qs : (forall q, In q qs -> getbit x q = getbit y q) -> ones x qs = ones y qs.
Proof. intros H. unfold ones. f_equal. apply filter_ext_in. exact H. Qed.
Lemma ones_one x y qs a : NoDup qs -> In a qs -> (forall q, q <> a -> getbit x q = getbit y q) ->
  (ones x qs + (if getbit y a then 1 else 0) = ones y qs + (if getbit x a then 1 else 0))%nat.
Proof.
  intros N. induction qs as [|q qs IH]; intros I E; [destruct I|]. inversion N as [|? ? Nq Nq']; subst. unfold ones in *. cbn [filter].
  destruct (Nat.eq_dec q a) as [->|D].
  - assert (F : filter (getbit x) qs = filter (getbit y) qs) by (apply filter_ext_in; intros q Q; apply E; intros ->; contradiction). rewrite F. destruct (getbit x a), (getbit y a); cbn [length]; lia.
  - destruct I as [I|I]; [contradiction|]. specialize (IH Nq' I E). rewrite (E q D). destruct (getbit y q); cbn [length]; lia.
Qed.
Lemma ones_exchange x qs a b : NoDup qs -> In a qs -> In b qs -> a <> b -> (a < length x)%nat -> (b < length x)%nat -> ones (exchange x a b) qs = ones x qs.
Proof.
  intros N A B D La Lb. set (m := setbit x a (getbit x b)).
  assert (H1 := ones_one m x qs a N A). assert (H2 := ones_one (exchange x a b) m qs b N B).
  specialize (H1 ltac:(intros q Q; unfold m; rewrite get_set by exact La; destruct (Nat.eqb_spec q a); [contradiction|reflexivity])).
  specialize (H2 ltac:(intros q Q; unfold exchange; fold m; rewrite get_set by (unfold m; rewrite setbit_length; exact Lb); destruct (Nat.eqb_spec q b); [contradiction|reflexivity])).
  rewrite exchange_get, Nat.eqb_refl in H2 by assumption. unfold m in H1, H2. rewrite !get_set in H1, H2 by exact La. rewrite Nat.eqb_refl in H1. destruct (Nat.eqb_spec b a); [congruence|]. unfold m in *. destruct (getbit x a), (getbit x b); lia.
Qed.
Lemma ones_exchange_out x qs a b : ~ In a qs -> ~ In b qs -> (a < length x)%nat -> (b < length x)%nat -> ones (exchange x a b) qs = ones x qs.
Proof. intros A B La Lb. apply ones_ext. intros q Q. rewrite exchange_get by assumption. destruct (Nat.eqb_spec q b); [subst; contradiction|]. destruct (Nat.eqb_spec q a); [subst; contradiction|]. reflexivity. Qed.
Lemma weight_register k r x : weight (firstn k (skipn r x)) = ones x (filter (fun q => q <? length x)%nat (seq r k)).
Proof.
  revert r k. induction x as [|b x IH]; intros r k.
  - rewrite skipn_nil, firstn_nil. cbn. unfold ones. induction (seq r k) as [|q l IHl]; [reflexivity|exact IHl].
  - destruct r as [|r].
    + cbn [skipn]. destruct k as [|k]; [reflexivity|]. cbn [firstn seq filter]. change ((0 <? length (b :: x))%nat) with true. unfold ones. cbn [filter]. change (getbit (b :: x) 0) with b.
      assert (E : weight (firstn k x) = ones x (filter (fun q => q <? length x)%nat (seq 0 k))) by (rewrite <- IH; reflexivity).
      assert (F : length (filter (getbit (b :: x)) (filter (fun q => q <? length (b :: x))%nat (seq 1 k))) = weight (firstn k x)).
      { rewrite E. unfold ones. rewrite <- seq_shift. clear. induction (seq 0 k) as [|q l IHl]; [reflexivity|]. cbn [map filter]. change ((S q <? length (b :: x))%nat) with ((q <? length x)%nat). destruct (q <? length x)%nat; [|exact IHl].
        cbn [filter]. change (getbit (b :: x) (S q)) with (getbit x q). destruct (getbit x q); [exact (f_equal S IHl)|exact IHl]. }
      unfold weight in *. cbn [filter]. destruct b; [exact (f_equal S (eq_sym F))|exact (eq_sym F)].
    + cbn [skipn]. rewrite IH. unfold ones. rewrite <- seq_shift. clear. induction (seq r k) as [|q l IHl]; [reflexivity|]. cbn [map filter]. change ((S q <? length (b :: x))%nat) with ((q <? length x)%nat). destruct (q <? length x)%nat; [|exact IHl].
      cbn [filter]. change (getbit (b :: x) (S q)) with (getbit x q). destruct (getbit x q); [exact (f_equal S IHl)|exact IHl].
Qed.
Lemma weight_ones k r x : (r + k <= length x)%nat -> weight (firstn k (skipn r x)) = ones x (seq r k).
Proof.
  intros L. rewrite weight_register. f_equal. rewrite (filter_ext_in _ (fun _ => true)).
  - induction (seq r k) as [|q l IH]; [reflexivity|cbn; rewrite IH; reflexivity].
  - intros q Q. apply in_seq in Q. apply Nat.ltb_lt. lia.
Qed.
(** ** XY mixer *)
Lemma xy_pairs_in n a b : (2 <= n)%nat -> In (a, b) (xy_pairs n) -> (a < n /\ b < n /\ a <> b)%nat.
Proof.
  intros N I. assert (D := Nat.div_mod n 2 ltac:(lia)). assert (M := Nat.mod_upper_bound n 2 ltac:(lia)). unfold xy_pairs in I. rewrite !in_app_iff, !in_map_iff in I. destruct I as [(i & E & I)|[(i & E & I)|I]].
  - apply in_seq in I. injection E as <- <-. lia.
  - apply in_seq in I. injection E as <- <-. assert (D' := Nat.div_mod (n - 2 + n mod 2) 2 ltac:(lia)). lia.
  - destruct I as [I|[]]. injection I as <- <-. lia.
Qed.
Lemma keeps_xy L (P : list bool -> Prop) off n beta : (2 <= n)%nat -> (off + n <= L)%nat ->
  (forall x a b, length x = L -> (off <= a < off + n)%nat -> (off <= b < off + n)%nat -> a <> b -> P (exchange x a b) -> P x) -> keeps L P (XY_mixer off n beta).
Proof.
  intros N O E. apply keeps_flat. intros [a b] I. apply xy_pairs_in in I; [|exact N]. apply keeps_xxyy; try lia. intros x Lx. apply E; lia.
Qed.
