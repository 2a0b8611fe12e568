(** The initial state and the lots. *)
From Coq Require Import List Arith Bool ZArith Reals Lia Lra Ring.
Import ListNotations.
From Verif.Inverse Require Import InvSpec InvProofs.
From Verif.CtrlOps Require Import CtrlComplex.
From Verif.StatePrep Require Import PrepModel PrepSpec PrepNum XxyyProofs WProofs DickeProofs.
From Verif.Mixers Require Import MixModel MixSpec MixProofs MixProofs2 MixProofs3.
From Verif.Portfolio Require Import PortModel PortSpec PortProofs.
Local Open Scope nat_scope.
Add Ring cring : complex_ring.

(** * Support *)
Definition moves (L : nat) (P Q : list bool -> Prop) (c : list mgate) : Prop := forall psi, supp L P psi -> supp L Q (mrun c psi).
Lemma moves_app L P Q S c d : moves L P Q c -> moves L Q S d -> moves L P S (c ++ d).
Proof. intros A B psi H. rewrite mrun_app. apply B, A, H. Qed.
Lemma moves_seq L (P : nat -> list bool -> Prop) (g : nat -> mgate) a m : (forall k, a <= k < a + m -> moves L (P k) (P (S k)) [g k]) -> moves L (P a) (P (a + m)) (map g (seq a m)).
Proof.
  revert a. induction m as [|m IH]; intros a H.
  - rewrite Nat.add_0_r. intros psi S. exact S.
  - cbn [seq map]. change (g a :: map g (seq (S a) m)) with ([g a] ++ map g (seq (S a) m)). apply (moves_app _ _ (P (S a))); [apply H; lia|]. replace (a + S m) with (S a + m) by lia. apply IH. intros k K. apply H. lia.
Qed.
Lemma moves_weaken L (P Q : list bool -> Prop) c : keeps L P c -> (forall x, length x = L -> P x -> Q x) -> moves L P Q c.
Proof. intros K H psi S x Lx N. apply K; [exact S|exact Lx|]. intros A. apply N, H; assumption. Qed.
Lemma moves_not L (P Q : list bool -> Prop) q : (forall x, length x = L -> P (setbit x q (negb (getbit x q))) -> Q x) -> moves L P Q [Std (Not q)].
Proof. intros H psi S x Lx N. cbn [mrun fold_left mapply apply]. apply S; [rewrite setbit_length; exact Lx|]. intros A. apply N, H; assumption. Qed.
Lemma moves_cnot L (P Q : list bool -> Prop) a b : (forall x, length x = L -> P (setbit x b (xorb (getbit x b) (getbit x a))) -> Q x) -> moves L P Q [Std (CNot a b)].
Proof. intros H psi S x Lx N. cbn [mrun fold_left mapply apply]. apply S; [rewrite setbit_length; exact Lx|]. intros A. apply N, H; assumption. Qed.
Lemma act_0 u q psi x : (forall b, psi (setbit x q b) = c0) -> act u q psi x = c0.
Proof. intros H. unfold act, on_qubit. rewrite !H. ring. Qed.
Lemma keeps_u L (P : list bool -> Prop) u q : (forall x b, length x = L -> P (setbit x q b) -> P x) -> keeps L P [Std (U u q)].
Proof. intros H psi S x Lx N. cbn [mrun fold_left mapply apply]. apply act_0. intros b. apply S; [rewrite setbit_length; exact Lx|]. intros A. apply N. apply (H x b Lx A). Qed.
Lemma keeps_cry L (P : list bool -> Prop) cs a q : (forall x b, length x = L -> P (setbit x q b) -> P x) -> keeps L P [Std (CRy cs a q)].
Proof.
  intros H psi S x Lx N. cbn [mrun fold_left mapply apply]. destruct (forallb (getbit x) cs); [|apply S; assumption]. apply act_0. intros b. apply S; [rewrite setbit_length; exact Lx|]. intros A. apply N. apply (H x b Lx A).
Qed.

Section I.
Variables n lots : nat.
Hypothesis N1 : 1 <= n.
Hypothesis N2 : 2 * lots <= n.
Definition s0 : nat := if lots =? 0 then 0 else n - lots.
Definition s1 : nat := if lots =? 0 then n else lots.
Lemma s01 : s0 + s1 = n. Proof. unfold s0, s1. destruct (Nat.eqb_spec lots 0); lia. Qed.
Lemma last_seq : last_qubits n lots = seq s0 s1. Proof. unfold last_qubits, s0, s1. destruct (lots =? 0); reflexivity. Qed.
(** after Not gates up to qubit m of l *)
Definition flipped (m : nat) (x : list bool) : Prop := (forall q, q < n -> getbit x q = false) /\ forall q, q < n -> getbit x (n + q) = (s0 <=? q) && (q <? m).
(** short positions only in the last [lots] assets (one if there are no lots); m of the long positions copied *)
Definition copied (m : nat) (x : list bool) : Prop := (forall q, q < n - Nat.max 1 lots -> getbit x q = false) /\
  forall q, q < n -> getbit x (n + q) = if s0 <=? q then true else (n - lots - m <=? q) && getbit x (q + lots).
Lemma start_flipped : supp (2 * n) (flipped s0) (zero_state (2 * n)).
Proof.
  intros x Lx N. unfold zero_state, basis_state. destruct (bits_eqb x (repeat false (2 * n))) eqn:E; [|reflexivity]. exfalso. apply N. apply bits_eqb_eq in E. subst x.
  split; intros q Q; rewrite get_repeat_false; [reflexivity|]. destruct (Nat.leb_spec s0 q), (Nat.ltb_spec q s0); cbn; try reflexivity; lia.
Qed.
Lemma nots_moves : moves (2 * n) (flipped s0) (flipped n) (map (fun q => Std (Not (n + q))) (last_qubits n lots)).
Proof.
  rewrite last_seq. assert (G : moves (2 * n) (flipped s0) (flipped (s0 + s1)) (map (fun q => Std (Not (n + q))) (seq s0 s1))); [|rewrite s01 in G; exact G].
  apply (moves_seq (2 * n) flipped). intros k K. rewrite s01 in K. apply moves_not. intros x Lx [A B]. split.
  - intros q Q. specialize (A q Q). rewrite getbit_set_other in A by lia. exact A.
  - intros q Q. specialize (B q Q). rewrite get_set in B by lia. destruct (Nat.eqb_spec (n + q) (n + k)) as [E|E].
    + assert (q = k) by lia. subst q. rewrite Nat.ltb_irrefl, andb_false_r in B. replace (s0 <=? k) with true by (symmetry; apply Nat.leb_le; lia). replace (k <? S k) with true by (symmetry; apply Nat.ltb_lt; lia).
      destruct (getbit x (n + k)); [reflexivity|discriminate].
    + rewrite B. f_equal. destruct (Nat.ltb_spec q k), (Nat.ltb_spec q (S k)); try reflexivity; lia.
Qed.
Lemma flipped_copied x : flipped n x -> copied 0 x.
Proof.
  intros [A B]. split; [intros q Q; apply A; lia|]. intros q Q. rewrite B by exact Q. replace (q <? n) with true by (symmetry; apply Nat.ltb_lt; lia). rewrite andb_true_r. destruct (Nat.leb_spec s0 q) as [|M]; [reflexivity|].
  rewrite Nat.sub_0_r. unfold s0 in M. destruct (Nat.eqb_spec lots 0); [lia|]. destruct (Nat.leb_spec (n - lots) q); [lia|reflexivity].
Qed.
Lemma copied_free x q b : length x = 2 * n -> n - Nat.max 1 lots <= q < n -> copied 0 (setbit x q b) -> copied 0 x.
Proof.
  intros Lx Q [A B]. split.
  - intros p P. specialize (A p P). rewrite getbit_set_other in A by lia. exact A.
  - intros p P. specialize (B p P). rewrite getbit_set_other in B by lia. rewrite B. destruct (Nat.leb_spec s0 p) as [|M]; [reflexivity|]. unfold s0 in M. destruct (Nat.eqb_spec lots 0); [lia|]. destruct (Nat.leb_spec (n - lots - 0) p); [lia|reflexivity].
Qed.
Lemma rotations_moves : moves (2 * n) (flipped n) (copied 0) ([Std (U (ry (param n lots 0)) (n - 1))] ++ map (fun k => Std (CRy [n - k] (param n lots k) (n - k - 1))) (seq 1 (lots - 1))).
Proof.
  assert (K : keeps (2 * n) (copied 0) ([Std (U (ry (param n lots 0)) (n - 1))] ++ map (fun k => Std (CRy [n - k] (param n lots k) (n - k - 1))) (seq 1 (lots - 1)))).
  { apply keeps_app; [apply keeps_u; intros x b Lx; apply copied_free; [exact Lx|lia]|]. apply keeps_map. intros k Ik. apply in_seq in Ik. apply keeps_cry. intros x b Lx. apply copied_free; [exact Lx|lia]. }
  intros psi S. apply K. intros x Lx N. apply S; [exact Lx|]. intros F. apply N, flipped_copied, F.
Qed.
Lemma copies_moves : moves (2 * n) (copied 0) (copied lots) (map (fun k => Std (CNot (n - k) (n + (n - lots - k)))) (seq 1 lots)).
Proof.
  assert (G : moves (2 * n) ((fun m => copied (m - 1)) 1) ((fun m => copied (m - 1)) (1 + lots)) (map (fun k => Std (CNot (n - k) (n + (n - lots - k)))) (seq 1 lots))).
  { apply (moves_seq (2 * n) (fun m => copied (m - 1)) (fun k => Std (CNot (n - k) (n + (n - lots - k)))) 1 lots). intros k K. apply moves_cnot. intros x Lx [A B]. assert (l1 : lots <> 0) by lia. split.
    - intros q Q. specialize (A q Q). rewrite getbit_set_other in A by lia. exact A.
    - intros q Q. specialize (B q Q). rewrite get_set in B by lia. unfold s0 in *. destruct (Nat.eqb_spec lots 0); [lia|]. destruct (Nat.leb_spec (n - lots) q) as [M|M].
      + destruct (Nat.eqb_spec (n + q) (n + (n - lots - k))); [lia|]. exact B.
      + rewrite (getbit_set_other x _ (q + lots)) in B by lia. destruct (Nat.eqb_spec (n + q) (n + (n - lots - k))) as [E|E].
        * replace q with (n - lots - k) in * by lia. replace (n - lots - k + lots) with (n - k) in * by lia. destruct (Nat.leb_spec (n - lots - (k - 1)) (n - lots - k)); [lia|]. destruct (Nat.leb_spec (n - lots - (S k - 1)) (n - lots - k)); [|lia].
          cbn [andb] in *. destruct (getbit x (n - k)), (getbit x (n + (n - lots - k))); try reflexivity; discriminate.
        * rewrite B. f_equal. destruct (Nat.leb_spec (n - lots - (k - 1)) q), (Nat.leb_spec (n - lots - (S k - 1)) q); try reflexivity; lia. }
  cbn beta in G. replace (1 + lots - 1) with lots in G by lia. exact G.
Qed.
(** ** lots *)
Definition good (x : list bool) : Prop := if lots =? 0 then weight (register n 1 x) = n /\ band n x <= 1 else weight (register n 1 x) = lots + band n x /\ band n x <= lots.
Lemma ones_app x a b : ones x (a ++ b) = ones x a + ones x b.
Proof. unfold ones. rewrite filter_app, app_length. reflexivity. Qed.
Lemma ones_const x qs b : (forall q, In q qs -> getbit x q = b) -> ones x qs = if b then length qs else 0.
Proof.
  intros H. unfold ones. induction qs as [|q qs IH]; [destruct b; reflexivity|]. cbn [filter]. rewrite (H q) by (left; reflexivity). specialize (IH (fun p P => H p (or_intror P))). destruct b; cbn [length]; rewrite ?IH; reflexivity.
Qed.
Lemma ones_le x qs : ones x qs <= length qs. Proof. unfold ones. induction qs as [|q qs IH]; [reflexivity|]. cbn [filter]. destruct (getbit x q); cbn [length]; lia. Qed.
Lemma ones_shift x a b m : (forall q, q < m -> getbit x (a + q) = getbit x (b + q)) -> ones x (seq a m) = ones x (seq b m).
Proof.
  revert a b. induction m as [|m IH]; intros a b H; [reflexivity|]. cbn [seq]. unfold ones in *. cbn [filter]. specialize (H 0 ltac:(lia)) as H0. rewrite !Nat.add_0_r in H0. rewrite H0.
  assert (E : length (filter (getbit x) (seq (S a) m)) = length (filter (getbit x) (seq (S b) m))) by (apply IH; intros q Q; specialize (H (S q) ltac:(lia)); rewrite !Nat.add_succ_r in H; exact H).
  destruct (getbit x b); cbn [length]; rewrite E; reflexivity.
Qed.
Lemma copied_good x : length x = 2 * n -> copied lots x -> good x.
Proof.
  intros Lx [A B]. unfold good, band, register. rewrite !weight_ones by lia. rewrite Nat.mul_0_l, Nat.mul_1_l. unfold s0 in B. destruct (Nat.eqb_spec lots 0) as [E|E].
  - split.
    + rewrite (ones_const x (seq n n) true), seq_length; [reflexivity|]. intros q Q. apply in_seq in Q. replace q with (n + (q - n)) by lia. rewrite B by lia. reflexivity.
    + replace (seq 0 n) with (seq 0 (n - 1) ++ seq (n - 1) 1) by (rewrite <- seq_app; f_equal; lia). rewrite ones_app, (ones_const x (seq 0 (n - 1)) false); [apply (ones_le x (seq (n - 1) 1))|]. intros q Q. apply in_seq in Q. apply A. rewrite E. cbn. lia.
  - assert (M : Nat.max 1 lots = lots) by lia. rewrite M in A. replace (seq 0 n) with (seq 0 (n - lots) ++ seq (n - lots) lots) by (rewrite <- seq_app; f_equal; lia).
    replace (seq n n) with (seq n (n - 2 * lots) ++ seq (n + (n - 2 * lots)) lots ++ seq (n + (n - lots)) lots).
    2:{ replace (n + (n - lots)) with (n + (n - 2 * lots) + lots) by lia. rewrite <- !seq_app. f_equal. lia. }
    rewrite !ones_app. rewrite (ones_const x (seq 0 (n - lots)) false) by (intros q Q; apply in_seq in Q; apply A; lia).
    rewrite (ones_const x (seq n (n - 2 * lots)) false).
    2:{ intros q Q. apply in_seq in Q. replace q with (n + (q - n)) by lia. rewrite B by lia. destruct (Nat.leb_spec (n - lots) (q - n)); [lia|]. destruct (Nat.leb_spec (n - lots - lots) (q - n)); [lia|reflexivity]. }
    rewrite (ones_const x (seq (n + (n - lots)) lots) true), seq_length.
    2:{ intros q Q. apply in_seq in Q. replace q with (n + (q - n)) by lia. rewrite B by lia. destruct (Nat.leb_spec (n - lots) (q - n)); [reflexivity|lia]. }
    rewrite (ones_shift x (n + (n - 2 * lots)) (n - lots)).
    + pose proof (ones_le x (seq (n - lots) lots)) as O. rewrite seq_length in O. lia.
    + intros q Q. rewrite <- Nat.add_assoc, B by lia. destruct (Nat.leb_spec (n - lots) (n - 2 * lots + q)); [lia|]. destruct (Nat.leb_spec (n - lots - lots) (n - 2 * lots + q)); [|lia]. cbn [andb]. f_equal. lia.
Qed.
Lemma good_exchange x v a b : length x = 2 * n -> v < 2 -> v * n <= a < v * n + n -> v * n <= b < v * n + n -> a <> b -> good (exchange x a b) -> good x.
Proof.
  intros Lx V A B D G. unfold good, band in *. rewrite (register_exchange n 0 2 x a b v) in G by (try assumption; lia). rewrite (register_exchange n 1 2 x a b v) in G by (try assumption; lia). exact G.
Qed.
Lemma qaoa_good pb angles c : portfolio_qaoa pb n lots angles = Some c -> supp (2 * n) good (mrun c (zero_state (2 * n))).
Proof.
  unfold portfolio_qaoa, portfolio_init. destruct ((n =? 0) || (n <? 2 * lots)) eqn:E; [discriminate|]. intros H. injection H as <-. rewrite mrun_app.
  assert (K : keeps (2 * n) good (layers (portfolio_cost_op pb n) (portfolio_mixer n) angles)).
  { apply keeps_layers; [intros g; eapply keeps_diag, diag_cost|]. intros b. unfold portfolio_mixer.
    apply keeps_app; apply keeps_portfolio_register; try lia; intros x p q Lx P Q D; [apply (good_exchange x 0)|apply (good_exchange x 1)]; try assumption; lia. }
  apply K. assert (C : supp (2 * n) (copied lots) (mrun (map (fun q => Std (Not (n + q))) (last_qubits n lots) ++ [Std (U (ry (param n lots 0)) (n - 1))] ++ map (fun k => Std (CRy [n - k] (param n lots k) (n - k - 1))) (seq 1 (lots - 1)) ++
    map (fun k => Std (CNot (n - k) (n + (n - lots - k)))) (seq 1 lots)) (zero_state (2 * n)))).
  { apply (moves_app _ (flipped s0) (flipped n)); [exact nots_moves| |exact start_flipped]. rewrite app_assoc. apply (moves_app _ _ (copied 0)); [exact rotations_moves|exact copies_moves]. }
  intros x Lx N. apply C; [exact Lx|]. intros Y. apply N, copied_good; assumption.
Qed.
End I.

(** * The weight of band 0 *)
Local Open Scope R_scope.
Lemma first_get n lots p : (p < 2 * n)%nat -> getbit (first_portfolio n lots) p = (2 * n - lots <=? p)%nat.
Proof. intros P. unfold getbit, first_portfolio. rewrite (nth_indep _ false ((2 * n - lots <=? 0)%nat)) by (rewrite map_length, seq_length; exact P). rewrite (map_nth (fun p => (2 * n - lots <=? p)%nat)), seq_nth by exact P. reflexivity. Qed.
Lemma first_length n lots : length (first_portfolio n lots) = (2 * n)%nat. Proof. unfold first_portfolio. rewrite map_length, seq_length. reflexivity. Qed.
Fixpoint flip_all (n : nat) (qs : list nat) (x : list bool) : list bool := match qs with [] => x | q :: qs => flip (flip_all n qs x) (n + q) end.
Lemma run_nots n qs : forall psi x, mrun (map (fun q => Std (Not (n + q))) qs) psi x = psi (flip_all n qs x).
Proof. induction qs as [|q qs IH]; intros psi x; [reflexivity|]. cbn [map]. change (mrun (map (fun q => Std (Not (n + q))) qs) (apply (Not (n + q)) psi) x = psi (flip_all n (q :: qs) x)). rewrite IH. reflexivity. Qed.
Lemma flip_all_length n qs x : length (flip_all n qs x) = length x.
Proof. induction qs as [|q qs IH]; [reflexivity|]. cbn [flip_all]. unfold flip. rewrite setbit_length. exact IH. Qed.
Lemma flip_all_get n a m x p : (n + a + m <= length x)%nat -> getbit (flip_all n (seq a m) x) p = xorb (getbit x p) ((n + a <=? p)%nat && (p <? n + a + m)%nat).
Proof.
  revert a p. induction m as [|m IH]; intros a p H; cbn [seq flip_all].
  - destruct (Nat.leb_spec (n + a) p), (Nat.ltb_spec p (n + a + 0)); try lia; cbn [andb]; rewrite xorb_false_r; reflexivity.
  - unfold flip. rewrite get_set by (rewrite flip_all_length; lia). rewrite !IH by lia. destruct (Nat.eqb_spec p (n + a)) as [->|N].
    + rewrite ?IH by lia. destruct (Nat.leb_spec (n + S a) (n + a)), (Nat.leb_spec (n + a) (n + a)), (Nat.ltb_spec (n + a) (n + a + S m)); try lia. destruct (getbit x (n + a)); reflexivity.
    + f_equal. destruct (Nat.leb_spec (n + S a) p), (Nat.leb_spec (n + a) p), (Nat.ltb_spec p (n + S a + m)), (Nat.ltb_spec p (n + a + S m)); try reflexivity; lia.
Qed.
Lemma run_cnots ks (f g : nat -> nat) : forall psi x, (forall k, In k ks -> getbit x (f k) = false) -> mrun (map (fun k => Std (CNot (f k) (g k))) ks) psi x = psi x.
Proof.
  induction ks as [|k ks IH]; intros psi x H; [reflexivity|]. cbn [map]. change (mrun (map (fun k => Std (CNot (f k) (g k))) ks) (apply (CNot (f k) (g k)) psi) x = psi x). rewrite IH by (intros j J; apply H; right; exact J).
  cbn [apply]. rewrite (H k) by (left; reflexivity). rewrite xorb_false_r, setbit_get. reflexivity.
Qed.
Lemma run_crys ks (f g : nat -> nat) (t : nat -> R) : forall psi x, (forall k, In k ks -> getbit x (f k) = false) -> mrun (map (fun k => Std (CRy [f k] (t k) (g k))) ks) psi x = psi x.
Proof.
  induction ks as [|k ks IH]; intros psi x H; [reflexivity|]. cbn [map]. change (mrun (map (fun k => Std (CRy [f k] (t k) (g k))) ks) (apply (CRy [f k] (t k) (g k)) psi) x = psi x). rewrite IH by (intros j J; apply H; right; exact J).
  cbn [apply forallb]. rewrite (H k) by (left; reflexivity). reflexivity.
Qed.
Lemma band_pos n lots i : (lots + i <= n)%nat -> 0 < band_prefix n lots i.
Proof. intros L. unfold band_prefix. apply lt_0_INR. pose proof (choose_pos n i ltac:(lia)). pose proof (choose_pos n (lots + i) L). nia. Qed.
Lemma sum_pos f m : (forall i, (i < m)%nat -> 0 <= f i) -> 0 <= sum f m.
Proof. induction m as [|m IH]; intros H; cbn [sum]; [lra|]. specialize (H m ltac:(lia)) as A. assert (B : 0 <= sum f m) by (apply IH; intros i I; apply H; lia). lra. Qed.
Lemma sum_term f m k : (forall i, (i < m)%nat -> 0 <= f i) -> (k < m)%nat -> f k <= sum f m.
Proof.
  induction m as [|m IH]; intros H K; [lia|]. cbn [sum]. pose proof (H m ltac:(lia)) as A. destruct (Nat.eq_dec k m) as [->|N].
  - assert (B : 0 <= sum f m) by (apply sum_pos; intros i I; apply H; lia). lra.
  - assert (B : f k <= sum f m) by (apply IH; [intros i I; apply H; lia|lia]). lra.
Qed.
Lemma max_sum n lots : max_pref n lots = sum (band_prefix n lots) (n - lots + 1). Proof. apply lsum_seq. Qed.
Lemma ratio n lots : (lots <= n)%nat -> 0 < band_prefix n lots 0 / max_pref n lots <= 1.
Proof.
  intros L. pose proof (band_pos n lots 0 ltac:(lia)) as B. rewrite max_sum. assert (M : band_prefix n lots 0 <= sum (band_prefix n lots) (n - lots + 1)).
  { apply sum_term; [|lia]. intros i I. left. apply band_pos. lia. }
  split; [apply Rdiv_lt_0_compat; lra|]. apply Rmult_le_reg_r with (sum (band_prefix n lots) (n - lots + 1)); [lra|]. unfold Rdiv. rewrite Rmult_assoc, Rinv_l by lra. lra.
Qed.
Lemma cos_param n lots : (lots <= n)%nat -> cos (param n lots 0 / 2) = sqrt (band_prefix n lots 0 / max_pref n lots).
Proof.
  intros L. unfold param. replace (2 * acos (sqrt (band_prefix n lots 0 / max_pref n lots)) / 2) with (acos (sqrt (band_prefix n lots 0 / max_pref n lots))) by field. apply cos_acos.
  destruct (ratio n lots L) as [A B]. split; [pose proof (sqrt_pos (band_prefix n lots 0 / max_pref n lots)); lra|]. rewrite <- sqrt_1. apply sqrt_le_1; lra.
Qed.
Lemma norm2_real r : norm2 (real r) = r * r. Proof. unfold norm2, real. cbn. ring. Qed.
Lemma init_band0 n lots c : (1 <= lots)%nat -> portfolio_init n lots = Some c -> norm2 (mrun c (zero_state (2 * n)) (first_portfolio n lots)) = band_prefix n lots 0 / max_pref n lots.
Proof.
  intros L1. unfold portfolio_init. destruct ((n =? 0)%nat || (n <? 2 * lots)%nat) eqn:E; [discriminate|]. apply orb_false_iff in E. destruct E as [E1 E2]. apply Nat.eqb_neq in E1. apply Nat.ltb_ge in E2.
  intros H. injection H as <-. set (x := first_portfolio n lots). assert (Lx : length x = (2 * n)%nat) by apply first_length.
  assert (X : forall p, (p < n)%nat -> getbit x p = false) by (intros p P; unfold x; rewrite first_get by lia; apply Nat.leb_gt; lia).
  rewrite mrun_app. match goal with |- context [mrun (?g :: ?r)] => change (g :: r) with ([g] ++ r) end. rewrite !mrun_app. rewrite (run_cnots (seq 1 lots) (fun k => n - k)%nat (fun k => n + (n - lots - k))%nat) by (intros k K; apply in_seq in K; apply X; lia).
  rewrite (run_crys (seq 1 (lots - 1)) (fun k => n - k)%nat (fun k => n - k - 1)%nat (param n lots)) by (intros k K; apply in_seq in K; apply X; lia).
  set (psi := mrun (map (fun q => Std (Not (n + q))) (last_qubits n lots)) (zero_state (2 * n))).
  assert (S : supp (2 * n) (flipped n lots n) psi) by (apply nots_moves; [lia|lia|apply start_flipped; lia]).
  assert (V : psi x = c1).
  { unfold psi. rewrite run_nots. unfold zero_state, basis_state. replace (bits_eqb (flip_all n (last_qubits n lots) x) (repeat false (2 * n))) with true; [reflexivity|]. symmetry. apply bits_eqb_eq. apply bits_ext.
    - rewrite flip_all_length, repeat_length. exact Lx.
    - intros p P. rewrite flip_all_length, Lx in P. unfold last_qubits. replace (lots =? 0)%nat with false by (symmetry; apply Nat.eqb_neq; lia). rewrite flip_all_get by lia. unfold x. rewrite first_get by exact P. rewrite get_repeat_false.
      destruct (Nat.leb_spec (2 * n - lots) p), (Nat.leb_spec (n + (n - lots)) p), (Nat.ltb_spec p (n + (n - lots) + lots)); try reflexivity; lia. }
  assert (Z : psi (setbit x (n - 1) true) = c0).
  { apply S; [rewrite setbit_length; exact Lx|]. intros [A _]. specialize (A (n - 1)%nat ltac:(lia)). rewrite get_set, Nat.eqb_refl in A by lia. discriminate. }
  cbn [mrun fold_left mapply apply]. unfold act, on_qubit. rewrite X by lia. rewrite !m_ry.
  replace (setbit x (n - 1) false) with x by (rewrite <- (X (n - 1)%nat) by lia; symmetry; apply setbit_get). rewrite V, Z, cos_param by lia.
  replace (cadd (cmul (real (sqrt (band_prefix n lots 0 / max_pref n lots))) c1) (cmul (real (- sin (param n lots 0 / 2))) c0)) with (real (sqrt (band_prefix n lots 0 / max_pref n lots))) by ring.
  rewrite norm2_real. apply sqrt_sqrt. destruct (ratio n lots ltac:(lia)); lra.
Qed.
