(** Products outside tracing. *)
From Coq Require Import List ZArith Znumtheory Bool Arith Lia.
Import ListNotations.
From Verif.Inverse Require Import InvSpec InvProofs.
From Verif.CtrlOps Require Import CtrlSpec CtrlProofs.
From Verif.Fourier Require Import FourierSpec RegProofs.
From Verif.ModTools Require Import ModToolsModel ModToolsProofs.
From Verif.Modular Require Import ModModel ModSpec ViewProofs ModAddProofs ReduceProofs MontProofs MultiplyProofs InplaceProofs AddFinal QqProofs StaticModel StaticSpec RippleProofs QredcProofs.
Local Open Scope Z_scope.

(** ** ripple multiplication can be inverted *)
Lemma valid_cxs L c s : (c < L)%nat -> ~ In c s -> (forall q, In q s -> (q < L)%nat) -> valid L (map (Cx c) s).
Proof.
  intros C N F. apply Forall_forall. intros st I. apply in_map_iff in I. destruct I as (q & <- & J). cbn. split; [intros ->; auto|]. split; auto.
Qed.
Lemma valid_flips L s : (forall q, In q s -> (q < L)%nat) -> valid L (map Flip s).
Proof. intros F. apply Forall_forall. intros st I. apply in_map_iff in I. destruct I as (q & <- & J). cbn. auto. Qed.
Lemma q_int_valid x f1 f2 target low : register (low :: target) x -> register f1 x -> register f2 x -> apart f1 (low :: target) -> apart f2 (low :: target) ->
  (0 < length f1)%nat -> (0 < length f2)%nat -> valid (length x) (q_int_mult f1 f2 true target low).
Proof.
  intros Rs R1 R2 A1 A2 P1 P2. set (s := low :: target) in *. set (a := longer f1 f2). set (b := shorter f1 f2).
  assert (Ra : register a x) by (unfold a, longer; destruct (length f1 <? length f2)%nat; auto).
  assert (Aa : apart a s) by (unfold a, longer; destruct (length f1 <? length f2)%nat; auto).
  assert (Ab : apart b s) by (unfold b, shorter; destruct (length f1 <? length f2)%nat; auto).
  assert (Pa : (0 < length a)%nat) by (unfold a, longer; destruct (length f1 <? length f2)%nat; auto).
  assert (Add_ok : forall i k, valid (length x) [Add [] (Qu (firstn k b)) (skipn i s)]).
  { intros i k. apply valid_one. cbn. split; [apply nodup_skipn, (proj1 Rs)|]. split; [intros q I; apply (proj2 Rs), (in_skipn _ _ _ I)|].
    intros q I. split; [tauto|]. intros J. apply in_firstn in J. apply in_skipn in I. apply (Ab q J I). }
  assert (Cxs : forall i, (i < length a)%nat -> valid (length x) (map (Cx (nth i a 0%nat)) s)).
  { intros i I. apply valid_cxs; [apply (proj2 Ra), nth_In, I|apply Aa, nth_In, I|apply (proj2 Rs)]. }
  unfold q_int_mult. fold a b s. unfold q_int_start.
  apply valid_app; [apply Add_ok|]. apply valid_app; [apply valid_flips, (proj2 Rs)|].
  apply valid_app; [rewrite <- (firstn_all b) at 1; apply (Add_ok 0%nat)|]. apply valid_app; [apply Cxs, Pa|]. apply valid_app; [|apply valid_app].
  - apply valid_flat_map. intros i I. apply in_seq in I. unfold q_int_round. apply valid_app; [apply Add_ok|].
    destruct (Nat.eqb_spec i (length a - 1)) as [E|E]; [constructor|].
    assert (C1 : valid (length x) [Cx (nth i a 0%nat) (nth (i + 1) a 0%nat)]).
    { apply valid_one. cbn. split; [|split; apply (proj2 Ra), nth_In; lia]. intros J. apply NoDup_nth in J; try apply (proj1 Ra); lia. }
    apply valid_app; [exact C1|]. apply valid_app; [apply Cxs; lia|exact C1].
  - replace (last a 0%nat) with (nth (length a - 1) a 0%nat); [apply Cxs; lia|]. destruct (exists_last (l := a)) as (l & w & Ew); [intros E0; rewrite E0 in Pa; cbn in Pa; lia|].
    rewrite Ew, last_last, app_length. cbn [length]. rewrite Nat.add_sub, app_nth2, Nat.sub_diag by lia. reflexivity.
  - apply valid_flips, (proj2 Rs).
Qed.
Lemma qc_mul_valid x t N : register t x -> valid (length x) (qc_mul_inplace t N).
Proof.
  intros R. unfold qc_mul_inplace. apply valid_flat_map. intros i I. apply in_seq in I. apply valid_one. cbn. split; [apply nodup_skipn, (proj1 R)|].
  split; [intros q J; apply (proj2 R), (in_skipn _ _ _ J)|]. intros q J. split; [|exact Logic.I]. intros [<-|[]].
  replace (length t - 1 - i)%nat with (length t - 2 - i + 1)%nat in J by lia. revert J. apply nth_skip_off; [apply (proj1 R)|lia].
Qed.

Section parts.
Context (x : list bool) (lo mid : list nat) (q : nat).
Let t := lo ++ mid ++ [q].
Let u := lo ++ [q].
Context (Rg : register t x).
Lemma ru : register u x. Proof. exact (u_reg x lo mid q Rg). Qed.
Lemma rm : register mid x. Proof. exact (mid_reg x lo mid q Rg). Qed.
Lemma um : apart u mid. Proof. exact (u_mid x lo mid q Rg). Qed.
Lemma in_u p : In p u -> In p t. Proof. intros I. apply (proj2 (t_parts lo mid q p)). auto. Qed.
Lemma in_m p : In p mid -> In p t. Proof. intros I. apply (proj2 (t_parts lo mid q p)). auto. Qed.
Lemma overwrite P U S : store (store (store x t P) u U) mid S = store (store x u U) mid S.
Proof.
  set (F := store (store (store x t P) u U) mid S). assert (L : length F = length x) by (unfold F; rewrite !store_length; reflexivity).
  rewrite (rebuild x F u mid ru rm um L).
  - unfold F at 2. rewrite value_store by (apply (register_length _ x); [rewrite !store_length; reflexivity|exact rm]). rewrite store_mod.
    replace (value F u) with (U mod two (length u)); [rewrite store_mod; reflexivity|]. unfold F. rewrite value_store_off by exact um. rewrite value_store; [reflexivity|].
    apply (register_length _ x); [rewrite !store_length; reflexivity|exact ru].
  - intros p Hu Hm. unfold F. rewrite !store_other; auto. intros I. apply (proj1 (t_parts lo mid q p)) in I. destruct I; auto.
Qed.
Lemma parts_zero : value x t = 0 -> value x u = 0 /\ value x mid = 0.
Proof. intros V. pose proof (value_zero _ _ V) as Z0. split; apply zero_value; intros p I; apply Z0; [apply in_u, I|apply in_m, I]. Qed.
(** clearing u *)
Lemma clear_u U S : value x u = 0 -> store (store (store x u U) mid S) u 0 = store x mid S.
Proof.
  intros V. rewrite (store_comm (store x u U) mid u); [|apply (register_length _ x); [rewrite store_length|]; auto; apply rm|apply (register_length _ x); [rewrite store_length|]; auto; apply ru|intros p I J; apply (um p J I)].
  rewrite store_store by apply (proj1 ru). rewrite zero_store by (auto; apply ru). reflexivity.
Qed.
End parts.

Section product.
Context (x : list bool) (f1 f2 lo mid : list nat) (q low : nat) (N : Z).
Let t := lo ++ mid ++ [q].
Let u := lo ++ [q].
Let m := length lo.
Let n := length mid.
Context (Rs : register (low :: t) x) (R1 : register f1 x) (R2 : register f2 x) (A1 : apart f1 (low :: t)) (A2 : apart f2 (low :: t)) (P1 : (0 < length f1)%nat) (P2 : (0 < length f2)%nat)
  (Zl : getbit x low = false) (Zt : value x t = 0) (Odd : Z.odd N = true) (HN : 0 < N <= two n) (Hn : (0 < n)%nat).
Let P := value x f1 * value x f2.
Lemma t_reg : register t x. Proof. apply (register_cons _ _ _ Rs). Qed.
Lemma low_off : ~ In low t. Proof. apply (register_cons _ _ _ Rs). Qed.
Lemma static_product : P < N * two m -> (length f1 <= m + 1)%nat -> (length f2 <= m + 1)%nat ->
  exists p S, montgomery_red_q t f1 f2 N m low = Some p /\ execute (q_int_mult f1 f2 true t low ++ p) x = store x mid S /\ 0 <= S < N /\ (S * two m) mod N = P mod N.
Proof.
  intros Bd L1 L2. pose proof (two_pos m) as Pm. pose proof (two_pos n) as Pn. assert (P0 : 0 <= P) by (unfold P; apply Z.mul_nonneg_nonneg; apply value_range).
  assert (Eu : qredc_u t m = u) by (apply (u_is lo mid q m); reflexivity).
  assert (Lt : length t = (m + 1 + n)%nat) by (unfold t; rewrite !app_length; cbn [length]; fold m n; lia).
  assert (Lu : length u = (m + 1)%nat) by (unfold u; rewrite app_length; reflexivity).
  assert (Bt : P < two (m + n)) by (rewrite two_add; nia).
  assert (Bt' : P < two (length t)) by (rewrite Lt; replace (m + 1 + n)%nat with (S (m + n)) by lia; rewrite two_S; lia).
  assert (Lo : (length (longer f1 f2) <= m + 1)%nat) by (unfold longer; destruct (length f1 <? length f2)%nat; auto).
  assert (E1 : execute (q_int_mult f1 f2 true t low) x = store x t P).
  { rewrite q_int_run; auto; [|lia]. rewrite Zt. reflexivity. }
  set (y1 := store x t P) in *. assert (Ly : length y1 = length x) by apply store_length.
  assert (Ry : register t y1) by (apply (register_length _ x); [auto|apply t_reg]).
  assert (Vy : value y1 t = P) by (unfold y1; rewrite value_store by apply t_reg; apply Z.mod_small; lia).
  destruct (qredc_run y1 lo mid q N m n Ry eq_refl eq_refl Odd (proj1 HN) Hn (proj2 HN)) as (S & U & E2 & HS & HU & C1 & C2 & C3); [fold t; rewrite Vy; exact Bt|].
  fold t in E2, C1, C2, C3. rewrite Vy in C1, C2, C3. fold u in E2. unfold y1 in E2 at 2. rewrite (overwrite x lo mid q t_reg) in E2.
  unfold montgomery_red_q. rewrite Eu. unfold inpl_q_int_mult. rewrite <- Z.negb_odd. set (N' := N mod 2 ^ Z.of_nat (m + 1)).
  assert (Odd' : Z.odd N' = true).
  { unfold N'. rewrite <- Z.bit0_odd, Z.mod_pow2_bits_low by lia. rewrite Z.bit0_odd. exact Odd. }
  rewrite Odd'. cbn [negb]. eexists _, S. split; [reflexivity|]. split; [|split; [specialize (C3 Bd); lia|exact C1]].
  rewrite !execute_app, E1, E2. fold u. set (s := store (store x u U) mid S). assert (Ls : length s = length x) by (unfold s; rewrite !store_length; reflexivity).
  assert (RU := ru x lo mid q t_reg). fold u in RU. assert (RM := rm x lo mid q t_reg). assert (UM := um x lo mid q t_reg). fold u in UM.
  rewrite qc_mul_run by (auto; apply (register_length _ x); auto).
  assert (Vs : value s u = U). { unfold s. rewrite value_store_off by exact UM. rewrite value_store by exact RU. rewrite Lu. apply Z.mod_small, HU. }
  rewrite Vs. destruct (parts_zero x lo mid q Zt) as (Zu & _). fold u in Zu.
  assert (E3 : store s u (U * N') = store (store x mid S) u P).
  { rewrite <- store_mod, Lu. unfold N'. rewrite Zmult_mod_idemp_r, C2. rewrite <- Lu, store_mod. unfold s.
    rewrite (store_comm (store x u U) mid u); [|apply (register_length _ x); [rewrite store_length|]; auto..|intros p I J; apply (UM p J I)].
    rewrite store_store by apply (proj1 RU). apply store_comm; auto. }
  rewrite E3. set (g := store x mid S). assert (Lg : length g = length x) by apply store_length.
  assert (Sub : forall p, In p (low :: u) -> In p (low :: t)) by (intros p [<-|I]; [left; auto|right; apply in_u, I]).
  assert (Rl : register (low :: u) g).
  { apply (register_length _ x); [auto|]. split; [constructor; [intros I; apply low_off, in_u, I|apply (proj1 RU)]|]. intros p I. apply (proj2 Rs), Sub, I. }
  assert (G1 : register f1 g) by (apply (register_length _ x); auto). assert (G2 : register f2 g) by (apply (register_length _ x); auto).
  assert (B1 : apart f1 (low :: u)) by (intros p I J; apply (A1 p I), Sub, J). assert (B2 : apart f2 (low :: u)) by (intros p I J; apply (A2 p I), Sub, J).
  assert (M1 : apart f1 mid) by (intros p I J; apply (A1 p I); right; apply in_m, J). assert (M2 : apart f2 mid) by (intros p I J; apply (A2 p I); right; apply in_m, J).
  assert (E4 : execute (q_int_mult f1 f2 true u low) g = store g u P).
  { rewrite q_int_run; auto; [|unfold g; rewrite store_other; [exact Zl|intros I; apply low_off, in_m, I]|rewrite Lu; exact Lo]. unfold g. rewrite !value_store_off by auto. rewrite Zu. reflexivity. }
  rewrite <- E4. apply inverted_undoes. apply q_int_valid; auto.
Qed.
End product.

(** ** a number as the second factor *)
Lemma flips_write s x : register s x -> execute (map Flip s) x = write x s (map negb (read x s)).
Proof.
  intros R. symmetry. apply write_ext; [exact R|rewrite map_length, read_length; reflexivity|apply flips_length|rewrite flips_read by exact R; reflexivity|intros p H; apply flips_off, H].
Qed.
Definition shifted_adds (a t : list nat) (b : Z) (k : nat) : list step := flat_map (fun i => if Z.testbit b (Z.of_nat i) then [Add [] (Qu a) (skipn i t)] else []) (seq 0 k).
Section semi.
Context (x : list bool) (a lo mid : list nat) (q : nat) (N b : Z) (permeable : bool).
Let t := lo ++ mid ++ [q].
Let u := lo ++ [q].
Let m := length lo.
Let n := length mid.
Context (Rt : register t x) (Ra : register a x) (Aa : apart a t) (Odd : Z.odd N = true) (HN : 3 <= N <= two n) (Hb : 0 <= b < N).
Lemma semi_n : (0 < n)%nat.
Proof. pose proof HN as H. clear - H. destruct (Nat.eq_dec n 0) as [E|E]; [rewrite E in H; change (two 0) with 1 in H; lia|lia]. Qed.
Lemma adds_run k : execute (shifted_adds a t b k) x = store x t (value x t + value x a * (b mod two k)).
Proof.
  unfold shifted_adds. induction k as [|k IH].
  - cbn [seq flat_map execute fold_left]. change (two 0) with 1. rewrite Z.mod_1_r, Z.mul_0_r, Z.add_0_r. symmetry. apply store_value, (proj1 Rt).
  - rewrite seq_snoc, flat_map_app, execute_app, IH. cbn [flat_map app]. rewrite app_nil_r. set (w := value x t + value x a * (b mod two k)). rewrite low_step.
    destruct (Z.testbit b (Z.of_nat k)); cbn [b2]; [|cbn [execute fold_left]; f_equal; unfold w; ring].
    rewrite execute_cons. cbn [execute fold_left perform forallb amount]. rewrite (value_store_off x t w a) by exact Aa.
    assert (Rw : register t (store x t w)) by (apply (register_length _ x); [rewrite store_length|]; auto).
    rewrite store_tail by exact Rw. rewrite store_store by apply (proj1 Rt). rewrite (value_store x t w Rt). rewrite <- store_mod, Zplus_mod_idemp_l, store_mod. f_equal. unfold w. ring.
Qed.
Lemma adds_valid k : valid (length x) (shifted_adds a t b k).
Proof.
  unfold shifted_adds. apply valid_flat_map. intros i _. destruct (Z.testbit b (Z.of_nat i)); [|constructor]. apply valid_one. cbn. split; [apply nodup_skipn, (proj1 Rt)|].
  split; [intros p I; apply (proj2 Rt), (in_skipn _ _ _ I)|]. intros p I. split; [tauto|]. intros J. apply (Aa p J), (in_skipn _ _ _ I).
Qed.
Lemma whole_b : b mod two (Z.to_nat (Z.log2_up N)) = b.
Proof.
  apply Z.mod_small. rewrite Z2Nat.id by apply Z.log2_up_nonneg. destruct (Z.log2_up_spec N) as (_ & H); lia.
Qed.
Definition uncomputing N1 := map (fun k => Add [nth k a 0%nat] (Cl (- (two k * b) * N1)) u) (seq 0 (length a)).
Definition permeable_steps := if permeable then map Flip a ++ [Add (a ++ [nth 0 mid 0%nat]) (Cl 1) [q]] ++ map Flip a else [].
Lemma red_c_shape : exists N1, (N * N1) mod two (m + 1) = 1 /\ montgomery_red_c t a b N m permeable = Some (qredc t N m ++ uncomputing N1 ++ permeable_steps).
Proof.
  assert (2 <= two (m + 1)) by (rewrite Nat.add_1_r, two_S; pose proof (two_pos m); lia).
  destruct (proj1 (modinv_py_spec N (two (m + 1)) ltac:(lia) ltac:(lia))) as (N1 & E & _ & M); [apply Zgcd_1_rel_prime, coprime_two, Odd|].
  exists N1. split; [exact M|]. unfold montgomery_red_c. rewrite E. rewrite flat_map_single.
  assert (Eu : qredc_u t m = u) by (apply (u_is lo mid q m); reflexivity). assert (ES : qredc_S t m = mid) by (apply (S_is lo mid q m); reflexivity). rewrite Eu, ES. unfold uncomputing, permeable_steps, u. rewrite last_last. reflexivity.
Qed.
Lemma uncompute_run s N1 : length s = length x -> execute (uncomputing N1) s = store s u (value s u - value s a * b * N1).
Proof.
  intros L. unfold uncomputing. assert (Au : forall p, In p a -> ~ In p u) by (intros p I J; apply (Aa p I), in_u, J).
  rewrite (add_each s a (fun k => - (two k * b) * N1) u); [|apply (register_length _ x); [auto|apply (ru x lo mid q Rt)]|exact Au|intros j I; apply in_seq in I; lia].
  f_equal. unfold Z.sub. f_equal. rewrite value_sumf. unfold bit_sum. rewrite <- Z.mul_assoc, <- Z.mul_opp_r, <- sumf_scale. apply sumf_ext. intros j _. destruct (getbit s (nth j a 0%nat)); ring.
Qed.
Lemma uncompute_valid N1 : valid (length x) (uncomputing N1).
Proof.
  apply Forall_forall. intros st I. apply in_map_iff in I. destruct I as (k & <- & I). apply in_seq in I. cbn. destruct (ru x lo mid q Rt) as (D & B). split; [exact D|]. split; [exact B|].
  intros p J. split; [|exact Logic.I]. intros [<-|[]]. apply (Aa (nth k a 0%nat)); [apply nth_In; lia|apply in_u, J].
Qed.
Lemma q_apart : ~ In q a. Proof. intros I. apply (Aa q I). unfold t. rewrite !in_app_iff. right. right. left. auto. Qed.
Lemma q_mid : ~ In q mid. Proof. apply (um x lo mid q Rt). apply in_or_app. right. left. auto. Qed.
Lemma mid0_in : In (nth 0 mid 0%nat) mid. Proof. apply nth_In. exact semi_n. Qed.
Lemma q_len : (q < length x)%nat. Proof. apply (proj2 Rt). unfold t. rewrite !in_app_iff. right. right. left. auto. Qed.
(** the multi-controlled X on the sign *)
Lemma permeable_run s : length s = length x -> permeable = true ->
  execute permeable_steps s = if (value s a =? 0) && getbit s (nth 0 mid 0%nat) then setbit s q (negb (getbit s q)) else s.
Proof.
  intros L Ep. unfold permeable_steps. rewrite Ep. assert (Rs : register a s) by (apply (register_length _ x); auto).
  rewrite !execute_app. rewrite (flips_write a s) by exact Rs. set (f := fun z => write z a (map negb (read z a))). fold (f s).
  assert (Ef : forall z, length z = length x -> execute (map Flip a) z = f z) by (intros z Lz; apply flips_write; apply (register_length _ x); auto).
  assert (Ff : forall z, length z = length x -> f (f z) = z).
  { intros z Lz. unfold f. assert (Rz : register a z) by (apply (register_length _ x); auto). rewrite (read_write z a) by (auto; rewrite map_length, read_length; reflexivity).
    rewrite write_write by (try apply (proj1 Rz); rewrite ?map_length, ?read_length; reflexivity). rewrite map_map. rewrite (map_ext _ (fun b => b)) by (intros; apply negb_involutive). rewrite map_id. apply write_read, (proj1 Rz). }
  assert (Lf : length (f s) = length x) by (unfold f; rewrite write_length; exact L).
  assert (Ga : forall p, In p a -> getbit (f s) p = negb (getbit s p)).
  { intros p I. assert (E : read (f s) a = map negb (read s a)) by (apply read_write; [auto|rewrite map_length, read_length; reflexivity]).
    unfold read in E. rewrite map_map in E. exact (ext_in_map E p I). }
  assert (Go : forall p, ~ In p a -> getbit (f s) p = getbit s p) by (intros p I; unfold f; apply write_other, I).
  assert (M0 : ~ In (nth 0 mid 0%nat) a) by (intros I; apply (Aa _ I), in_m, mid0_in).
  cbn [execute fold_left perform]. rewrite forallb_app. cbn [forallb]. rewrite andb_true_r, (Go _ M0).
  assert (Ez : forallb (getbit (f s)) a = (value s a =? 0)).
  { destruct (Z.eqb_spec (value s a) 0) as [E|E].
    - apply forallb_forall. intros p I. rewrite Ga, (value_zero _ _ E) by exact I. reflexivity.
    - destruct (forallb (getbit (f s)) a) eqn:Fa; [|reflexivity]. exfalso. apply E, zero_value. intros p I. rewrite forallb_forall in Fa. specialize (Fa p I). rewrite Ga in Fa by exact I. destruct (getbit s p); auto; discriminate. }
  rewrite Ez. change (fold_left perform ?p ?y) with (execute p y). destruct ((value s a =? 0) && getbit s (nth 0 mid 0%nat)); [|rewrite Ef by exact Lf; apply Ff, L].
  cbn [amount]. rewrite value_one, (Go q q_apart). rewrite Ef by (rewrite store_length; exact Lf).
  assert (E1 : store (f s) [q] ((if getbit s q then 1 else 0) + 1) = setbit (f s) q (negb (getbit s q))).
  { unfold store. cbn [length]. destruct (getbit s q); reflexivity. }
  rewrite E1. transitivity (f (f (setbit s q (negb (getbit s q))))); [|apply Ff; rewrite setbit_length; exact L]. f_equal. unfold f.
  assert (Er : read (setbit s q (negb (getbit s q))) a = read s a) by (apply map_ext_in; intros p I; apply getbit_set_other; intros ->; apply q_apart, I).
  rewrite Er. symmetry. apply write_set. exact q_apart.
Qed.
Lemma permeable_valid : valid (length x) permeable_steps.
Proof.
  unfold permeable_steps. destruct permeable; [|constructor]. apply valid_app; [apply valid_flips, (proj2 Ra)|]. apply valid_app; [|apply valid_flips, (proj2 Ra)].
  apply valid_one. cbn. split; [constructor; [tauto|constructor]|]. split; [intros p [<-|[]]; apply q_len|]. intros p [<-|[]]. split; [|exact Logic.I].
  rewrite in_app_iff. cbn [In]. intros [I|[I|[]]]; [apply (q_apart I)|]. apply q_mid. rewrite <- I. apply mid0_in.
Qed.
Definition semi_p : list step := shifted_adds a t b (Z.to_nat (Z.log2_up N)) ++ match montgomery_red_c t a b N m permeable with Some p => p | None => [] end.
(** an empty output *)
Lemma semi_on : value x t = 0 -> value x a * b < N * two m -> exists S, execute semi_p x = store x mid S /\ 0 <= S < N /\ (S * two m) mod N = (value x a * b) mod N.
Proof.
  intros Zt Bd. set (P := value x a * b) in *. pose proof (two_pos m) as Pm. pose proof (two_pos n) as Pn. assert (P0 : 0 <= P) by (unfold P; apply Z.mul_nonneg_nonneg; [apply value_range|lia]).
  assert (Lu : length u = (m + 1)%nat) by (unfold u; rewrite app_length; reflexivity).
  assert (Lt : length t = (m + 1 + n)%nat) by (unfold t; rewrite !app_length; cbn [length]; fold m n; lia).
  assert (Bt : P < two (m + n)) by (rewrite two_add; nia).
  assert (Bt' : P < two (length t)) by (rewrite Lt; replace (m + 1 + n)%nat with (S (m + n)) by lia; rewrite two_S; lia).
  destruct red_c_shape as (N1 & M & E). unfold semi_p. rewrite E, !execute_app, adds_run, whole_b, Zt, Z.add_0_l. fold P. clear E.
  set (y1 := store x t P) in *. assert (Ly : length y1 = length x) by apply store_length.
  assert (Ry : register t y1) by (apply (register_length _ x); [auto|exact Rt]).
  assert (Vy : value y1 t = P) by (unfold y1; rewrite value_store by exact Rt; apply Z.mod_small; lia).
  destruct (qredc_run y1 lo mid q N m n Ry eq_refl eq_refl Odd ltac:(lia) semi_n (proj2 HN)) as (S & U & E2 & HS & HU & C1 & C2 & C3); [fold t; rewrite Vy; exact Bt|].
  fold t in E2, C1, C2, C3. rewrite Vy in C1, C2, C3. unfold y1 in E2 at 2. rewrite (overwrite x lo mid q Rt) in E2. fold u in E2.
  exists S. split; [|split; [specialize (C3 Bd); lia|exact C1]]. rewrite E2. set (s := store (store x u U) mid S). assert (Ls : length s = length x) by (unfold s; rewrite !store_length; reflexivity).
  assert (RU := ru x lo mid q Rt). fold u in RU. assert (RM := rm x lo mid q Rt). assert (UM := um x lo mid q Rt). fold u in UM.
  assert (Am : apart a mid) by (intros p I J; apply (Aa p I), in_m, J). assert (Au : apart a u) by (intros p I J; apply (Aa p I), in_u, J).
  rewrite uncompute_run by exact Ls.
  assert (Vs : value s u = U). { unfold s. rewrite value_store_off by exact UM. rewrite value_store by exact RU. rewrite Lu. apply Z.mod_small, HU. }
  assert (Va : value s a = value x a). { unfold s. rewrite !value_store_off by auto. reflexivity. }
  rewrite Vs, Va. fold P. destruct (parts_zero x lo mid q Zt) as (Zu & Zm). fold u in Zu.
  assert (E3 : store s u (U - P * N1) = store x mid S).
  { rewrite <- (clear_u x lo mid q Rt U S Zu). fold u s. rewrite <- store_mod. f_equal. rewrite Lu. rewrite Zminus_mod, <- (Zmult_mod_idemp_l P), <- C2, Zmult_mod_idemp_l. replace (U * N * N1) with (U * (N * N1)) by ring.
    rewrite <- (Zmult_mod_idemp_r (N * N1)), M, Z.mul_1_r, Z.sub_diag. reflexivity. }
  rewrite E3. assert (Lg : length (store x mid S) = length x) by apply store_length. destruct permeable eqn:Ep; [|unfold permeable_steps; rewrite Ep; reflexivity].
  rewrite permeable_run by auto. rewrite value_store_off by exact Am. destruct (Z.eqb_spec (value x a) 0) as [Z0|Z0]; [|reflexivity].
  assert (EP : P = 0) by (unfold P; rewrite Z0; ring). rewrite EP in C1. assert (S0 : S = 0).
  { rewrite <- (Z.mod_small S N) by (specialize (C3 Bd); lia). replace 0 with (0 mod N) by (apply Z.mod_0_l; lia). apply (two_cancel N m); [exact Odd|lia|]. rewrite C1. reflexivity. }
  subst S. rewrite zero_store by auto. rewrite (value_zero _ _ Zm) by apply mid0_in. reflexivity.
Qed.
(** only the output is there *)
Lemma semi_upper : permeable = true -> value x lo = 0 -> getbit x q = false -> value x a = 0 -> execute semi_p x = x.
Proof.
  intros Ep Zlo Zq Za. set (v := value x mid). pose proof (value_range x mid) as V. fold v n in V. pose proof (two_pos m) as Pm. pose proof (two_pos n) as Pn.
  assert (Lu : length u = (m + 1)%nat) by (unfold u; rewrite app_length; reflexivity).
  assert (Vt : value x t = two m * v). { unfold t. rewrite !value_app, Zlo, value_one, Zq. fold m v. ring. }
  destruct red_c_shape as (N1 & M & E). unfold semi_p. rewrite E, !execute_app, adds_run, Za, Z.mul_0_l, Z.add_0_r. rewrite store_value by apply (proj1 Rt). clear E.
  pose proof (qredc_upper x lo mid q N m n Rt eq_refl eq_refl Odd ltac:(lia) semi_n v V Vt) as EQ. fold t u in EQ. rewrite EQ. clear EQ. set (U := two m * b2 (Z.odd v)).
  set (s := store (store x u U) mid v). assert (Ls : length s = length x) by (unfold s; rewrite !store_length; reflexivity).
  assert (RU := ru x lo mid q Rt). fold u in RU. assert (RM := rm x lo mid q Rt). assert (UM := um x lo mid q Rt). fold u in UM.
  assert (Am : apart a mid) by (intros p I J; apply (Aa p I), in_m, J). assert (Au : apart a u) by (intros p I J; apply (Aa p I), in_u, J).
  rewrite uncompute_run by exact Ls. assert (Va : value s a = 0). { unfold s. rewrite !value_store_off by auto. exact Za. }
  rewrite Va, !Z.mul_0_l, Z.sub_0_r. rewrite store_value by apply (proj1 RU).
  assert (Es : s = store x u U). { unfold s. apply store_same_value; [apply (proj1 RM)|]. rewrite value_store_off by (intros p I J; apply (UM p J I)). fold v n. apply Z.mod_small, V. }
  assert (HU : 0 <= U < two (m + 1)) by (unfold U; rewrite Nat.add_1_r, two_S; destruct (Z.odd v); unfold b2; lia).
  rewrite permeable_run by auto. rewrite Va. cbn [Z.eqb andb].
  assert (Bm : getbit s (nth 0 mid 0%nat) = Z.odd v).
  { rewrite value_bit by (try exact semi_n; apply (register_length _ x); auto). unfold s. rewrite value_store by (apply (register_length _ x); [rewrite store_length|]; auto). fold n. rewrite Z.mod_small by exact V. apply Z.bit0_odd. }
  rewrite Bm. assert (Zu : value x u = 0) by (unfold u; rewrite value_app, Zlo, value_one, Zq; ring).
  assert (Eq : q = nth m u 0%nat) by (unfold u, m; symmetry; apply nth_snoc).
  assert (Bq : getbit s q = Z.odd v).
  { rewrite Es, Eq, bit_store by (auto; rewrite Lu; lia). assert (B : b2 (Z.testbit U (Z.of_nat m)) = b2 (Z.odd v)); [|destruct (Z.testbit U (Z.of_nat m)), (Z.odd v); auto; discriminate].
    rewrite testbit_div by lia. unfold U. rewrite (Z.mul_comm (two m)), Z.div_mul by lia. destruct (Z.odd v); reflexivity. }
  rewrite Bq. destruct (Z.odd v) eqn:Ov; [|rewrite Es; unfold U; cbn [b2]; rewrite Z.mul_0_r; apply zero_store; auto]. cbn [negb].
  rewrite Es. transitivity (store x u 0); [|apply zero_store; auto]. symmetry. apply store_ext; [exact RU|rewrite setbit_length, store_length; reflexivity| |].
  - rewrite Z.mod_0_l by (pose proof (two_pos (length u)); lia). apply zero_value. intros p I. destruct (Nat.eq_dec p q) as [->|Ne]; [apply getbit_set_same; rewrite store_length; apply q_len|]. rewrite getbit_set_other by auto.
    unfold u in I. apply in_app_or in I. destruct I as [I|[I|[]]]; [|congruence].
    assert (Vl : value (store x u U) lo = 0). { destruct (split_value U [] lo [q] x RU) as (_ & V2 & _); [cbn [app]; fold u; rewrite Lu; exact HU|]. cbn [app length] in V2. fold u in V2. rewrite V2. change (two 0) with 1. rewrite Z.div_1_r. unfold U. fold m. rewrite Z.mul_comm. apply Z.mod_mul. lia. }
    apply (value_zero _ _ Vl p I).
  - intros p I. assert (p <> q) by (intros ->; apply I; unfold u; apply in_or_app; right; left; auto). rewrite getbit_set_other by auto. apply store_other, I.
Qed.
Lemma qredc_valid : valid (length x) (qredc t N m).
Proof.
  assert (ES : qredc_S t m = mid) by (apply (S_is lo mid q m); reflexivity). assert (El : last t 0%nat = q) by apply last_is.
  unfold qredc. rewrite ES, El. apply valid_app; [|apply valid_app].
  - apply valid_flat_map. intros k I. apply in_seq in I. apply valid_one. cbn. split; [apply nodup_skipn, (proj1 Rt)|]. split; [intros p J; apply (proj2 Rt), (in_skipn _ _ _ J)|].
    intros p J. split; [|exact Logic.I]. intros [<-|[]]. revert J. apply nth_skip_off; [apply (proj1 Rt)|]. unfold t. rewrite app_length. fold m. lia.
  - apply valid_one. cbn. destruct (rm x lo mid q Rt) as (D & B). split; [exact D|]. split; [exact B|]. intros p J. split; [|exact Logic.I]. intros [<-|[]]. apply q_mid, J.
  - apply valid_one. cbn. split; [intros E; apply q_mid; rewrite <- E; apply mid0_in|]. split; [apply (proj2 (rm x lo mid q Rt)), mid0_in|apply q_len].
Qed.
Lemma semi_valid : valid (length x) semi_p.
Proof.
  destruct red_c_shape as (N1 & _ & E). unfold semi_p. rewrite E. apply valid_app; [apply adds_valid|]. apply valid_app; [apply qredc_valid|]. apply valid_app; [apply uncompute_valid|apply permeable_valid].
Qed.
End semi.

(** ** the functions *)
Lemma stands_scale N s k v c : 2 <= N -> stands_for N s k v -> stands_for N s ((c * k) mod N) ((c * v) mod N).
Proof.
  intros HN (K & V & E). split; [apply Z.mod_pos_bound; lia|]. split; [apply Z.mod_pos_bound; lia|]. destruct (0 <=? s).
  - rewrite Z.mod_mod by lia. rewrite Zmult_mod_idemp_l, <- Z.mul_assoc, <- (Zmult_mod_idemp_r (v * 2 ^ s)), <- E, Zmult_mod_idemp_r. reflexivity.
  - rewrite Z.mod_mod by lia. rewrite Zmult_mod_idemp_l, <- Z.mul_assoc, <- (Zmult_mod_idemp_r (k * 2 ^ (- s))), E, Zmult_mod_idemp_r. reflexivity.
Qed.
Section semi_mul.
Context (a : qmod) (b : Z) (given : bool) (out : list nat) (fresh : nat -> list nat * nat) (permeable : bool).
Let N := modulus a.
Let n := length out.
Context (Odd : Z.odd N = true) (HN : 3 <= N <= two n).
Lemma mul_shape : 2 <= b mod N -> exists m be, find_best_montgomery_shift (b mod N) N = Some m /\ be = (b * two m) mod N /\ (forall k, 0 <= k < N -> k * be < N * two m) /\
  (length (fst (fresh m)) = m -> montgomery_mod_semi_mul a b given out fresh permeable = Some (semi_p (reg a) (fst (fresh m)) out (snd (fresh m)) N be permeable, mkq out N (shift a))).
Proof.
  intros B. destruct (find_best_shift_spec (b mod N) N ltac:(lia)) as (m & E & Bd & _). exists m, ((b * two m) mod N). split; [exact E|]. split; [reflexivity|].
  split; [intros k K; specialize (Bd k K); rewrite Zmult_mod_idemp_l in Bd; exact Bd|].
  intros L. unfold montgomery_mod_semi_mul. fold N. destruct (Z.eqb_spec (b mod N) 0) as [?|_]; [lia|]. destruct (Z.eqb_spec (b mod N) 1) as [?|_]; [lia|]. rewrite E.
  rewrite mont_enc_py_value by lia. rewrite Z.mod_mod by lia. rewrite Zmult_mod_idemp_l.
  unfold semi_p. rewrite L. destruct (red_c_shape (reg a) (fst (fresh m)) out (snd (fresh m)) N ((b * two m) mod N) permeable) as (N1 & _ & Er); auto; try (fold n; exact HN).
  rewrite L in Er. rewrite Er. reflexivity.
Qed.
Context (x : list bool) (Ra : register (reg a) x) (Ro : register out x) (Ao : apart (reg a) out) (W : workspace x (b mod N) N out (reg a) fresh).
Lemma space m : find_best_montgomery_shift (b mod N) N = Some m -> apart (reg a) (fst (fresh m) ++ out ++ [snd (fresh m)]).
Proof. intros E p I J. destruct (W m E) as (_ & _ & A & _). rewrite !in_app_iff in J. specialize (A p I). rewrite in_app_iff in A. specialize (Ao p I). tauto. Qed.
Lemma mul_on : value x out = 0 -> value x (reg a) < N -> length (reg a) = n ->
  exists p, montgomery_mod_semi_mul a b given out fresh permeable = Some (p, mkq out N (shift a)) /\ execute p x = store x out ((b * value x (reg a)) mod N).
Proof.
  intros Zo K La. set (k := value x (reg a)) in *. assert (K0 : 0 <= k) by apply value_range.
  destruct (Z.eq_dec (b mod N) 0) as [E0|E0]; [|destruct (Z.eq_dec (b mod N) 1) as [E1|E1]].
  - exists []. unfold montgomery_mod_semi_mul. fold N. rewrite E0. split; [reflexivity|]. cbn [execute fold_left]. rewrite <- Zmult_mod_idemp_l, E0, Z.mul_0_l, Z.mod_0_l by lia. symmetry. apply zero_store; auto.
  - eexists. unfold montgomery_mod_semi_mul. fold N. rewrite E1. split; [reflexivity|]. rewrite <- Zmult_mod_idemp_l, E1, Z.mul_1_l, Z.mod_small by lia. destruct given.
    + cbn [execute fold_left perform forallb amount]. rewrite Zo. reflexivity.
    + rewrite copy_store; auto. apply value_zero, Zo.
  - destruct mul_shape as (m & be & Em & Ebe & Bd & E); [pose proof (Z.mod_pos_bound b N); lia|]. destruct (W m Em) as (L & Rw & Aw & Zl & Zs). specialize (E L). eexists. split; [exact E|].
    destruct (semi_on x (reg a) (fst (fresh m)) out (snd (fresh m)) N be permeable) as (S & X & HS & C); auto.
    + apply space, Em.
    + subst be. apply Z.mod_pos_bound. lia.
    + rewrite !value_app, Zl, Zo, value_one, Zs. ring.
    + rewrite L. fold k. apply Bd. lia.
    + rewrite X. f_equal. rewrite <- (Z.mod_small S N) by exact HS. apply (two_cancel N m); [exact Odd|lia|]. rewrite L in C. rewrite C. fold k. subst be. rewrite Zmult_mod_idemp_r. f_equal. ring.
Qed.
Lemma mul_off : 2 <= b mod N -> permeable = true -> value x (reg a) = 0 ->
  exists p, montgomery_mod_semi_mul a b given out fresh permeable = Some (p, mkq out N (shift a)) /\ execute p x = x.
Proof.
  intros B Ep Za. destruct (mul_shape B) as (m & be & Em & Ebe & Bd & E). destruct (W m Em) as (L & Rw & Aw & Zl & Zs). specialize (E L). eexists. split; [exact E|].
  apply semi_upper; auto; apply space, Em.
Qed.
Lemma mul_valid : 2 <= b mod N -> exists p, montgomery_mod_semi_mul a b given out fresh permeable = Some (p, mkq out N (shift a)) /\ valid (length x) p.
Proof.
  intros B. destruct (mul_shape B) as (m & be & Em & Ebe & Bd & E). destruct (W m Em) as (L & Rw & Aw & Zl & Zs). specialize (E L). eexists. split; [exact E|].
  apply semi_valid; auto; [apply space, Em|subst be; apply Z.mod_pos_bound; lia].
Qed.
End semi_mul.

Lemma workspace_moved x z b N out away fr : length z = length x -> (forall m p, find_best_montgomery_shift b N = Some m -> In p (fst (fr m) ++ [snd (fr m)]) -> getbit z p = getbit x p) ->
  workspace x b N out away fr -> workspace z b N out away fr.
Proof.
  intros L G W m E. destruct (W m E) as (Lm & R & A & Zl & Zs). split; [exact Lm|]. split; [apply (register_length _ x); auto|]. split; [exact A|]. split.
  - apply zero_value. intros p I. rewrite (G m) by (auto; apply in_or_app; auto). apply (value_zero _ _ Zl p I).
  - rewrite (G m); auto. apply in_or_app. right. left. auto.
Qed.
Section inplace.
Context (x : list bool) (a : qmod) (X : Z) (ctrl : option nat) (tmp : list nat) (fr fr' : nat -> list nat * nat).
Let N := modulus a.
Let y := reg a.
Let n := length y.
Let c := opt_control ctrl.
Context (Odd : Z.odd N = true) (HN : 3 <= N <= two n) (Cop : Z.gcd X N = 1) (Rg : register (y ++ tmp ++ c) x) (Lt : length tmp = n) (Zt : value x tmp = 0) (HV : value x y < N).
Context (W : workspace x (X mod N) N tmp (y ++ c) fr) (W' : forall X1, (X * X1) mod N = 1 -> 0 <= X1 < N -> workspace x X1 N y (tmp ++ c) fr').
Lemma i_regs : register y x /\ register tmp x /\ register c x /\ apart y tmp /\ apart y c /\ apart tmp c.
Proof.
  destruct (register_app _ _ _ Rg) as (R1 & R1' & D1). destruct (register_app _ _ _ R1') as (R2 & R2' & D2). split; [exact R1|]. split; [exact R2|]. split; [exact R2'|].
  split; [intros p I J; apply (D1 p I); apply in_or_app; auto|]. split; [intros p I J; apply (D1 p I); apply in_or_app; auto|exact D2].
Qed.
Lemma weaken b out l l' f z : (forall p, In p l' -> In p l) -> workspace z b N out l f -> workspace z b N out l' f.
Proof. intros S Ws m E. destruct (Ws m E) as (L0 & R0 & A & Z0 & Z1). split; [exact L0|]. split; [exact R0|]. split; [intros p I; apply A, S, I|]. split; [exact Z0|exact Z1]. Qed.
Lemma inplace_static : exists p, semi_cl_inpl_mult a X ctrl tmp fr fr' = Some p /\ execute p x = if enabled x ctrl then store x y ((X * value x y) mod N) else x.
Proof.
  destruct i_regs as (Ry & Rt & Rc & Dyt & Dyc & Dtc). assert (Dty : apart tmp y) by (intros p I J; apply (Dyt p J I)). unfold semi_cl_inpl_mult. fold N. set (X0 := X mod N).
  assert (Cop' : Z.gcd X0 N = 1) by (unfold X0; rewrite Z.gcd_mod, Z.gcd_comm by lia; exact Cop).
  assert (HX0 : 0 <= X0 < N) by (apply Z.mod_pos_bound; lia).
  destruct (Z.eqb_spec X0 0) as [E0|E0]; [exfalso; rewrite E0, Z.gcd_0_l in Cop'; lia|].
  assert (K0 : 0 <= value x y) by apply value_range.
  destruct (Z.eqb_spec X0 1) as [E1|E1].
  { exists []. split; [reflexivity|]. cbn [execute fold_left]. rewrite <- Zmult_mod_idemp_l. fold X0. rewrite E1, Z.mul_1_l, Z.mod_small by lia. rewrite store_value by apply (proj1 Ry). destruct (enabled x ctrl); reflexivity. }
  assert (M0 : X0 mod N = X0) by (apply Z.mod_small; lia).
  destruct (proj1 (modinv_py_spec X0 N ltac:(lia) ltac:(lia)) Cop') as (X1 & EX & HX1 & M1). rewrite EX.
  assert (M1' : (X * X1) mod N = 1) by (rewrite <- Zmult_mod_idemp_l; exact M1). specialize (W' X1 M1' HX1).
  assert (N0 : X1 <> 0) by (intros ->; rewrite Z.mul_0_r, Z.mod_0_l in M1 by lia; lia).
  assert (N1 : X1 <> 1) by (intros ->; rewrite Z.mul_1_r, Z.mod_small in M1 by lia; lia).
  assert (MX1 : X1 mod N = X1) by (apply Z.mod_small; lia).
  set (perm := match ctrl with None => false | Some _ => true end). fold y. fold (guarded tmp y ctrl). fold c. set (r := mkq tmp N (shift a)).
  assert (Htmp : 3 <= N <= two (length tmp)) by (rewrite Lt; exact HN).
  assert (Wx : forall z, length z = length x -> (forall p, ~ In p (y ++ tmp) -> getbit z p = getbit x p) -> workspace z (X0 mod N) N tmp y fr).
  { intros z L G. rewrite M0. apply (weaken _ _ (y ++ c)); [intros p I; apply in_or_app; auto|]. apply (workspace_moved x); auto. intros m p E I. apply G. intros J. destruct (W m E) as (_ & Rw & A & _). apply in_app_or in J. destruct J as [J|J].
    - apply (A p); [apply in_or_app; auto|exact I].
    - destruct (register_app _ _ _ Rw) as (_ & Rw' & D1). destruct (register_app _ _ _ Rw') as (_ & _ & D2). apply in_app_or in I. destruct I as [I|I]; [apply (D1 p I); apply in_or_app; auto|apply (D2 p J I)]. }
  assert (Wb : forall z, length z = length x -> (forall p, ~ In p (y ++ tmp) -> getbit z p = getbit x p) -> workspace z (X1 mod N) N y tmp fr').
  { intros z L G. rewrite MX1. apply (weaken _ _ (tmp ++ c)); [intros p I; apply in_or_app; auto|]. apply (workspace_moved x); auto. intros m p E I. apply G. intros J. destruct (W' m E) as (_ & Rw & A & _). apply in_app_or in J. destruct J as [J|J].
    - destruct (register_app _ _ _ Rw) as (_ & Rw' & D1). destruct (register_app _ _ _ Rw') as (_ & _ & D2). apply in_app_or in I. destruct I as [I|I]; [apply (D1 p I); apply in_or_app; auto|apply (D2 p J I)].
    - apply (A p); [apply in_or_app; auto|exact I]. }
  assert (SB : forall l z w p, In p l -> (forall k, In k l -> In k (y ++ tmp)) -> ~ In p (y ++ tmp) -> getbit (store z l w) p = getbit z p) by (intros l z w p I S O; apply store_other; intros J; apply O, S, J).
  assert (Off : forall l z w p, (forall k, In k l -> In k (y ++ tmp)) -> ~ In p (y ++ tmp) -> getbit (store z l w) p = getbit z p) by (intros l z w p S O; apply store_other; intros J; apply O, S, J).
  assert (Sy : forall k, In k y -> In k (y ++ tmp)) by (intros; apply in_or_app; auto). assert (St : forall k, In k tmp -> In k (y ++ tmp)) by (intros; apply in_or_app; auto).
  assert (Rsw : forall z, length z = length x -> register (tmp ++ y) z) by (intros z L; apply (register_length _ x); auto; apply app_register; auto).
  assert (Oc : forall p, In p (tmp ++ y) -> ~ In p c) by (intros p I; apply in_app_or in I; destruct I; auto).
  assert (Fc : forall z : list bool, length z = length x -> forall p, In p c -> (p < length z)%nat) by (intros z L p I; rewrite L; apply (proj2 Rc), I).
  assert (Gc : forall z, (forall p, ~ In p (y ++ tmp) -> getbit z p = getbit x p) -> forallb (getbit z) c = forallb (getbit x) c).
  { intros z G. apply forallb_off. intros p I. apply G. intros J. apply in_app_or in J. destruct J as [J|J]; [apply (Dyc p J I)|apply (Dtc p J I)]. }
  assert (Een : enabled x ctrl = forallb (getbit x) c) by (unfold c; destruct ctrl; cbn [enabled opt_control forallb]; [rewrite andb_true_r|]; reflexivity). rewrite Een.
  set (v := value x y) in *. set (prod := (X * v) mod N). assert (Pr : 0 <= prod < N) by (apply Z.mod_pos_bound; clear - HN; lia). pose proof (two_pos n) as Pn.
  assert (Pr2 : 0 <= prod < two n) by (clear - Pr HN; lia). assert (Pn0 : two n <> 0) by (clear - Pn; lia). assert (Vr : 0 <= v < two n) by apply value_range. assert (Vr' : 0 <= v < N) by (clear - Vr HV; lia). assert (X0b : 2 <= X0 mod N) by (clear - M0 E0 E1 HX0; lia). assert (X1b : 2 <= X1 mod N) by (clear - MX1 N0 N1 HX1; lia).
  assert (RR : forall z l, length z = length x -> register l x -> register l z) by (intros z l L R; apply (register_length _ x); auto).
  destruct (forallb (getbit x) c) eqn:C.
  - destruct (mul_on a X0 true tmp fr perm Odd Htmp x Ry Rt Dyt (Wx x eq_refl (fun p _ => eq_refl)) Zt HV (eq_sym Lt)) as (pf & Ef & Xf). fold N in Ef. rewrite Ef. fold r.
    set (x1 := store x tmp prod). assert (L1 : length x1 = length x) by apply store_length. set (x2 := store x1 y 0). assert (L2 : length x2 = length x) by (unfold x2; rewrite store_length; exact L1).
    assert (G1 : forall p, ~ In p (y ++ tmp) -> getbit x1 p = getbit x p) by (intros p O; unfold x1; apply Off; auto).
    assert (G2 : forall p, ~ In p (y ++ tmp) -> getbit x2 p = getbit x p) by (intros p O; unfold x2; rewrite Off by auto; apply G1, O).
    assert (Vt : value x2 tmp = prod). { unfold x2. rewrite value_store_off by exact Dty. unfold x1. rewrite value_store, Lt by exact Rt. apply Z.mod_small. assumption. }
    assert (Vy : value x2 y = 0). { unfold x2. rewrite value_store by auto. apply Z.mod_0_l. exact Pn0. }
    assert (Vy1 : value x1 y = v). { unfold x1. rewrite value_store_off by exact Dyt. reflexivity. }
    destruct (mul_on r X1 true y fr' perm Odd HN x2 (RR _ _ L2 Rt) (RR _ _ L2 Ry) Dty (Wb x2 L2 G2) Vy) as (pb & Eb & Xb); [cbn [reg modulus r]; rewrite Vt; apply Pr|cbn [reg r]; exact Lt|].
    rewrite Eb. cbn [modulus reg r] in Xb. eexists. split; [reflexivity|].
    assert (Vb : valid (length x) pb).
    { destruct (mul_valid r X1 true y fr' perm Odd HN x2 (RR _ _ L2 Rt) Dty (Wb x2 L2 G2)) as (pb' & Eb' & Vb); [exact X1b|].
      rewrite Eb in Eb'. injection Eb' as <-. rewrite <- L2. exact Vb. }
    rewrite !execute_app. rewrite (guarded_on tmp y ctrl x Lt (Rsw x eq_refl) Oc (Fc x eq_refl) C). rewrite Xf. fold N y. unfold X0. rewrite Zmult_mod_idemp_l. fold v prod x1.
    rewrite (guarded_on tmp y ctrl x1 Lt (Rsw x1 L1) Oc (Fc x1 L1)) by (change (opt_control ctrl) with c; apply Gc; exact G1).
    assert (Ex2 : execute pb x2 = x1).
    { rewrite Xb, Vt. replace ((X1 * prod) mod N) with v.
      - unfold x2. rewrite store_store by apply (proj1 Ry). rewrite <- Vy1. apply store_value, (proj1 Ry).
      - unfold prod. rewrite Zmult_mod_idemp_r. replace (X1 * (X * v)) with (X * X1 * v) by ring. rewrite <- Zmult_mod_idemp_l, M1', Z.mul_1_l. symmetry. apply Z.mod_small. exact Vr'. }
    rewrite <- Ex2, inverted_undoes by (rewrite L2; exact Vb).
    rewrite swap_values; [|exact Lt|apply Rsw, L2|exact Oc|apply Gc; exact G2]. rewrite Vt, Vy.
    unfold x2. rewrite (store_comm x1 y tmp) by auto. rewrite store_store by apply (proj1 Ry). unfold x1. rewrite store_store by apply (proj1 Rt). rewrite zero_store by auto. reflexivity.
  - assert (Ep : perm = true) by (unfold perm, c in *; destruct ctrl; [reflexivity|discriminate]).
    set (xs := store (store x tmp v) y 0). assert (Ls : length xs = length x) by (unfold xs; rewrite !store_length; reflexivity).
    assert (Gs : forall p, ~ In p (y ++ tmp) -> getbit xs p = getbit x p) by (intros p O; unfold xs; rewrite !Off by auto; reflexivity).
    assert (Vy : value xs y = 0). { unfold xs. rewrite value_store by (apply RR; auto; apply store_length). apply Z.mod_0_l. exact Pn0. }
    assert (Vt : value xs tmp = v). { unfold xs. rewrite value_store_off by exact Dty. rewrite value_store, Lt by exact Rt. apply Z.mod_small. assumption. }
    destruct (mul_off a X0 true tmp fr perm Odd Htmp xs (RR _ _ Ls Ry) Dyt (Wx xs Ls Gs)) as (pf & Ef & Xf); auto.
    fold N in Ef. rewrite Ef. fold r.
    destruct (mul_off r X1 true y fr' perm Odd HN x Rt Dty (Wb x eq_refl (fun p _ => eq_refl))) as (pb & Eb & Xb); auto.
    assert (Vb : valid (length x) pb).
    { destruct (mul_valid r X1 true y fr' perm Odd HN x Rt Dty (Wb x eq_refl (fun p _ => eq_refl))) as (pb' & Eb' & Vb); [exact X1b|]. rewrite Eb in Eb'. injection Eb' as <-. exact Vb. }
    rewrite Eb. eexists. split; [reflexivity|].
    rewrite !execute_app. rewrite (guarded_off tmp y ctrl x Lt (Rsw x eq_refl) Oc (Fc x eq_refl) C). fold v. rewrite Zt. fold xs. rewrite Xf.
    rewrite (guarded_off tmp y ctrl xs Lt (Rsw xs Ls) Oc (Fc xs Ls)) by (change (opt_control ctrl) with c; apply Gc; exact Gs). rewrite Vy, Vt.
    assert (Ex : store (store xs tmp 0) y v = x).
    { unfold xs. rewrite (store_comm (store x tmp v) y tmp); [|apply RR; auto; apply store_length..|exact Dyt]. rewrite store_store by apply (proj1 Ry). rewrite store_store by apply (proj1 Rt).
      rewrite zero_store by auto. apply store_value, (proj1 Ry). }
    rewrite Ex. rewrite <- Xb at 1. rewrite inverted_undoes by exact Vb. rewrite swap_run; [fold c; rewrite C; reflexivity|exact Lt|apply Rsw; reflexivity|exact Oc].
Qed.
End inplace.

(** ** the Montgomery shift of the product of two registers *)
Lemma static_bound N n : 3 <= N -> Z.of_nat n = smallest_power_of_two N -> (n <= static_shift N n + 1)%nat /\ (N - 1) * (N - 1) < N * two (static_shift N n).
Proof.
  intros HN En. destruct (smallest_power_spec N) as (S0 & S1 & S2). rewrite <- En in *.
  assert (N1 : (1 <= n)%nat) by (destruct n; [cbn in S1; lia|lia]).
  assert (H : two (n - 1) < N).
  { destruct (Z_lt_le_dec (two (n - 1)) N) as [L|L]; [exact L|]. specialize (S2 (Z.of_nat (n - 1)) ltac:(lia) L). lia. }
  set (L := Z.log2_up ((N - 1) ^ 2)). assert (HL : (N - 1) ^ 2 <= 2 ^ L) by (apply Z.log2_up_spec; nia).
  assert (L0 : 0 <= L) by apply Z.log2_up_nonneg.
  assert (HL2 : Z.of_nat (n - 1) + Z.of_nat (n - 1) <= L).
  { apply (Z.pow_le_mono_r_iff 2); [lia|lia|]. rewrite Z.pow_add_r by lia. transitivity ((N - 1) ^ 2); [|exact HL]. rewrite Z.pow_2_r. pose proof (two_pos (n - 1)). nia. }
  unfold static_shift. fold L. assert (Ez : Z.of_nat (Z.to_nat (L + 1 - Z.of_nat n)) = L + 1 - Z.of_nat n) by (apply Z2Nat.id; lia).
  split; [lia|]. rewrite Ez. assert (E2 : 2 ^ L = two (n - 1) * 2 ^ (L + 1 - Z.of_nat n)) by (rewrite <- Z.pow_add_r by lia; f_equal; lia).
  assert (0 < 2 ^ (L + 1 - Z.of_nat n)) by (apply Z.pow_pos_nonneg; lia). rewrite Z.pow_2_r in HL. nia.
Qed.
Lemma three_parts (t : list nat) m n : length t = (m + n + 1)%nat -> exists lo mid q, t = lo ++ mid ++ [q] /\ length lo = m /\ length mid = n.
Proof.
  intros L. exists (firstn m t), (firstn n (skipn m t)), (last t 0%nat).
  assert (Ne : skipn (m + n) t <> []) by (intros E; apply (f_equal (@length nat)) in E; rewrite skipn_length in E; cbn in E; lia).
  assert (E1 : skipn (m + n) t = [last t 0%nat]).
  { destruct (skipn (m + n) t) as [|h l] eqn:E; [congruence|]. assert (l = []) by (apply (f_equal (@length nat)) in E; rewrite skipn_length in E; cbn in E; destruct l; [auto|cbn in E; lia]). subst l.
    rewrite <- (firstn_skipn (m + n) t), E, last_last. reflexivity. }
  split; [|rewrite !firstn_length, skipn_length; lia].
  assert (E2 : skipn n (skipn m t) = skipn (m + n) t) by (clear; revert t; induction m as [|m IH]; intros [|h t]; cbn [skipn plus]; auto; destruct n; reflexivity).
  rewrite <- (firstn_skipn m t) at 1. f_equal. rewrite <- (firstn_skipn n (skipn m t)) at 1. f_equal. rewrite E2. exact E1.
Qed.
