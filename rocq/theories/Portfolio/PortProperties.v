(** C92: discrete portfolio rebalancing. *)
From Coq Require Import List Arith Bool ZArith Reals Lra Lia Ring.
Import ListNotations.
From Verif.CtrlOps Require Import CtrlComplex.
From Verif.Inverse Require Import InvSpec InvProofs.
From Verif.StatePrep Require Import PrepModel PrepSpec PrepNum XxyyProofs WProofs DickeProofs.
From Verif.Mixers Require Import MixModel MixSpec MixProofs MixProofs2 MixProofs3.
From Verif.Portfolio Require Import PortModel PortSpec PortProofs PortInit.
Local Open Scope R_scope.
Add Ring cring : complex_ring.

(** ** Every portfolio that can be measured has the number of lots, for all numbers of assets, layers, angles and all data *)
Theorem C92_lots pb n lots angles c x : (1 <= lots)%nat -> portfolio_qaoa pb n lots angles = Some c -> length x = (2 * n)%nat ->
  mrun c (zero_state (2 * n)) x <> c0 -> has_lots n lots x.
Proof.
  intros L H Lx A. assert (N : n <> 0%nat /\ (2 * lots <= n)%nat).
  { unfold portfolio_qaoa, portfolio_init in H. destruct ((n =? 0)%nat || (n <? 2 * lots)%nat) eqn:E; [discriminate|]. apply orb_false_iff in E. destruct E as [E1 E2]. apply Nat.eqb_neq in E1. apply Nat.ltb_ge in E2. split; assumption. }
  destruct N as [N1 N2]. assert (D : good n lots x \/ ~ good n lots x).
  { unfold good. destruct (lots =? 0)%nat; destruct (Nat.eq_dec (weight (register n 1 x)) n), (Nat.eq_dec (weight (register n 1 x)) (lots + band n x)), (le_dec (band n x) 1), (le_dec (band n x) lots); tauto. }
  destruct D as [G|G]; [|exfalso; apply A; apply (qaoa_good n lots ltac:(lia) N2 pb angles c H x Lx G)].
  unfold good in G. replace (lots =? 0)%nat with false in G by (symmetry; apply Nat.eqb_neq; lia). apply G.
Qed.
Print Assumptions C92_lots.
(** and at most [lots] short positions *)
Theorem C92_bands pb n lots angles c x : (1 <= lots)%nat -> portfolio_qaoa pb n lots angles = Some c -> length x = (2 * n)%nat ->
  mrun c (zero_state (2 * n)) x <> c0 -> (band n x <= lots)%nat.
Proof.
  intros L H Lx A. assert (N : n <> 0%nat /\ (2 * lots <= n)%nat).
  { unfold portfolio_qaoa, portfolio_init in H. destruct ((n =? 0)%nat || (n <? 2 * lots)%nat) eqn:E; [discriminate|]. apply orb_false_iff in E. destruct E as [E1 E2]. apply Nat.eqb_neq in E1. apply Nat.ltb_ge in E2. split; assumption. }
  destruct N as [N1 N2]. destruct (le_lt_dec (band n x) lots) as [B|B]; [exact B|]. exfalso. apply A. apply (qaoa_good n lots ltac:(lia) N2 pb angles c H x Lx).
  unfold good. replace (lots =? 0)%nat with false by (symmetry; apply Nat.eqb_neq; lia). lia.
Qed.
Print Assumptions C92_bands.
(** The tutorial starts with a superposition of all the bands: the other portfolios with that number of lots are never found. Four assets,
    one lot: short positions in the assets 2 and 3, long positions in 0, 1 and 3 *)
Theorem C92_bands_refuted : exists n lots x, length x = (2 * n)%nat /\ has_lots n lots x /\ portfolio_init n lots <> None /\
  forall pb angles c, portfolio_qaoa pb n lots angles = Some c -> mrun c (zero_state (2 * n)) x = c0.
Proof.
  exists 4%nat, 1%nat, [false; false; true; true; true; true; false; true]. split; [reflexivity|]. split; [reflexivity|]. split; [discriminate|]. intros pb angles c H.
  apply (qaoa_good 4 1 ltac:(lia) ltac:(lia) pb angles c H); [reflexivity|]. unfold good, band. cbn. lia.
Qed.
Print Assumptions C92_bands_refuted.
(** When the operators can be built at all *)
Theorem C92_defined pb n lots angles : portfolio_qaoa pb n lots angles = None <-> n = 0%nat \/ (n < 2 * lots)%nat.
Proof.
  unfold portfolio_qaoa, portfolio_init. destruct (Nat.eqb_spec n 0), (Nat.ltb_spec n (2 * lots)); cbn [orb]; split; try discriminate; try (intros; reflexivity); intros; lia.
Qed.
Print Assumptions C92_defined.
(** For zero lots no portfolio that can be measured has zero lots: the slice l[-0:] is the whole register *)
Theorem C92_zero_lots_refuted n : (2 <= n)%nat -> forall pb angles c x, portfolio_qaoa pb n 0 angles = Some c -> length x = (2 * n)%nat -> has_lots n 0 x -> mrun c (zero_state (2 * n)) x = c0.
Proof. intros N pb angles c x H Lx A. apply (qaoa_good n 0 ltac:(lia) ltac:(lia) pb angles c H); [exact Lx|]. unfold good. cbn [Nat.eqb]. unfold has_lots in A. lia. Qed.
Print Assumptions C92_zero_lots_refuted.

(** ** The weights of the bands: band 0 has its share of the portfolios with this number of lots *)
Theorem C92_band_0 n lots c : (1 <= lots)%nat -> portfolio_init n lots = Some c -> norm2 (mrun c (zero_state (2 * n)) (first_portfolio n lots)) =
  INR (choose n 0 * choose n lots) / sum (fun i => INR (choose n i * choose n (lots + i))) (n - lots + 1).
Proof. intros L H. rewrite (init_band0 n lots c L H), max_sum. unfold band_prefix at 1. rewrite Nat.add_0_r. reflexivity. Qed.
Print Assumptions C92_band_0.
(** The others have not: with four assets and one lot band 1 gets 13/14, and its share is 24 of 56 *)
Theorem C92_weights_refuted : exists c, portfolio_init 4 1 = Some c /\
  norm2 (mrun c (zero_state 8) [false; false; false; true; false; false; true; true]) = 13 / 14 /\
  INR (choose 4 1 * choose 4 2) / sum (fun i => INR (choose 4 i * choose 4 (1 + i))) (4 - 1 + 1) = 24 / 56.
Proof.
  eexists. split; [reflexivity|]. split.
  - set (t := param 4 1 0). cbn [map app seq last_qubits Nat.eqb Nat.sub Nat.add mrun fold_left mapply apply getbit nth setbit xorb]. unfold act, on_qubit. cbn [getbit nth setbit negb]. rewrite !m_ry.
    unfold zero_state, basis_state. cbn [repeat bits_eqb Bool.eqb andb].
    assert (C : cos (t / 2) = sqrt (1 / 14)).
    { unfold t. rewrite cos_param by lia. f_equal. rewrite max_sum. unfold band_prefix. cbn [choose sum Nat.sub Nat.add Nat.mul]. cbn. field. }
    cbv [mapply apply flip getbit nth negb setbit bits_eqb Bool.eqb eqb andb]. match goal with |- norm2 ?v = _ => replace v with (real (sin (t / 2))) by ring end. rewrite norm2_real. pose proof (sin2_cos2 (t / 2)) as S. unfold Rsqr in S. rewrite C, sqrt_sqrt in S by lra. lra.
  - cbn. field.
Qed.
Print Assumptions C92_weights_refuted.

(** ** The classical cost function *)
Theorem C92_cost pb n res : rtotal (fun _ => 1) res <> 0 ->
  portfolio_cl_cost pb n res = Some (mean (fun x => - (risk pb n (position n x) + trades pb n (position n x) (fun i => (- old_pos pb i)%Z))) res).
Proof. intros H. rewrite cost_ok. destruct (Req_EM_T (rtotal (fun _ => 1) res) 0); [contradiction|reflexivity]. Qed.
Print Assumptions C92_cost.
(** What is minimised for a portfolio bought from scratch is minus the mean of the documented objective *)
Theorem C92_cost_partial pb n res : (forall i, old_pos pb i = 0%Z) -> rtotal (fun _ => 1) res <> 0 ->
  portfolio_cl_cost pb n res = Some (mean (fun x => - objective pb n (position n x)) res).
Proof.
  intros O H. rewrite C92_cost by exact H. f_equal. unfold mean. f_equal. apply rtotal_ext. intros x. unfold objective, trades. f_equal. f_equal. apply sum_ext. intros i _. rewrite O. reflexivity.
Qed.
Print Assumptions C92_cost_partial.
Definition returns : problem := {| old_pos := fun _ => 0%Z; risk_return := 0; covar := fun _ _ => 0; asset_return := fun i => if (i =? 0)%nat then 1 else 0; trading := 0 |}.
(** so the better portfolio, which invests in the asset with a return, has the higher cost *)
Theorem C92_cost_refuted : exists pb n x y, has_lots n 1 x /\ has_lots n 1 y /\ objective pb n (position n x) < objective pb n (position n y) /\
  exists a b, portfolio_cl_cost pb n [(x, 1)] = Some a /\ portfolio_cl_cost pb n [(y, 1)] = Some b /\ b < a.
Proof.
  exists returns, 2%nat, [false; false; true; false], [false; false; false; true]. split; [reflexivity|]. split; [reflexivity|]. split.
  - unfold objective, risk, trades, position, long, short, returns. cbn. lra.
  - do 2 eexists. rewrite !C92_cost by (cbn; lra). split; [reflexivity|]. split; [reflexivity|]. unfold mean, risk, trades, position, long, short, returns. cbn. lra.
Qed.
Print Assumptions C92_cost_refuted.
Definition trader (old : nat -> Z) : problem := {| old_pos := old; risk_return := 0; covar := fun _ _ => 0; asset_return := fun _ => 0; trading := 1 |}.
(** and keeping the portfolio one has counts as a trade *)
Theorem C92_old_refuted : exists pb n x, (forall i, (i < n)%nat -> position n x i = old_pos pb i) /\ objective pb n (position n x) = 0 /\ portfolio_cl_cost pb n [(x, 1)] = Some (- trading pb) /\ trading pb <> 0.
Proof.
  exists (trader (fun i => if (i =? 0)%nat then 1%Z else 0%Z)), 2%nat, [false; false; true; false]. split; [|split; [|split]].
  - intros i I. destruct i as [|[|i]]; [reflexivity|reflexivity|lia].
  - unfold objective, risk, trades, position, long, short, trader. cbn. lra.
  - rewrite C92_cost by (cbn; lra). f_equal. unfold mean, risk, trades, position, long, short, trader. cbn. field.
  - cbn. lra.
Qed.
Print Assumptions C92_old_refuted.

(** ** The cost operator: the phase of every portfolio *)
Theorem C92_operator pb n gamma psi x : length x = (2 * n)%nat -> mrun (portfolio_cost_op pb n gamma) psi x =
  cmul (turn (- gamma / 2 * risk pb n (position n x) + gamma / 4 * risk_return pb * sum (fun i => covar pb i i * (2 * IZR (long n x i + short x i) - 1)) n
    + sum (fun i => gamma / 4 * trading pb * (IZR (Z.lxor (1 - old_pos pb i) (2 - old_pos pb i)) * (IZR (long n x i + short x i) - 1) + IZR (Z.lxor (2 * old_pos pb i) 1) * (IZR (position n x i) ^ 2 - / 2))) n)) (psi x).
Proof. intros L. exact (diag_cost pb n gamma psi x L). Qed.
Print Assumptions C92_operator.
(** Without variances and trading costs it is the documented phase separator, with gamma / 2 *)
Theorem C92_operator_partial pb n gamma psi x : (forall i, covar pb i i = 0) -> trading pb = 0 -> length x = (2 * n)%nat ->
  mrun (portfolio_cost_op pb n gamma) psi x = cmul (turn (- (gamma / 2) * objective pb n (position n x))) (psi x).
Proof.
  intros V T L. rewrite (diag_cost pb n gamma psi x L). f_equal. f_equal. rewrite (sum_ext _ (fun _ => 0)) by (intros i _; rewrite V; ring). rewrite (sum_ext (fun i => trading_phase pb n gamma i x) (fun _ => 0)) by (intros i _; unfold trading_phase; rewrite T; field).
  rewrite !sum_0. unfold objective, trades. rewrite (sum_ext _ (fun _ => 0)) by (intros i _; rewrite T; destruct (Z.eq_dec _ _); reflexivity). rewrite sum_0. field.
Qed.
Print Assumptions C92_operator_partial.
(** In general it tells apart two portfolios with the same positions: a short and a long position in the same asset cancel, and their variance does not *)
Definition varied : problem := {| old_pos := fun _ => 0%Z; risk_return := 1; covar := fun i j => if (i =? j)%nat then 1 else 0; asset_return := fun _ => 0; trading := 0 |}.
Lemma turn_neq a b : a = b + PI -> turn a <> turn b.
Proof. intros -> E. unfold turn in E. rewrite neg_cos, neg_sin in E. injection E as E1 E2. pose proof (sin2_cos2 b) as S. unfold Rsqr in S. assert (cos b = 0) by lra. assert (sin b = 0) by lra. nra. Qed.
Theorem C92_operator_refuted : exists pb n gamma x y, has_lots n 1 x /\ has_lots n 1 y /\ (forall i, (i < n)%nat -> position n x i = position n y i) /\ trading pb = 0 /\
  mrun (portfolio_cost_op pb n gamma) (fun _ => c1) x <> mrun (portfolio_cost_op pb n gamma) (fun _ => c1) y.
Proof.
  exists varied, 2%nat, PI, [false; true; true; true], [false; false; true; false]. split; [reflexivity|]. split; [reflexivity|]. split; [|split; [reflexivity|]].
  - intros i I. destruct i as [|[|i]]; [reflexivity|reflexivity|lia].
  - rewrite !C92_operator by reflexivity. intros E. assert (forall a, cmul a c1 = a) as M by (intros a; ring). rewrite !M in E. revert E. apply turn_neq. unfold risk, position, long, short, varied. cbn. field.
Qed.
Print Assumptions C92_operator_refuted.
(** So do the trading costs *)
Theorem C92_trading_refuted : exists pb n gamma x y, has_lots n 1 x /\ has_lots n 1 y /\ (forall i, (i < n)%nat -> position n x i = position n y i) /\ (forall i j, covar pb i j = 0) /\
  mrun (portfolio_cost_op pb n gamma) (fun _ => c1) x <> mrun (portfolio_cost_op pb n gamma) (fun _ => c1) y.
Proof.
  exists (trader (fun _ => 0%Z)), 2%nat, (2 * PI / 3), [false; true; true; true], [false; false; true; false]. split; [reflexivity|]. split; [reflexivity|]. split; [|split; [reflexivity|]].
  - intros i I. destruct i as [|[|i]]; [reflexivity|reflexivity|lia].
  - rewrite !C92_operator by reflexivity. intros E. assert (forall a, cmul a c1 = a) as M by (intros a; ring). rewrite !M in E. revert E. apply turn_neq. unfold risk, position, long, short, trader. cbn. field.
Qed.
Print Assumptions C92_trading_refuted.

(** ** The hypotheses can be met: three assets and one lot; a problem with risks and returns *)
Example portfolio_defined : portfolio_qaoa returns 3 1 [(1, 1); (2, 1)] <> None. Proof. rewrite C92_defined. lia. Qed.
Example portfolio_start : first_portfolio 3 1 = [false; false; false; false; false; true] /\ has_lots 3 1 (first_portfolio 3 1). Proof. split; reflexivity. Qed.
Example portfolio_share c : portfolio_init 3 1 = Some c -> norm2 (mrun c (zero_state 6) (first_portfolio 3 1)) = 3 / 15.
Proof. intros H. change 6%nat with (2 * 3)%nat. rewrite (C92_band_0 3 1 c) by (auto with arith). cbn. field. Qed.
Definition pair : problem := {| old_pos := fun _ => 0%Z; risk_return := / 2; covar := fun i j => if (i =? j)%nat then 0 else 4; asset_return := fun i => INR (S i); trading := 0 |}.
Example pair_phase psi : mrun (portfolio_cost_op pair 2 1) psi [true; false; false; true] = cmul (turn (9 / 4)) (psi [true; false; false; true]).
Proof.
  rewrite C92_operator_partial; [|intros i; cbn; rewrite Nat.eqb_refl; reflexivity|reflexivity|reflexivity]. f_equal. f_equal. unfold objective, risk, trades, position, long, short, pair. cbn. field.
Qed.
Example cost_counts : rtotal (fun _ => 1) [([false; true; true; true], / 4); ([false; false; true; false], 3 / 4)] <> 0. Proof. cbn. lra. Qed.
