(** The cost operator and the classical cost of portfolios. *)
From Coq Require Import List Arith Bool ZArith Reals Lia Lra Ring.
Import ListNotations.
From Verif.Inverse Require Import InvSpec InvProofs.
From Verif.CtrlOps Require Import CtrlComplex.
From Verif.StatePrep Require Import PrepModel PrepSpec PrepNum XxyyProofs WProofs DickeProofs.
From Verif.Mixers Require Import MixModel MixSpec MixProofs.
From Verif.Portfolio Require Import PortModel PortSpec.
Local Open Scope R_scope.
Add Ring cring : complex_ring.

(** * Sums *)
Lemma sum_ext f g n : (forall i, (i < n)%nat -> f i = g i) -> sum f n = sum g n.
Proof. induction n as [|n IH]; intros H; [reflexivity|]. cbn [sum]. rewrite IH, H by (intros; try apply H; lia). reflexivity. Qed.
Lemma sum_plus f g n : sum (fun i => f i + g i) n = sum f n + sum g n.
Proof. induction n as [|n IH]; cbn [sum]; [ring|]. rewrite IH. ring. Qed.
Lemma sum_scale k f n : sum (fun i => k * f i) n = k * sum f n.
Proof. induction n as [|n IH]; cbn [sum]; [ring|]. rewrite IH. ring. Qed.
Lemma sum_0 n : sum (fun _ => 0) n = 0. Proof. induction n as [|n IH]; cbn [sum]; [reflexivity|]. rewrite IH. ring. Qed.
Lemma sum_at k e n : (k < n)%nat -> sum (fun j => if (k =? j)%nat then e j else 0) n = e k.
Proof.
  induction n as [|n IH]; intros L; [lia|]. cbn [sum]. destruct (Nat.eqb_spec k n) as [->|N].
  - rewrite (sum_ext _ (fun _ => 0)); [rewrite sum_0; ring|]. intros i I. replace (n =? i)%nat with false by (symmetry; apply Nat.eqb_neq; lia). reflexivity.
  - rewrite IH by lia. ring.
Qed.
Lemma lsum_app a b : lsum (a ++ b) = lsum a + lsum b.
Proof. unfold lsum. induction a as [|x a IH]; cbn [app fold_right]; [ring|]. rewrite IH. ring. Qed.
Lemma lsum_seq f n : lsum (map f (seq 0 n)) = sum f n.
Proof. induction n as [|n IH]; [reflexivity|]. rewrite seq_S, map_app, lsum_app, IH. cbn. ring. Qed.
Lemma lsum_flat {A} (f : A -> list R) l : lsum (flat_map f l) = lsum (map (fun a => lsum (f a)) l).
Proof. induction l as [|a l IH]; [reflexivity|]. cbn [flat_map map]. rewrite lsum_app, IH. reflexivity. Qed.
Lemma lsum_filter p k l : lsum (map (fun _ : nat => k) (filter p l)) = lsum (map (fun i => if p i then k else 0) l).
Proof. induction l as [|a l IH]; [reflexivity|]. cbn [filter map]. unfold lsum in *. cbn [fold_right]. destruct (p a); cbn [map fold_right]; rewrite IH; ring. Qed.

(** * Diagonal circuits *)
Section D.
Variable L : nat.
Definition diag (c : list mgate) (ph : list bool -> R) : Prop := forall psi x, length x = L -> mrun c psi x = cmul (turn (ph x)) (psi x).
Lemma diag_nil : diag [] (fun _ => 0). Proof. intros psi x _. cbn [mrun fold_left]. rewrite turn_0. ring. Qed.
Lemma diag_app c d f g : diag c f -> diag d g -> diag (c ++ d) (fun x => f x + g x).
Proof. intros A B psi x Lx. rewrite mrun_app, B, A, turn_add by exact Lx. ring. Qed.
Lemma diag_ext c f g : diag c f -> (forall x, length x = L -> f x = g x) -> diag c g.
Proof. intros A E psi x Lx. rewrite A, E by exact Lx. reflexivity. Qed.
Lemma diag_seq (c : nat -> list mgate) (f : nat -> list bool -> R) n : (forall i, (i < n)%nat -> diag (c i) (f i)) -> diag (flat_map c (seq 0 n)) (fun x => sum (fun i => f i x) n).
Proof.
  induction n as [|n IH]; intros H; [apply diag_nil|]. rewrite seq_S, flat_map_app. cbn [flat_map sum]. rewrite app_nil_r. apply diag_app; [apply IH; intros; apply H; lia|apply H; cbn; lia].
Qed.
Definition w (b : bool) : R := if b then / 2 else - / 2.
Lemma diag_rz a q : diag (rzg a q) (fun x => a * w (getbit x q)).
Proof. intros psi x _. cbn [rzg mrun fold_left mapply apply]. rewrite act_rz. unfold w. f_equal. f_equal. destruct (getbit x q); field. Qed.
Lemma act_gp t q psi x : act (mk_u 0 0 0 t) q psi x = cmul (turn t) (psi x).
Proof.
  unfold act, on_qubit. rewrite !m_diag by reflexivity. cbn [phi lam gp]. destruct (getbit x q) eqn:E; cbn [xorb].
  - replace (setbit x q true) with x by (rewrite <- E; symmetry; apply setbit_get). replace (0 + 0 + t) with t by ring. ring.
  - replace (setbit x q false) with x by (rewrite <- E; symmetry; apply setbit_get). replace (0 + t) with t by ring. ring.
Qed.
Lemma diag_rzz a p q : p <> q -> (q < L)%nat -> diag (rzz a p q) (fun x => a * w (xorb (getbit x p) (getbit x q))).
Proof.
  intros D Q psi x Lx. unfold rzz. rewrite mrun_std. unfold run. cbn [fold_left].
  set (f := apply (CNot p q) psi). set (g := apply (U (mk_u 0 0 0 (- a / 2)) p) f). set (h := apply (U (pg a) q) g).
  assert (F : forall y, f y = psi (setbit y q (xorb (getbit y q) (getbit y p)))) by reflexivity.
  assert (G : forall y, g y = cmul (turn (- a / 2)) (f y)) by (intros y; apply act_gp).
  assert (H : forall y, h y = if getbit y q then cmul (turn a) (g y) else g y) by (intros y; apply act_p).
  change (apply (CNot p q) h x) with (h (setbit x q (xorb (getbit x q) (getbit x p)))). rewrite H, G, F. clearbody f g h.
  rewrite get_set, Nat.eqb_refl by lia. rewrite getbit_set_other by exact D. rewrite setbit_twice.
  replace (xorb (xorb (getbit x q) (getbit x p)) (getbit x p)) with (getbit x q) by (destruct (getbit x q), (getbit x p); reflexivity). rewrite setbit_get.
  rewrite (xorb_comm (getbit x q)). unfold w. destruct (xorb (getbit x p) (getbit x q)).
  - replace (a * / 2) with (a + - a / 2) by field. rewrite turn_add. ring.
  - replace (a * - / 2) with (- a / 2) by field. reflexivity.
Qed.
End D.
Lemma keeps_diag L P c ph : diag L c ph -> keeps L P c.
Proof. intros D psi S x Lx N. rewrite D, S by assumption. ring. Qed.

(** * The phase of the operator *)
Definition risk_phase (pb : problem) (n : nat) (gamma : R) (i j : nat) (x : list bool) : R :=
  - gamma / 2 * (risk_return pb * (covar pb i j * IZR (position n x i) * IZR (position n x j)))
  + (if (i =? j)%nat then gamma / 4 * risk_return pb * covar pb j j * (2 * IZR (long n x j + short x j) - 1) else 0).
Lemma diag_risk pb n gamma i j : (i < n)%nat -> (j < n)%nat -> diag (2 * n) (risk_gates pb n gamma i j) (risk_phase pb n gamma i j).
Proof.
  intros I J. unfold risk_gates. set (p := gamma * covar pb i j / 4 * risk_return pb).
  eapply diag_ext; [eapply diag_app; [apply diag_rzz; lia|eapply diag_app; [apply diag_rzz; lia|]]|].
  - instantiate (1 := fun x => if (i =? j)%nat then 2 * p * w (getbit x (n + i)) + 2 * p * w (getbit x i) else p * w (xorb (getbit x (n + i)) (getbit x (n + j))) + p * w (xorb (getbit x i) (getbit x j))).
    destruct (Nat.eqb_spec i j) as [E|N]; apply diag_app; try apply diag_rz; apply diag_rzz; lia.
  - intros x _. unfold risk_phase, position, long, short. destruct (Nat.eqb_spec i j) as [<-|N]; unfold p, w.
    + destruct (getbit x i), (getbit x (n + i)); cbn [xorb]; try change (1 - 1)%Z with 0%Z; try change (0 - 1)%Z with (-1)%Z; try change (1 - 0)%Z with 1%Z; try change (0 - 0)%Z with 0%Z;
        try change (1 + 1)%Z with 2%Z; try change (0 + 1)%Z with 1%Z; try change (1 + 0)%Z with 1%Z; try change (0 + 0)%Z with 0%Z; field.
    + destruct (getbit x i), (getbit x j), (getbit x (n + i)), (getbit x (n + j)); cbn [xorb]; try change (1 - 1)%Z with 0%Z; try change (0 - 1)%Z with (-1)%Z; try change (1 - 0)%Z with 1%Z; try change (0 - 0)%Z with 0%Z; field.
Qed.
Lemma diag_return pb n gamma i : (i < n)%nat -> diag (2 * n) (return_gates pb n gamma i) (fun x => gamma / 2 * ((1 - risk_return pb) * (asset_return pb i * IZR (position n x i)))).
Proof.
  intros I. unfold return_gates. eapply diag_ext; [apply diag_app; apply diag_rz|]. intros x _. unfold position, long, short, w.
  destruct (getbit x i), (getbit x (n + i)); try change (1 - 1)%Z with 0%Z; try change (0 - 1)%Z with (-1)%Z; try change (1 - 0)%Z with 1%Z; try change (0 - 0)%Z with 0%Z; field.
Qed.
Definition trading_phase (pb : problem) (n : nat) (gamma : R) (i : nat) (x : list bool) : R :=
  gamma / 4 * trading pb * (IZR (Z.lxor (1 - old_pos pb i) (2 - old_pos pb i)) * (IZR (long n x i + short x i) - 1) + IZR (Z.lxor (2 * old_pos pb i) 1) * (IZR (position n x i) ^ 2 - / 2)).
Lemma diag_trading pb n gamma i : (i < n)%nat -> diag (2 * n) (trading_gates pb n gamma i) (trading_phase pb n gamma i).
Proof.
  intros I. unfold trading_gates. eapply diag_ext; [apply diag_app; [apply diag_rz|apply diag_app; [apply diag_rz|apply diag_rzz; lia]]|]. intros x _. change (2 - 1)%Z with 1%Z. unfold trading_phase, position, long, short, w.
  destruct (getbit x i), (getbit x (n + i)); cbn [xorb]; try change (1 - 1)%Z with 0%Z; try change (0 - 1)%Z with (-1)%Z; try change (1 - 0)%Z with 1%Z; try change (0 - 0)%Z with 0%Z;
    try change (1 + 1)%Z with 2%Z; try change (0 + 1)%Z with 1%Z; try change (1 + 0)%Z with 1%Z; try change (0 + 0)%Z with 0%Z; field.
Qed.
Lemma diag_cost pb n gamma : diag (2 * n) (portfolio_cost_op pb n gamma) (fun x =>
  - gamma / 2 * risk pb n (position n x) + gamma / 4 * risk_return pb * sum (fun i => covar pb i i * (2 * IZR (long n x i + short x i) - 1)) n + sum (fun i => trading_phase pb n gamma i x) n).
Proof.
  eapply diag_ext.
  - unfold portfolio_cost_op. apply diag_app; [|apply diag_seq; intros i I; apply diag_trading, I].
    apply (diag_seq _ _ (fun i x => sum (fun j => risk_phase pb n gamma i j x) n + gamma / 2 * ((1 - risk_return pb) * (asset_return pb i * IZR (position n x i))))). intros i I.
    apply diag_app; [apply diag_seq; intros j J; apply diag_risk; assumption|apply diag_return, I].
  - intros x _. cbn beta. f_equal. rewrite sum_plus. unfold risk.
    rewrite (sum_ext _ (fun i => - gamma / 2 * (risk_return pb * sum (fun j => covar pb i j * IZR (position n x i) * IZR (position n x j)) n) + gamma / 4 * risk_return pb * (covar pb i i * (2 * IZR (long n x i + short x i) - 1)))).
    + rewrite sum_plus, !sum_scale. field.
    + intros i I. unfold risk_phase. rewrite sum_plus, !sum_scale. f_equal. rewrite (sum_at i (fun j => gamma / 4 * risk_return pb * covar pb j j * (2 * IZR (long n x j + short x j) - 1))) by exact I. ring.
Qed.

(** * The classical cost *)
Lemma key_position n x i : new_key n x i = (- position n x i)%Z.
Proof. unfold new_key, position, long, short, b2z. destruct (getbit x i), (getbit x (n + i)); reflexivity. Qed.
Lemma energy_ok pb n x : energy_of pb n x = risk pb n (position n x) + trades pb n (position n x) (fun i => (- old_pos pb i)%Z).
Proof.
  unfold energy_of, risk, trades. rewrite lsum_flat, (map_ext _ (fun i => risk_return pb * sum (fun j => covar pb i j * IZR (position n x i) * IZR (position n x j)) n)), lsum_seq.
  - rewrite sum_scale, lsum_seq, lsum_filter, lsum_seq. rewrite (sum_ext (fun j => (1 - risk_return pb) * asset_return pb j * IZR (new_key n x j)) (fun i => - (1 - risk_return pb) * (asset_return pb i * IZR (position n x i)))).
    + rewrite sum_scale. rewrite (sum_ext (fun i => if negb (new_key n x i =? old_pos pb i)%Z then trading pb else 0) (fun i => if Z.eq_dec (position n x i) (- old_pos pb i) then 0 else trading pb)); [ring|].
      intros i _. rewrite key_position. destruct (Z.eqb_spec (- position n x i) (old_pos pb i)), (Z.eq_dec (position n x i) (- old_pos pb i)); cbn [negb]; try reflexivity; lia.
    + intros i _. rewrite key_position, opp_IZR. ring.
  - intros i. rewrite lsum_seq, <- sum_scale. apply sum_ext. intros j _. rewrite !key_position, !opp_IZR. ring.
Qed.
Lemma fold_energy f res : forall e, fold_left (fun e '(x, v) => e - f x * v) res e = e - rtotal f res.
Proof. induction res as [|[x v] res IH]; intros e; cbn [fold_left rtotal fold_right]; [ring|]. rewrite IH. unfold rtotal. ring. Qed.
Lemma fold_counts (res : list (list bool * R)) : forall e, fold_left (fun c '(_, v) => c + v) res e = e + rtotal (fun _ => 1) res.
Proof. induction res as [|[x v] res IH]; intros e; cbn [fold_left rtotal fold_right]; [ring|]. rewrite IH. unfold rtotal. ring. Qed.
Lemma rtotal_opp f res : rtotal (fun x => - f x) res = - rtotal f res.
Proof. unfold rtotal. induction res as [|[x v] res IH]; cbn [fold_right]; [ring|]. rewrite IH. ring. Qed.
Lemma rtotal_ext f g res : (forall x, f x = g x) -> rtotal f res = rtotal g res.
Proof. intros E. unfold rtotal. induction res as [|[x v] res IH]; cbn [fold_right]; [reflexivity|]. rewrite IH, E. reflexivity. Qed.
Lemma cost_ok pb n res : portfolio_cl_cost pb n res = if Req_EM_T (rtotal (fun _ => 1) res) 0 then None
  else Some (mean (fun x => - (risk pb n (position n x) + trades pb n (position n x) (fun i => (- old_pos pb i)%Z))) res).
Proof.
  unfold portfolio_cl_cost. rewrite fold_energy, fold_counts, !Rplus_0_l. destruct res as [|r res].
  - cbn. destruct (Req_EM_T 0 0); [reflexivity|contradiction].
  - destruct (Req_EM_T (rtotal (fun _ => 1) (r :: res)) 0) as [E|E]; [reflexivity|]. f_equal. unfold mean. rewrite rtotal_opp, (rtotal_ext _ _ _ (energy_ok pb n)). f_equal. ring.
Qed.
