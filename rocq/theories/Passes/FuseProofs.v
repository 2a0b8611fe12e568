(** fuse_adjacents preserves the circuit's action. *)
From Coq Require Import Ring.
From Verif.Lib Require Trace.
From Verif.Passes Require Import FuseModel FuseSpec FuseRules.
Local Open Scope nat_scope.

Section proofs.
Context {R : comring} (T : trig R).
Add Ring Rring5 : (laws R).
Variable generic : gate T -> gate T -> outcome T.
Hypothesis GS : generic_sound T generic.
Notation finstr := (finstr T). Notation gate := (gate T). Notation dag := (dag T).
Notation fop := (fop T). Notation fqs := (fqs T). Notation fcl := (fcl T). Notation fclc := (fclc T).
Notation gname := (gname T). Notation gpar := (gpar T). Notation gmat := (gmat T).
Notation frun := (frun T). Notation frun_instr := (frun_instr T). Notation ex := (ex T).
Implicit Types (v w : vec R).
Definition vscale (k : R) v : vec R := fun x => mul k (v x).

(** ** one pair of operations *)
Lemma meq_refl k (m : mat R) : meq k m m. Proof. intros r c _ _. reflexivity. Qed.
Lemma mscale_1 k (m m' : mat R) : meq k m m' -> meq k m (mscale (ex a0) m').
Proof. intros H r c Lr Lc. unfold mscale. rewrite ex_0, H by assumption. ring. Qed.
Lemma mscale_ext k s (m m' : mat R) : meq k m m' -> meq k (mscale s m) (mscale s m').
Proof. intros H r c Lr Lc. unfold mscale. rewrite H by assumption. reflexivity. Qed.
Definition sound (k : nat) (a b : gate) (r : outcome T * ang T) : Prop :=
  match r with
  | (ONone _, _) => True
  | (OCancel _, d) => meq k (mthen k (gmat a) (gmat b)) (mscale (ex d) idm)
  | (OFused _ g, d) => gate_ok T k g /\ meq k (mthen k (gmat a) (gmat b)) (mscale (ex d) (gmat g))
  end.
Lemma cancel_or_ok k a b s (nm : name) (m : ang T -> mat R) d : gate_ok T k (mk T nm m s) -> meq k (mthen k (gmat a) (gmat b)) (mscale (ex d) (m s)) -> meq k (m a0) idm ->
  sound k a b (cancel_or T s (mk T nm m s), d).
Proof.
  intros G H Z. unfold cancel_or. destruct (aeqb s a0) eqn:E; [|exact (conj G H)]. apply aeqb_ok in E. subst s. apply (meq_trans _ _ _ _ H). apply mscale_ext. exact Z.
Qed.
Lemma fuse_swap_ok k a b g : gate_ok T k a -> gate_ok T k b -> fuse_swap T a b = Some g -> gate_ok T k g /\ meq k (mthen k (gmat a) (gmat b)) (gmat g).
Proof.
  intros Ga Gb. unfold fuse_swap. unfold gate_ok in Ga, Gb.
  destruct (gname a) eqn:Na; destruct (gname b) eqn:Nb; try discriminate; intros [= <-]; (split; [exact I|]); destruct Ga as [-> Ma], Gb as [_ Mb]; apply (by_name _ _ _ _ _ _ Ma Mb).
  - apply swap_cx.
  - apply swap_cp_ok.
  - apply swap_rzz_ok.
  - apply cx_swap.
  - apply cz_swap_ok.
  - apply cp_swap_ok.
  - apply rzz_swap_ok.
Qed.
Lemma fuse_1q_ok k a b : gate_ok T k a -> gate_ok T k b -> sound k a b (fuse_1q T a b).
Proof.
  intros Ga Gb. unfold fuse_1q. unfold gate_ok in Ga, Gb.
  destruct (gname a) eqn:Na; try exact I; destruct (gname b) eqn:Nb; try exact I; destruct Ga as [-> Ma], Gb as [_ Mb].
  - apply cancel_or_ok; [split; [reflexivity|apply meq_refl]|apply mscale_1, (by_name _ _ _ _ _ _ Ma Mb), rz_rz|apply rz_0].
  - apply cancel_or_ok; [split; [reflexivity|apply meq_refl]|apply (by_name _ _ _ _ _ _ Ma Mb), rz_p|apply p_0].
  - apply cancel_or_ok; [split; [reflexivity|apply meq_refl]|apply (by_name _ _ _ _ _ _ Ma Mb), p_rz|apply p_0].
  - apply cancel_or_ok; [split; [reflexivity|apply meq_refl]|apply mscale_1, (by_name _ _ _ _ _ _ Ma Mb), p_p|apply p_0].
  - apply cancel_or_ok; [split; [reflexivity|apply meq_refl]|apply mscale_1, (by_name _ _ _ _ _ _ Ma Mb), rx_rx|apply rx_0].
  - apply cancel_or_ok; [split; [reflexivity|apply meq_refl]|apply mscale_1, (by_name _ _ _ _ _ _ Ma Mb), ry_ry|apply ry_0].
  - split; [split; [reflexivity|apply meq_refl]|]. apply mscale_1. apply (by_name _ _ _ _ _ _ Ma Mb). apply gp_gp.
Qed.
Lemma fuse_and_ok k a b r : gate_ok T k a -> gate_ok T k b -> fuse_and T a b = Some r -> sound k a b (r, a0).
Proof.
  intros Ga Gb. unfold fuse_and. unfold gate_ok in Ga, Gb.
  destruct (gname a) as [| | | | | | | | | |[ca0 ca1] ia|]; try discriminate. destruct (gname b) as [| | | | | | | | | |[cb0 cb1] ib|]; try discriminate. destruct Ga as [-> Ma], Gb as [_ Mb].
  cbn [fst snd]. destruct (eqb ca0 cb0 && eqb ca1 cb1 && xorb ia ib) eqn:E; [|discriminate]. intros [= <-].
  apply andb_true_iff in E. destruct E as [E _]. apply andb_true_iff in E. destruct E as [E1 E2]. apply eqb_prop in E1, E2. subst.
  cbn. apply mscale_1. apply (by_name _ _ _ _ _ _ Ma Mb). apply and_and.
Qed.
Lemma fuse_ops_ok k a b : gate_ok T k a -> gate_ok T k b -> sound k a b (fuse_ops T generic a b).
Proof.
  intros Ga Gb. assert (G := GS k a b Ga Gb). unfold fuse_ops.
  destruct (fuse_swap T a b) as [g|] eqn:Es; [destruct (fuse_swap_ok k a b g Ga Gb Es) as [G1 G2]; split; [exact G1|apply mscale_1; exact G2]|].
  assert (H1 := fuse_1q_ok k a b Ga Gb). destruct (fuse_1q T a b) as [[| |g] d]; [clear H1|exact H1|exact H1].
  destruct (fuse_and T a b) as [r|] eqn:Ea; [apply fuse_and_ok; assumption|].
  unfold sound. destruct (generic a b) as [| |g]; [exact I|apply mscale_1; exact G|]. destruct G as [G1 G2]. split; [exact G1|apply mscale_1; exact G2].
Qed.

(** ** one pair of instructions *)
Lemma setb_comm p q (x : list bool) c d : p <> q -> setb (setb x p c) q d = setb (setb x q d) p c.
Proof. revert p q. induction x as [|h x IH]; intros [|p] [|q] H; cbn; try reflexivity; try congruence. f_equal. apply IH. congruence. Qed.
Lemma ap_rev2 n (m : mat R) p q v : p <> q -> veq n (ap m [p; q] v) (ap (fun r c => m (rev r) (rev c)) [q; p] v).
Proof.
  intros H x _. unfold ap. cbn [length strings map app rsum sel upd rev]. rewrite !(setb_comm q p x) by congruence. ring.
Qed.
Lemma symmetric_mat k g : gate_ok T k g -> symmetric T g = true -> k = 2 /\ meq 2 (fun r c => gmat g (rev r) (rev c)) (gmat g).
Proof.
  unfold symmetric, gate_ok. intros G S.
  destruct (gname g); try discriminate; destruct G as [-> M]; (split; [reflexivity|]); apply meq_2; intros x y x' y'; cbn [rev app]; rewrite !M by reflexivity; destruct x, y, x', y'; reflexivity.
Qed.
Lemma sym_qubits n g p q v : gate_ok T 2 g -> symmetric T g = true -> p <> q -> veq n (ap (gmat g) [p; q] v) (ap (gmat g) [q; p] v).
Proof.
  intros G S H. apply (veq_trans R n _ _ _ (ap_rev2 n (gmat g) p q v H)). apply ap_mat_ext. apply (proj2 (symmetric_mat 2 g G S)).
Qed.
Lemma subset_incl (a b : list nat) : subset a b = true -> incl a b.
Proof. unfold subset. rewrite forallb_forall. intros H q Hq. specialize (H q Hq). apply existsb_exists in H. destruct H as (r & Hr & E). apply Nat.eqb_eq in E. subst. exact Hr. Qed.
Lemma lneqb_eq (a : list nat) : forall b, lneqb a b = true -> a = b.
Proof. induction a as [|x a IH]; intros [|y b]; cbn; try discriminate; [reflexivity|]. rewrite andb_true_iff, Nat.eqb_eq. intros [-> H]. rewrite (IH b H). reflexivity. Qed.
Lemma resolve_ok n (i j : finstr) qs v : instr_ok T generic n i -> instr_ok T generic n j -> length (fqs i) = length (fqs j) -> resolve_order T i j = Some qs ->
  incl (fqs i) (fqs j) /\ incl (fqs j) (fqs i) /\ (qs = fqs i \/ qs = fqs j) /\ length qs = length (fqs i) /\
  veq n (frun_instr v i) (ap (gmat (fop i)) qs v) /\ veq n (frun_instr v j) (ap (gmat (fop j)) qs v).
Proof.
  intros ((Ni & Bi) & _ & Gi & _) ((Nj & Bj) & _ & Gj & _) L. unfold resolve_order.
  assert (Cases : symmetric T (fop i) || symmetric T (fop j) = true -> incl (fqs i) (fqs j) -> incl (fqs j) (fqs i) -> fqs i = fqs j \/ exists p q, fqs i = [p; q] /\ fqs j = [q; p] /\ p <> q).
  { intros S I1 I2. assert (L2 : length (fqs i) = 2).
    { apply orb_true_iff in S. destruct S as [S|S]; [apply (symmetric_mat _ _ Gi S)|]. rewrite L. apply (symmetric_mat _ _ Gj S). }
    rewrite L2 in L. destruct (fqs i) as [|p [|q [|? ?]]]; try discriminate. destruct (fqs j) as [|p' [|q' [|? ?]]]; try discriminate.
    assert (p <> q) by (inversion Ni; subst; intros ->; apply H1; left; reflexivity). assert (p' <> q') by (inversion Nj; subst; intros ->; apply H2; left; reflexivity).
    destruct (I1 p (or_introl eq_refl)) as [<-|[<-|[]]]; destruct (I1 q (or_intror (or_introl eq_refl))) as [<-|[<-|[]]]; try congruence; [left; reflexivity|right; eauto]. }
  destruct (symmetric T (fop i) || symmetric T (fop j)) eqn:S.
  - destruct (subset (fqs i) (fqs j) && subset (fqs j) (fqs i)) eqn:Es; [|discriminate]. apply andb_true_iff in Es. destruct Es as [E1 E2]. apply subset_incl in E1, E2.
    destruct (Cases eq_refl E1 E2) as [Eq|(p & q & Qi & Qj & Hpq)].
    + intros H. assert (qs = fqs i) as -> by (destruct (_ && _); injection H as <-; congruence).
      split; [exact E1|split; [exact E2|split; [auto|split; [reflexivity|split; [apply veq_refl|]]]]]. unfold frun_instr. rewrite Eq. apply veq_refl.
    + rewrite Qi in Gi. rewrite Qj in Gj. cbn [length] in Gi, Gj. destruct (symmetric T (fop i) && negb (symmetric T (fop j))) eqn:S'; intros [= <-].
      * apply andb_true_iff in S'. destruct S' as [S' _]. split; [exact E1|split; [exact E2|split; [auto|split; [congruence|split; [|apply veq_refl]]]]].
        unfold FuseSpec.frun_instr. rewrite Qi, Qj. apply sym_qubits; assumption.
      * assert (Sj : symmetric T (fop j) = true) by (destruct (symmetric T (fop i)), (symmetric T (fop j)); try discriminate; reflexivity).
        split; [exact E1|split; [exact E2|split; [auto|split; [congruence|split; [apply veq_refl|]]]]].
        unfold FuseSpec.frun_instr. rewrite Qi, Qj. apply sym_qubits; auto.
  - destruct (lneqb (fqs i) (fqs j)) eqn:E; [|discriminate]. apply lneqb_eq in E. intros [= <-]. rewrite E. unfold FuseSpec.frun_instr. rewrite E. repeat split; auto; try apply incl_refl; apply veq_refl.
Qed.
Lemma ap_scale n (m : mat R) qs k v : veq n (ap m qs (vscale k v)) (vscale k (ap m qs v)).
Proof. intros x _. unfold ap, vscale. rewrite <- rsum_scale. apply rsum_ext. intros y _. ring. Qed.
Lemma ap_mscale n (m : mat R) qs k v : veq n (ap (mscale k m) qs v) (vscale k (ap m qs v)).
Proof. intros x _. unfold ap, vscale, mscale. rewrite <- rsum_scale. apply rsum_ext. intros y _. ring. Qed.
Lemma vscale_ext n k v w : veq n v w -> veq n (vscale k v) (vscale k w).
Proof. intros H x Lx. unfold vscale. rewrite H by exact Lx. reflexivity. Qed.
Lemma ap_then n (a b : mat R) qs v m : okq n qs -> meq (length qs) (mthen (length qs) a b) m -> veq n (ap b qs (ap a qs v)) (ap m qs v).
Proof. intros O H. apply (veq_trans R n _ _ _ (ap_mul R n b a qs v O)). apply ap_mat_ext. exact H. Qed.
Definition opt_run v (r : option finstr) : vec R := match r with None => v | Some f => frun_instr v f end.
Lemma fuse_instr_ok n (i j : finstr) r d : instr_ok T generic n i -> instr_ok T generic n j -> fuse_instr T generic i j = (Some r, d) ->
  incl (fqs i) (fqs j) /\ incl (fqs j) (fqs i) /\ fcl i = [] /\ fcl j = [] /\
  (forall f, r = Some f -> instr_ok T generic n f /\ incl (fqs f) (fqs i) /\ incl (fqs i) (fqs f) /\ fcl f = []) /\
  forall v, veq n (frun_instr (frun_instr v i) j) (vscale (ex d) (opt_run v r)).
Proof.
  intros Ii Ij. unfold fuse_instr. destruct (Nat.eqb_spec (length (fqs i)) (length (fqs j))) as [L|L]; cbn [negb]; [|discriminate].
  destruct (fclc i || fclc j) eqn:Ec; [discriminate|]. apply orb_false_iff in Ec. destruct Ec as [Ci Cj].
  destruct (resolve_order T i j) as [qs|] eqn:Er; [|discriminate].
  assert (Rv := fun v => resolve_ok n i j qs v Ii Ij L Er). destruct (Rv (fun _ => zero)) as (I1 & I2 & Q & Lq & _).
  assert (Oq : okq n qs /\ qs <> []) by (destruct Q as [->| ->]; [split; apply Ii|split; apply Ij]).
  assert (Gi : gate_ok T (length qs) (fop i)) by (rewrite Lq; apply Ii). assert (Gj : gate_ok T (length qs) (fop j)) by (rewrite Lq, L; apply Ij).
  assert (S := fuse_ops_ok (length qs) (fop i) (fop j) Gi Gj).
  assert (Cl : fst (fuse_ops T generic (fop i) (fop j)) <> ONone T -> fcl i = [] /\ fcl j = []).
  { intros H. destruct Ii as (_ & _ & _ & Hi), Ij as (_ & _ & _ & Hj). split.
    - destruct (fcl i) as [|c cl]; [reflexivity|]. exfalso. destruct Hi as [N [Hi|Hi]]; [discriminate|congruence|]. apply H. unfold fuse_ops, fuse_swap, fuse_1q, fuse_and. rewrite N.
      destruct (gname (fop j)); cbn; apply Hi.
    - destruct (fcl j) as [|c cl]; [reflexivity|]. exfalso. destruct Hj as [N [Hj|Hj]]; [discriminate|congruence|]. apply H. unfold fuse_ops, fuse_swap, fuse_1q, fuse_and. rewrite N.
      destruct (gname (fop i)); cbn; apply Hj. }
  assert (Run : forall v, veq n (frun_instr (frun_instr v i) j) (ap (gmat (fop j)) qs (ap (gmat (fop i)) qs v))).
  { intros v. apply (veq_trans R n _ (ap (gmat (fop j)) qs (frun_instr v i))); [apply (Rv (frun_instr v i))|]. apply ap_ext. apply (Rv v). }
  destruct (fuse_ops T generic (fop i) (fop j)) as [[| |g] d']; [discriminate| |]; intros [= <- <-]; cbn [fst] in Cl; destruct (Cl ltac:(discriminate)) as [C1 C2];
    (split; [exact I1|split; [exact I2|split; [exact C1|split; [exact C2|split]]]]).
  - discriminate.
  - intros v. apply (veq_trans R n _ _ _ (Run v)). apply (veq_trans R n _ _ _ (ap_then n _ _ qs v _ (proj1 Oq) S)).
    apply (veq_trans R n _ _ _ (ap_mscale n idm qs (ex d') v)). apply vscale_ext. apply ap_id. apply Oq.
  - intros f [= <-]. cbn [FuseModel.fqs FuseModel.fcl]. split; [|split; [|split; [|reflexivity]]].
    + split; [apply Oq|]. split; [apply Oq|]. split; [apply S|]. intros H. exfalso. apply H. reflexivity.
    + destruct Q as [->| ->]; [apply incl_refl|exact I2].
    + destruct Q as [->| ->]; [apply incl_refl|exact I1].
  - intros v. apply (veq_trans R n _ _ _ (Run v)). apply (veq_trans R n _ _ _ (ap_then n _ _ qs v _ (proj1 Oq) (proj2 S))). apply ap_mscale.
Qed.
End proofs.
