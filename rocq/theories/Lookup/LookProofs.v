From Coq Require Import Reals Field Lia Lra.
From Verif.Gray Require Import GraySpec GrayProofs GrayWalk GrayEmit GrayFinal GrayRange.
From Verif.CtrlOps Require Import CtrlSpec CtrlComplex.
From Verif.Lookup Require Import LookModel LookSpec.
Local Open Scope nat_scope.
Add Ring cplx_ring : complex_ring.
Notation gstate := GraySpec.state.

(** ** bits *)
Lemma tb_flip q x j : tb (flip q x) j = xorb (tb x j) (q =? j).
Proof. unfold flip. rewrite tb_lxor, tb_bit. reflexivity. Qed.
Lemma flip_flip q x : flip q (flip q x) = x.
Proof. apply lxor_lxor. Qed.
Lemma flip_comm p q x : flip p (flip q x) = flip q (flip p x).
Proof. apply N_ext. intros j. rewrite !tb_flip. destruct (tb x j), (p =? j), (q =? j); reflexivity. Qed.
Lemma run_app a b psi : run (a ++ b) psi = run b (run a psi).
Proof. unfold run. apply fold_left_app. Qed.
Lemma exp_add a b : cexpi (a + b)%Qc = cmul (cexpi a) (cexpi b).
Proof. exact (proj1 complex_euler a b). Qed.
Lemma exp_0 : cexpi 0%Qc = c1.
Proof. exact (proj1 (proj2 complex_euler)). Qed.
Lemma exp_1 : cexpi 1%Qc = copp c1.
Proof. exact (proj1 (proj2 (proj2 complex_euler))). Qed.
Lemma root_half_sq : cadd (cmul root_half root_half) (cmul root_half root_half) = c1.
Proof.
  assert (Q : (sqrt 2 * sqrt 2 = 2)%R) by (apply sqrt_sqrt; lra). assert (NZ : (sqrt 2 <> 0)%R) by (intros E; rewrite E in Q; lra).
  apply cplx_eq; cbn; [|ring]. transitivity (2 * / (sqrt 2 * sqrt 2))%R; [field; exact NZ|]. rewrite Q. field.
Qed.
(** ** circuits of CNOTs and phases, placed on qubits *)
Definition read (qs : list nat) (x X : N) : Prop := forall k, k < length qs -> tb X (nth k qs 0) = tb x k.
Lemma placed qs : NoDup qs -> forall l, Forall (gate_ok (length qs)) l -> forall x X psi, read qs x X ->
  exists Y, read qs (snd (action l x)) Y /\ (forall q, ~ In q qs -> tb Y q = tb X q) /\
    run (map (place qs) l) psi Y = cmul (cexpi (fst (action l x))) (psi X).
Proof.
  intros ND l F. induction F as [|g l G F IH]; intros x X psi RD.
  - exists X. cbn. rewrite exp_0. split; [exact RD|]. split; [reflexivity|]. ring.
  - destruct g as [c t|a q]; cbn [gate_ok] in G.
    + destruct G as (Hc & Ht & NE). assert (NN : nth c qs 0 <> nth t qs 0) by (intros E; apply NE; apply (proj1 (NoDup_nth qs 0) ND); assumption).
      set (x' := if tb x c then N.lxor x (bit t) else x). set (X' := if tb x c then flip (nth t qs 0) X else X).
      assert (RD' : read qs x' X').
      { intros k Hk. unfold x', X'. destruct (tb x c); [|apply RD, Hk]. rewrite tb_flip, tb_lxor, tb_bit, RD by exact Hk. f_equal.
        destruct (Nat.eqb_spec t k) as [->|D]; [apply Nat.eqb_refl|]. apply Nat.eqb_neq. intros E. apply D. apply (proj1 (NoDup_nth qs 0) ND); assumption. }
      destruct (IH x' X' (apply (LCX (nth c qs 0) (nth t qs 0)) psi) RD') as (Y & RY & OY & E). exists Y. cbn [action]. fold x'. split; [exact RY|]. split.
      { intros q Hq. rewrite OY by exact Hq. unfold X'. destruct (tb x c); [|reflexivity]. rewrite tb_flip. destruct (Nat.eqb_spec (nth t qs 0) q) as [<-|]; [|apply xorb_false_r].
        exfalso. apply Hq, nth_In, Ht. }
      cbn [map place]. change (run (?g :: ?l) psi Y) with (run l (apply g psi) Y). rewrite E. f_equal. cbn [apply].
      assert (TC : tb X' (nth c qs 0) = tb x c).
      { unfold X'. destruct (tb x c) eqn:T; [|rewrite RD by exact Hc; exact T]. rewrite tb_flip, RD, T by exact Hc. apply Nat.eqb_neq in NN. rewrite Nat.eqb_sym, NN. reflexivity. }
      rewrite TC. unfold X'. destruct (tb x c); [rewrite flip_flip|]; reflexivity.
    + cbn [action map place]. change (run (?g :: ?l) psi) with (run l (apply g psi)). destruct (IH x X (apply (LP a (nth q qs 0)) psi) RD) as (Y & RY & OY & E).
      exists Y. destruct (action l x) as [p y]. cbn [fst snd] in *. split; [exact RY|]. split; [exact OY|]. rewrite E. cbn [apply]. rewrite RD by exact G.
      destruct (tb x q); [rewrite exp_add; ring|reflexivity].
Qed.
Lemma placed_diag qs l x X psi p : NoDup qs -> Forall (gate_ok (length qs)) l -> read qs x X -> action l x = (p, x) ->
  run (map (place qs) l) psi X = cmul (cexpi p) (psi X).
Proof.
  intros ND F RD A. destruct (placed qs ND l F x X psi RD) as (Y & RY & OY & E). rewrite A in *. cbn [fst snd] in *.
  replace X with Y at 1; [exact E|]. apply N_ext. intros q. destruct (in_dec Nat.eq_dec q qs) as [Hq|Hq]; [|apply OY, Hq].
  destruct (In_nth qs q 0 Hq) as (k & Hk & <-). rewrite RY, RD by exact Hk. reflexivity.
Qed.
(** the state of the qubits [qs] *)
Definition restrict (qs : list nat) (X : N) : N := N.of_nat (value qs X).
Lemma number_bit l : forall k, tb (N.of_nat (number l)) k = nth k l false.
Proof.
  induction l as [|b l IH]; intros k; [cbn [number]; rewrite tb_0; destruct k; reflexivity|]. cbn [number].
  assert (E : N.of_nat ((if b then 1 else 0) + 2 * number l) = (2 * N.of_nat (number l) + N.b2n b)%N) by (destruct b; cbn [N.b2n]; lia).
  rewrite E. unfold tb. destruct k as [|k].
  - apply N.testbit_0_r.
  - rewrite Nat2N.inj_succ, N.testbit_succ_r. apply IH.
Qed.
Lemma number_lt l : number l < 2 ^ length l.
Proof. induction l as [|b l IH]; [cbn; lia|]. cbn [number length]. rewrite Nat.pow_succ_r'. destruct b; lia. Qed.
Lemma value_lt qs X : value qs X < 2 ^ length qs.
Proof. unfold value. rewrite <- (map_length (tb X) qs). apply number_lt. Qed.
Lemma restrict_read qs X : read qs (restrict qs X) X.
Proof. intros k Hk. unfold restrict, value. rewrite number_bit, (nth_indep _ false (tb X 0)), map_nth by (rewrite map_length; exact Hk). reflexivity. Qed.
Lemma restrict_state qs X : gstate (length qs) (restrict qs X).
Proof. unfold GraySpec.state, restrict. rewrite <- bit_nat. pose proof (value_lt qs X). lia. Qed.
Lemma number_app a b : number (a ++ b) = number a + 2 ^ length a * number b.
Proof. induction a as [|c a IH]; [cbn; lia|]. cbn [app number length]. rewrite IH, Nat.pow_succ_r'. lia. Qed.
Lemma value_snoc qs o X : value (qs ++ [o]) X = value qs X + 2 ^ length qs * (if tb X o then 1 else 0).
Proof. unfold value. rewrite map_app, number_app, map_length. cbn [map number]. destruct (tb X o); lia. Qed.
Lemma be_rev l x : (forall k, k < length l -> tb x k = nth k l false) -> be (length l) x = number (rev l).
Proof.
  revert x. induction l as [|b l IH] using rev_ind; intros x H; [reflexivity|]. rewrite app_length, Nat.add_comm. cbn [length Nat.add be]. rewrite rev_app_distr. cbn [rev app number].
  rewrite IH.
  - rewrite H by (rewrite app_length; cbn; lia). rewrite app_nth2, Nat.sub_diag by lia. cbn [nth]. destruct b; lia.
  - intros k Hk. rewrite H by (rewrite app_length; cbn; lia). rewrite app_nth1 by exact Hk. reflexivity.
Qed.
Lemma be_value qs X : be (length qs) (restrict qs X) = value (rev qs) X.
Proof.
  unfold value. rewrite map_rev, <- (map_length (tb X) qs). apply be_rev. intros k Hk. unfold restrict, value. apply number_bit.
Qed.
Lemma map_tb_value l : map (tb (N.of_nat (number l))) (seq 0 (length l)) = l.
Proof.
  apply (nth_ext _ _ false false); [rewrite map_length, seq_length; reflexivity|]. intros k Hk. rewrite map_length, seq_length in Hk.
  rewrite (nth_indep _ false (tb (N.of_nat (number l)) 0)) by (rewrite map_length, seq_length; exact Hk). rewrite map_nth, seq_nth by exact Hk. apply number_bit.
Qed.
(** reversing the axes twice *)
Lemma phase_reversed n l x : length l = 2 ^ n -> gstate n x -> phase_of n (reverse_axes 0%Qc n l) x = nth (N.to_nat x) l 0%Qc.
Proof.
  intros L Hx. unfold phase_of. rewrite index_be. unfold reverse_axes. pose proof (be_lt n x) as B.
  set (f := fun i => nth (be n (N.of_nat i)) l 0%Qc). rewrite (nth_indep _ 0%Qc (f 0)) by (rewrite map_length, seq_length; exact B). rewrite map_nth, seq_nth by exact B. cbn [Nat.add]. unfold f. f_equal.
  set (bs := map (tb x) (seq 0 n)). assert (LB : length bs = n) by (unfold bs; rewrite map_length, seq_length; reflexivity).
  assert (NB : forall k, k < n -> nth k bs false = tb x k).
  { intros k Hk. unfold bs. rewrite (nth_indep _ false (tb x 0)), map_nth, seq_nth by (rewrite ?map_length, ?seq_length; exact Hk). reflexivity. }
  assert (E1 : be n x = number (rev bs)) by (rewrite <- LB at 1; apply be_rev; rewrite LB; intros; symmetry; apply NB; assumption).
  assert (E2 : be n (N.of_nat (be n x)) = number bs).
  { rewrite E1. rewrite <- (rev_involutive bs) at 2. rewrite <- LB, <- (rev_length bs). apply be_rev. intros k Hk. apply number_bit. }
  rewrite E2. apply Nat2N.inj. rewrite N2Nat.id. apply N_ext. intros k. rewrite number_bit. destruct (Nat.lt_ge_cases k n) as [Hk|Hk]; [apply NB, Hk|].
  rewrite nth_overflow by lia. symmetry. apply (proj1 (state_bits n x) Hx). exact Hk.
Qed.

(** ** phase tolerant synthesis *)
Lemma tolerant n phases : least_pair (S n) phases n ->
  exists shift, (forall x, action (gray_synth_qc (S n) phases true) x = (shift x, x)) /\
    (forall x, gstate (S n) x -> (shift x - shift (N.lxor x (bit n)) = phase_of (S n) phases x - phase_of (S n) phases (N.lxor x (bit n)))%Qc) /\
    (forall x, gstate (S n) x -> (shift x + shift (N.lxor x (bit n)) = phase_of (S n) phases (bit n) - phase_of (S n) phases 0%N)%Qc).
Proof.
  intros H. destruct (gray_tolerant n phases H) as (sh & A & D). set (t := fun x => nth (be (S n) x) phases 0%Qc). set (ph := phase_shifts (S n) t).
  assert (SH : forall x, sh x = (- left (S n) n x ph)%Qc).
  { intros x. assert (E : action (gray_synth_qc (S n) phases true) x = ((- left (S n) n x ph)%Qc, x)); [|rewrite A in E; injection E as E; exact E].
    unfold gray_synth_qc, gray_synth. fold t ph. replace (S n - 1) with n by lia. rewrite seq_S, rev_app_distr. cbn [rev app Nat.add flat_map].
    rewrite emit_top.
    + pose proof (one_bit_ok (S n) n x ph (fun p => negb (Qc_eq_bool (ph p) 0%Qc)) ltac:(lia) (shifts_0 _ _)) as O.
      destruct (emit None _ ph) as [g ph']. apply O; [reflexivity|]. apply least_pair_min; [lia|exact H].
    + intros c u p Hin. apply in_flat_map in Hin. destruct Hin as (b & Hb & Hin). apply one_bit_target in Hin. apply in_rev, in_seq in Hb. lia.
    + intros c u p Hin. apply one_bit_target in Hin. exact Hin. }
  exists sh. split; [exact A|]. split; [exact D|].
  assert (S2 : forall x, gstate (S n) x -> (sh x + sh (N.lxor x (bit n)) = - bsum n (fun y => ph (N.lxor y (bit n))))%Qc).
  { intros x Hx. rewrite !SH. unfold left. transitivity (- bsum n (fun y => ph (N.lxor y (bit n)) * ind (par (S n) (N.lxor y (bit n)) x) + ph (N.lxor y (bit n)) * ind (par (S n) (N.lxor y (bit n)) (N.lxor x (bit n)))))%Qc; [rewrite bsum_add; ring|].
    f_equal. apply bsum_ext. intros y Hy. assert (Q : par (S n) (N.lxor y (bit n)) (N.lxor x (bit n)) = negb (par (S n) (N.lxor y (bit n)) x)).
    { rewrite (par_sym _ (N.lxor y (bit n)) (N.lxor x (bit n))), par_lxor, par_bit, (par_sym _ x). rewrite tb_lxor, tb_bit, Nat.eqb_refl, (proj1 (state_bits n y) Hy n) by lia.
      destruct (Nat.ltb_spec n (S n)); [|lia]. destruct (par _ _ x); reflexivity. }
    rewrite Q. destruct (par _ _ x); cbn [negb ind]; ring. }
  intros x Hx. rewrite S2 by exact Hx. rewrite <- (S2 0%N (state_0 _)). specialize (D 0%N (state_0 _)). rewrite N.lxor_0_l in *.
  assert (Z : sh 0%N = 0%Qc).
  { rewrite SH. unfold left. rewrite (bsum_ext n _ (fun _ => 0%Qc)), bsum_0; [ring|]. intros y Hy. rewrite par_sym, par_0. cbn [ind]. ring. }
  rewrite Z in *. transitivity (- (0 - sh (bit n)))%Qc; [ring|]. rewrite D. ring.
Qed.
Lemma tolerant_gates n phases : least_pair (S n) phases n -> Forall (gate_ok (S n)) (gray_synth_qc (S n) phases true).
Proof.
  intros H. unfold gray_synth_qc, gray_synth. set (t := fun x => nth (be (S n) x) phases 0%Qc). set (ph := phase_shifts (S n) t). replace (S n - 1) with n by lia.
  rewrite seq_S, rev_app_distr. cbn [rev app Nat.add flat_map]. rewrite emit_top.
  - apply emit_ok. intros c u p Hin. destruct (one_bit_le n ph _ (fun p _ => eq_refl) (least_pair_min (S n) phases n ltac:(lia) H) c u p Hin). lia.
  - intros c u p Hin. apply in_flat_map in Hin. destruct Hin as (b & Hb & Hin). apply one_bit_target in Hin. apply in_rev, in_seq in Hb. lia.
  - intros c u p Hin. apply one_bit_target in Hin. exact Hin.
Qed.
(** ** H, phases, H *)
Lemma sandwich o D (sh : N -> Qc) (f : bool) X psi : (forall Y phi, Y = X \/ Y = flip o X -> run D phi Y = cmul (cexpi (sh Y)) (phi Y)) ->
  let Z := if tb X o then flip o X else X in
  (sh (flip o Z) = sh Z + (if f then 1 else 0))%Qc ->
  run (LH o :: D ++ [LH o]) psi X = cmul (cexpi (sh Z)) (psi (if f then flip o X else X)).
Proof.
  intros HD Z E. change (run (LH o :: D ++ [LH o]) psi) with (run (D ++ [LH o]) (apply (LH o) psi)). rewrite run_app.
  change (run [LH o] ?f X) with (apply (LH o) f X). cbn [apply]. rewrite !HD by auto.
  assert (TF : tb (flip o X) o = negb (tb X o)) by (rewrite tb_flip, Nat.eqb_refl; apply xorb_true_r).
  cbn [apply]. rewrite TF, flip_flip. unfold Z in *. clear Z. pose proof root_half_sq as RH. set (h := root_half) in *. clearbody h.
  assert (HH : forall a, cadd (cmul (cmul h h) a) (cmul (cmul h h) a) = a) by (intros a; transitivity (cmul (cadd (cmul h h) (cmul h h)) a); [ring|rewrite RH; ring]).
  destruct (tb X o); cbn [negb]; rewrite ?flip_flip in *; rewrite E, exp_add; destruct f; rewrite ?exp_0, ?exp_1.
  - rewrite <- (HH (cmul (cexpi (sh (flip o X))) (psi (flip o X)))). ring.
  - rewrite <- (HH (cmul (cexpi (sh (flip o X))) (psi X))). ring.
  - rewrite <- (HH (cmul (cexpi (sh X)) (psi (flip o X)))). ring.
  - rewrite <- (HH (cmul (cexpi (sh X)) (psi X))). ring.
Qed.
(** ** one column *)
Lemma nth_column n tt j i : length tt = 2 ^ n -> i < 2 ^ n -> nth i (map (fun r : list bool => if nth j r false then 1%Qc else 0%Qc) tt) 0%Qc = if cell tt i j then 1%Qc else 0%Qc.
Proof.
  intros L Hi. set (f := fun r : list bool => if nth j r false then 1%Qc else 0%Qc). change 0%Qc with (if nth j [] false then 1%Qc else 0%Qc) at 1 || idtac.
  rewrite (nth_indep _ 0%Qc (f [])) by (rewrite map_length; lia). rewrite map_nth. reflexivity.
Qed.
Definition b2q (b : bool) : Qc := if b then 1%Qc else 0%Qc.
Lemma column_length n tt j : length tt = 2 ^ n -> length (repeat 0%Qc (length tt) ++ map (fun r : list bool => if nth j r false then 1%Qc else 0%Qc) tt) = 2 ^ S n.
Proof. intros L. rewrite app_length, repeat_length, map_length, L, Nat.pow_succ_r'. lia. Qed.
Lemma column_phase n tt j x : length tt = 2 ^ n -> gstate (S n) x -> phase_of (S n) (column_phases n tt j) x =
  if tb x n then b2q (cell tt (N.to_nat (N.lxor x (bit n))) j) else 0%Qc.
Proof.
  intros L Hx. unfold column_phases. rewrite phase_reversed by (try apply column_length; assumption).
  destruct (tb x n) eqn:T.
  - assert (Y : gstate n (N.lxor x (bit n))).
    { apply state_bits. intros k Hk. rewrite tb_lxor, tb_bit. destruct (Nat.eqb_spec n k) as [<-|D]; [rewrite T; reflexivity|]. rewrite (proj1 (state_bits (S n) x) Hx) by lia. reflexivity. }
    set (y := N.lxor x (bit n)) in *. assert (E : x = (bit n + y)%N) by (rewrite <- lxor_bit_add by exact Y; unfold y; symmetry; apply lxor_lxor).
    rewrite E, N2Nat.inj_add, <- bit_nat, Nat2N.id. rewrite app_nth2; rewrite repeat_length; [|lia]. rewrite L. replace (2 ^ n + N.to_nat y - 2 ^ n) with (N.to_nat y) by lia.
    apply (nth_column n); [exact L|]. unfold GraySpec.state in Y. rewrite <- bit_nat in Y. lia.
  - assert (Y : gstate n x).
    { apply state_bits. intros k Hk. destruct (Nat.eq_dec k n) as [->|]; [exact T|]. apply (proj1 (state_bits (S n) x) Hx). lia. }
    unfold GraySpec.state in Y. rewrite <- bit_nat in Y. rewrite app_nth1 by (rewrite repeat_length; lia). apply nth_repeat.
Qed.
Lemma bsum_pos n : forall f, (forall y, gstate n y -> (0 <= f y)%Qc) -> (0 <= bsum n f)%Qc /\ (bsum n f = 0%Qc -> forall y, gstate n y -> f y = 0%Qc).
Proof.
  induction n as [|n IH]; intros f P.
  - cbn [bsum]. split; [apply P; reflexivity|]. intros E y Hy. unfold GraySpec.state in Hy. cbn in Hy. assert (y = 0%N) as -> by lia. exact E.
  - cbn [bsum]. destruct (IH f) as (A1 & A2); [intros y Hy; apply P; apply (state_mono n); [lia|exact Hy]|].
    destruct (IH (fun y => f (N.lxor y (bit n)))) as (B1 & B2); [intros y Hy; apply P; apply state_lxor; [apply (state_mono n); [lia|exact Hy]|apply state_bit; lia]|].
    split; [rewrite <- (Qcplus_0_l 0%Qc); apply Qcplus_le_compat; assumption|]. intros E.
    assert (EA : bsum n f = 0%Qc).
    { apply Qcle_antisym; [|exact A1]. rewrite <- E. rewrite <- (Qcplus_0_r (bsum n f)) at 1. apply Qcplus_le_compat; [apply Qcle_refl|exact B1]. }
    rewrite EA, Qcplus_0_l in E. intros y Hy. destruct (tb y n) eqn:T.
    + rewrite <- (lxor_lxor y (bit n)). apply (B2 E). apply state_bits. intros k Hk. rewrite tb_lxor, tb_bit. destruct (Nat.eqb_spec n k) as [<-|D]; [rewrite T; reflexivity|]. rewrite (proj1 (state_bits (S n) y) Hy) by lia. reflexivity.
    + apply (A2 EA). apply state_bits. intros k Hk. destruct (Nat.eq_dec k n) as [->|]; [exact T|]. apply (proj1 (state_bits (S n) y) Hy). lia.
Qed.
Lemma column_least n tt j : length tt = 2 ^ n -> least_pair (S n) (column_phases n tt j) n.
Proof.
  intros L p Hp D Min. left. set (phs := column_phases n tt j) in *. set (g := fun y => phase_of (S n) phs (N.lxor y (bit n))).
  assert (PH : forall x, nth (be (S n) x) phs 0%Qc = phase_of (S n) phs x) by (intros x; unfold phase_of; rewrite index_be; reflexivity).
  assert (LO : forall y, gstate n y -> phase_of (S n) phs y = 0%Qc).
  { intros y Hy. unfold phs. rewrite column_phase by first [exact L|apply (state_mono n); [lia|exact Hy]]. rewrite (proj1 (state_bits n y) Hy n) by lia. reflexivity. }
  assert (C : forall q, coefficient (S n) phs q = bsum n (fun y => sg (par (S n) q (N.lxor y (bit n))) * g y)%Qc).
  { intros q. rewrite coefficient_bsum. cbn [bsum]. rewrite (bsum_ext n (fun x => (sg (par (S n) q x) * nth (be (S n) x) phs 0)%Qc) (fun _ => 0%Qc)), bsum_0, Qcplus_0_l.
    - apply bsum_ext. intros y Hy. rewrite PH. reflexivity.
    - intros y Hy. rewrite PH, LO by exact Hy. ring. }
  assert (GP : forall y, gstate n y -> (0 <= g y)%Qc).
  { intros y Hy. unfold g, phs. rewrite column_phase by first [exact L|apply state_lxor; [apply (state_mono n); [lia|exact Hy]|apply state_bit; lia]]. destruct (tb _ n); [|apply Qcle_refl]. destruct (cell _ _ _); cbn; discriminate. }
  destruct (bsum_pos n g GP) as (_ & Z).
  assert (CB : coefficient (S n) phs (bit n) = (- (1) * bsum n g)%Qc).
  { rewrite C, <- bsum_mul. apply bsum_ext. intros y Hy. rewrite par_bit, tb_lxor, tb_bit, Nat.eqb_refl, (proj1 (state_bits n y) Hy n) by lia. destruct (Nat.ltb_spec n (S n)); [|lia]. reflexivity. }
  assert (NZ : bsum n g <> 0%Qc).
  { intros E. apply D. rewrite C. rewrite (bsum_ext n _ (fun _ => 0%Qc)), bsum_0; [reflexivity|]. intros y Hy. rewrite (Z E y Hy). ring. }
  assert (LE : (p <= bit n)%N); [|lia]. apply Min.
  - split; [lia|]. unfold bit. apply N.pow_lt_mono_r; lia.
  - rewrite CB. apply Qc_mul_nz; [discriminate|exact NZ].
Qed.
Lemma restrict_snoc_flip ins o X : ~ In o ins -> restrict (ins ++ [o]) (flip o X) = N.lxor (restrict (ins ++ [o]) X) (bit (length ins)).
Proof.
  intros NI. apply N_ext. intros k. rewrite tb_lxor, tb_bit. destruct (Nat.lt_ge_cases k (length (ins ++ [o]))) as [Hk|Hk].
  - rewrite <- !restrict_read by exact Hk. rewrite tb_flip. f_equal. rewrite app_length in Hk. cbn [length] in Hk. destruct (Nat.eqb_spec (length ins) k) as [<-|D].
    + rewrite app_nth2, Nat.sub_diag by lia. apply Nat.eqb_refl.
    + rewrite app_nth1 by lia. apply Nat.eqb_neq. intros E. apply NI. rewrite E. apply nth_In. lia.
  - rewrite (proj1 (state_bits _ _) (restrict_state _ _)), (proj1 (state_bits _ _) (restrict_state _ _)) by exact Hk. rewrite app_length in Hk. cbn [length] in Hk. destruct (Nat.eqb_spec (length ins) k); [lia|reflexivity].
Qed.
Lemma tb_restrict_last ins o X : tb (restrict (ins ++ [o]) X) (length ins) = tb X o.
Proof. rewrite <- restrict_read by (rewrite app_length; cbn; lia). rewrite app_nth2, Nat.sub_diag by lia. reflexivity. Qed.
Lemma restrict_low ins o X : tb X o = false -> N.to_nat (restrict (ins ++ [o]) X) = value ins X.
Proof. intros T. unfold restrict. rewrite Nat2N.id, value_snoc, T. lia. Qed.
Lemma value_flip ins o X : ~ In o ins -> value ins (flip o X) = value ins X.
Proof. intros NI. unfold value. f_equal. apply map_ext_in. intros q Hq. rewrite tb_flip. destruct (Nat.eqb_spec o q) as [->|]; [contradiction|apply xorb_false_r]. Qed.
Lemma NoDup_snoc (ins : list nat) o : NoDup ins -> ~ In o ins -> NoDup (ins ++ [o]).
Proof. intros ND NI. apply NoDup_rev in ND. rewrite <- (rev_involutive (ins ++ [o])). apply NoDup_rev. rewrite rev_app_distr. constructor; [rewrite <- in_rev; exact NI|exact ND]. Qed.
(** the phase of the column for the state of the inputs and a one in the output *)
Lemma column_at ins o tt j X : length tt = 2 ^ length ins -> ~ In o ins ->
  phase_of (S (length ins)) (column_phases (length ins) tt j) (restrict (ins ++ [o]) X) = if tb X o then b2q (cell tt (value ins X) j) else 0%Qc.
Proof.
  intros L NI. rewrite column_phase; [|exact L|]. 2:{ pose proof (restrict_state (ins ++ [o]) X) as A. rewrite app_length, Nat.add_comm in A. exact A. }
  rewrite tb_restrict_last. destruct (tb X o) eqn:T; [|reflexivity]. rewrite <- restrict_snoc_flip by exact NI.
  rewrite restrict_low by (rewrite tb_flip, T, Nat.eqb_refl; reflexivity). rewrite value_flip by exact NI. reflexivity.
Qed.
Lemma single_tolerant ins o tt j psi X : length tt = 2 ^ length ins -> NoDup ins -> ~ In o ins ->
  run (single_qb ins o tt j true) psi X =
  cmul (cexpi ((b2q (cell tt 0 j) - b2q (cell tt (value ins X) j)) * half)%Qc) (psi (if cell tt (value ins X) j then flip o X else X)).
Proof.
  intros L ND NI. set (n := length ins). set (phs := column_phases n tt j). set (qs := ins ++ [o]).
  assert (LQ : length qs = S n) by (unfold qs; rewrite app_length; cbn; unfold n; lia).
  assert (NQ : NoDup qs) by (apply NoDup_snoc; assumption).
  pose proof (column_least n tt j L) as LP. fold phs in LP. destruct (tolerant n phs LP) as (sh & A & D & SUM).
  unfold single_qb. fold n phs qs. rewrite (sandwich o _ (fun Y => sh (restrict qs Y)) (cell tt (value ins X) j)).
  - set (Z := if tb X o then flip o X else X).
    assert (TZ : tb Z o = false) by (unfold Z; destruct (tb X o) eqn:T; [rewrite tb_flip, T, Nat.eqb_refl; reflexivity|exact T]).
    assert (VZ : value ins Z = value ins X) by (unfold Z; destruct (tb X o); [apply value_flip, NI|reflexivity]).
    f_equal. f_equal. pose proof (restrict_state qs Z) as SZ. rewrite LQ in SZ. specialize (D _ SZ). specialize (SUM _ SZ).
    assert (EF : N.lxor (restrict qs Z) (bit n) = restrict qs (flip o Z)) by (symmetry; apply restrict_snoc_flip, NI).
    rewrite EF in D, SUM. unfold phs, n, qs in D. rewrite !column_at in D by assumption. rewrite TZ, tb_flip, TZ, Nat.eqb_refl, value_flip, VZ in D by exact NI. cbn [xorb] in D.
    assert (S0 : phase_of (S n) phs (bit n) = b2q (cell tt 0 j)).
    { unfold phs. rewrite column_phase; [|exact L|apply state_bit; lia]. rewrite tb_bit, Nat.eqb_refl, N.lxor_nilpotent. reflexivity. }
    assert (S1 : phase_of (S n) phs 0%N = 0%Qc) by (unfold phs; rewrite column_phase; [|exact L|apply state_0]; rewrite tb_0; reflexivity).
    rewrite S0, S1 in SUM. fold qs in D.
    transitivity (((sh (restrict qs Z) + sh (restrict qs (flip o Z))) + (sh (restrict qs Z) - sh (restrict qs (flip o Z)))) * half)%Qc.
    + unfold half. field. discriminate.
    + rewrite SUM, D. ring.
  - intros Y phi _. apply (placed_diag qs _ (restrict qs Y)); [exact NQ|rewrite LQ; apply tolerant_gates, LP|apply restrict_read|apply A].
  - cbv zeta. set (Z := if tb X o then flip o X else X).
    assert (TZ : tb Z o = false) by (unfold Z; destruct (tb X o) eqn:T; [rewrite tb_flip, T, Nat.eqb_refl; reflexivity|exact T]).
    assert (VZ : value ins Z = value ins X) by (unfold Z; destruct (tb X o); [apply value_flip, NI|reflexivity]).
    pose proof (restrict_state qs Z) as SZ. rewrite LQ in SZ. specialize (D _ SZ). assert (EF : N.lxor (restrict qs Z) (bit n) = restrict qs (flip o Z)) by (symmetry; apply restrict_snoc_flip, NI).
    rewrite EF in D. unfold phs, n, qs in D. rewrite !column_at in D by assumption. rewrite TZ, tb_flip, TZ, Nat.eqb_refl, value_flip, VZ in D by exact NI. cbn [xorb] in D. fold qs in D.
    fold (b2q (cell tt (value ins X) j)). transitivity (sh (restrict qs Z) - (sh (restrict qs Z) - sh (restrict qs (flip o Z))))%Qc; [ring|]. rewrite D. ring.
Qed.
(** without tolerance *)
Lemma single_exact ins o tt j psi X : length tt = 2 ^ length ins -> NoDup ins -> ~ In o ins ->
  (forall b, b <= length ins -> least_pair (S (length ins)) (column_phases (length ins) tt j) b) ->
  run (single_qb ins o tt j false) psi X = psi (if cell tt (value ins X) j then flip o X else X).
Proof.
  intros L ND NI LP. set (n := length ins) in *. set (phs := column_phases n tt j) in *. set (qs := ins ++ [o]).
  assert (LQ : length qs = S n) by (unfold qs; rewrite app_length; cbn; unfold n; lia).
  assert (NQ : NoDup qs) by (apply NoDup_snoc; assumption).
  assert (LP' : forall b, b < S n -> least_pair (S n) phs b) by (intros b Hb; apply LP; lia).
  assert (S1 : phase_of (S n) phs 0%N = 0%Qc) by (unfold phs; rewrite column_phase; [|exact L|apply state_0]; rewrite tb_0; reflexivity).
  assert (PA : forall Y, phase_of (S n) phs (restrict qs Y) = if tb Y o then b2q (cell tt (value ins Y) j) else 0%Qc) by (intros Y; apply column_at; assumption).
  unfold single_qb. fold n phs qs. rewrite (sandwich o _ (fun Y => phase_of (S n) phs (restrict qs Y)) (cell tt (value ins X) j)).
  - set (Z := if tb X o then flip o X else X).
    assert (TZ : tb Z o = false) by (unfold Z; destruct (tb X o) eqn:T; [rewrite tb_flip, T, Nat.eqb_refl; reflexivity|exact T]).
    rewrite PA, TZ, exp_0. ring.
  - intros Y phi _. apply (placed_diag qs _ (restrict qs Y)); [exact NQ|rewrite LQ; apply gray_gates_ok, LP'|apply restrict_read|].
    rewrite (gray_correct (S n) phs LP'); [rewrite S1; f_equal; ring|]. rewrite <- LQ. apply restrict_state.
  - cbv zeta. set (Z := if tb X o then flip o X else X).
    assert (TZ : tb Z o = false) by (unfold Z; destruct (tb X o) eqn:T; [rewrite tb_flip, T, Nat.eqb_refl; reflexivity|exact T]).
    assert (VZ : value ins Z = value ins X) by (unfold Z; destruct (tb X o); [apply value_flip, NI|reflexivity]).
    rewrite !PA, TZ, tb_flip, TZ, Nat.eqb_refl, value_flip, VZ by exact NI. cbn [xorb]. unfold b2q. ring.
Qed.
(** ** several columns *)
Lemma value_bits ins outs : (forall o, In o outs -> ~ In o ins) -> forall bs X, value ins (add_bits outs bs X) = value ins X.
Proof.
  unfold add_bits. induction outs as [|o outs IH]; intros NI bs X; [reflexivity|]. destruct bs as [|b bs]; [reflexivity|]. cbn [combine fold_right fst snd].
  destruct b; [rewrite value_flip by (apply NI; left; reflexivity)|]; apply IH; intros; apply NI; right; assumption.
Qed.
Definition sum_bits (l : list bool) : Qc := fold_right (fun (b : bool) s => ((if b then 1 else 0) + s)%Qc) 0%Qc l.
Lemma columns (ins : list nat) (tt : table) (gate : nat -> nat -> list lgate) (e : nat -> nat -> Qc) :
  forall (outs : list nat) (a : nat) psi X, (forall o, In o outs -> ~ In o ins) ->
  (forall j o psi X, In o outs -> a <= j < a + length outs -> run (gate j o) psi X = cmul (cexpi (e (value ins X) j)) (psi (if cell tt (value ins X) j then flip o X else X))) ->
  run (flat_map (fun jo => gate (fst jo) (snd jo)) (combine (seq a (length outs)) outs)) psi X =
  cmul (cexpi (fold_right (fun j s => (e (value ins X) j + s)%Qc) 0%Qc (seq a (length outs)))) (psi (add_bits outs (map (cell tt (value ins X)) (seq a (length outs))) X)).
Proof.
  induction outs as [|o outs IH]; intros a psi X NI G.
  - cbn. rewrite exp_0. unfold add_bits. cbn. ring.
  - cbn [length seq combine flat_map fst snd map fold_right]. rewrite run_app. rewrite IH; [|intros; apply NI; right; assumption|intros j o' psi' X' Ho Hj; apply G; [right; exact Ho|cbn [length]; lia]].
    rewrite G by (try (left; reflexivity); cbn [length]; lia). rewrite value_bits by (intros; apply NI; right; assumption). rewrite exp_add.
    change (add_bits (o :: outs) (?b :: ?bs) X) with (if b then flip o (add_bits outs bs X) else add_bits outs bs X). destruct (cell tt (value ins X) a); ring.
Qed.
Lemma map_cell m tt i : i < length tt -> Forall (fun r => length r = m) tt -> map (cell tt i) (seq 0 m) = nth i tt [].
Proof.
  intros Hi F. assert (R : length (nth i tt []) = m) by (rewrite Forall_forall in F; apply F, nth_In, Hi). unfold cell. apply (nth_ext _ _ false false).
  - rewrite map_length, seq_length. symmetry. exact R.
  - intros k Hk. rewrite map_length, seq_length in Hk. rewrite (nth_indep _ false (nth 0 (nth i tt []) false)) by (rewrite map_length, seq_length; exact Hk).
    rewrite (map_nth (fun j => nth j (nth i tt []) false)), seq_nth by exact Hk. reflexivity.
Qed.
Lemma sum_halves (f g : nat -> bool) l : fold_right (fun j s => ((b2q (f j) - b2q (g j)) * half + s)%Qc) 0%Qc l = ((sum_bits (map f l) - sum_bits (map g l)) * half)%Qc.
Proof. induction l as [|j l IH]; cbn [fold_right map sum_bits]; [ring|]. rewrite IH. unfold sum_bits. cbn [fold_right]. unfold b2q. destruct (f j), (g j); ring. Qed.
Definition multi (outs : list nat) : Prop := length outs <> 1.
Lemma gray_multi ins outs tt tol : multi outs -> gray_logic_synth ins outs tt tol =
  flat_map (fun jo => single_qb ins (snd jo) tt (fst jo) true) (combine (seq 0 (length outs)) outs) ++
  if tol then [] else map (place ins) (gray_synth_qc (length ins) (residual_phases tt) false).
Proof. intros M. destruct outs as [|a [|b outs]]; [reflexivity|exfalso; apply M; reflexivity|reflexivity]. Qed.
Lemma parts (ins outs : list nat) : NoDup (ins ++ outs) -> NoDup ins /\ NoDup outs /\ forall o, In o outs -> ~ In o ins.
Proof.
  induction ins as [|a ins IH]; cbn [app]; intros H; [repeat split; [constructor|exact H|intros o _ []]|]. inversion H as [|? ? A B]; subst. destruct (IH B) as (X & Y & Z). split; [|split; [exact Y|]].
  - constructor; [|exact X]. intros C. apply A, in_or_app. left. exact C.
  - intros o Ho [->|C]; [|apply (Z o Ho C)]. apply A, in_or_app. right. exact Ho.
Qed.
Lemma pow_pos k : 0 < 2 ^ k.
Proof. pose proof (Nat.pow_nonzero 2 k). lia. Qed.
Lemma tolerant_columns ins outs tt psi X : table_of (length ins) (length outs) tt -> NoDup (ins ++ outs) ->
  run (flat_map (fun jo => single_qb ins (snd jo) tt (fst jo) true) (combine (seq 0 (length outs)) outs)) psi X =
  cmul (cexpi ((weight tt 0 - weight tt (value ins X)) * half)%Qc) (psi (looked_up tt ins outs X)).
Proof.
  intros (L & F) ND. destruct (parts ins outs ND) as (NI & NO & NIO).
  rewrite (columns ins tt (fun j o => single_qb ins o tt j true) (fun v j => ((b2q (cell tt 0 j) - b2q (cell tt v j)) * half)%Qc)).
  - rewrite sum_halves. rewrite !map_cell; try exact F; try (rewrite L; apply value_lt); try (rewrite L; apply pow_pos). reflexivity.
  - exact NIO.
  - intros j o phi Y Ho _. apply single_tolerant; auto.
Qed.
Lemma gray_pt_ok ins outs tt psi X : table_of (length ins) (length outs) tt -> NoDup (ins ++ outs) -> multi outs ->
  run (gray_logic_synth ins outs tt true) psi X = cmul (cexpi ((weight tt 0 - weight tt (value ins X)) * half)%Qc) (psi (looked_up tt ins outs X)).
Proof. intros T ND M. rewrite gray_multi, app_nil_r by exact M. apply tolerant_columns; assumption. Qed.
Lemma residual_at tt i m : i < length tt -> Forall (fun r => length r = m) tt -> nth i (residual_phases tt) 0%Qc = (weight tt i * half - fold_right (fun _ s => (half * half + s)%Qc) 0%Qc (repeat tt m))%Qc.
Proof.
  intros Hi F. unfold residual_phases. set (f := fun r : list bool => fold_right (fun (b : bool) s => (((if b then 1 else 0) - half) * half + s)%Qc) 0%Qc r).
  rewrite (nth_indep _ 0%Qc (f [])) by (rewrite map_length; exact Hi). rewrite map_nth. unfold weight. assert (R : length (nth i tt []) = m) by (rewrite Forall_forall in F; apply F, nth_In, Hi).
  set (r := nth i tt []) in *. clearbody r. clear Hi F. rewrite <- R. clear R m. unfold f. clear f. induction r as [|b r IH]; cbn [fold_right length repeat]; [ring|]. rewrite IH. destruct b; ring.
Qed.
Lemma gray_ok ins outs tt psi X : table_of (length ins) (length outs) tt -> NoDup (ins ++ outs) -> multi outs ->
  (forall b, b < length ins -> least_pair (length ins) (residual_phases tt) b) ->
  run (gray_logic_synth ins outs tt false) psi X =
  cmul (cexpi ((weight tt (value (rev ins) X) - weight tt (value ins X)) * half)%Qc) (psi (looked_up tt ins outs X)).
Proof.
  intros T ND M LP. rewrite gray_multi, run_app by exact M. destruct (parts ins outs ND) as (NI & NO & NIO). destruct T as (L & F).
  rewrite (placed_diag ins _ (restrict ins X) X _ (phase_of (length ins) (residual_phases tt) (restrict ins X) - phase_of (length ins) (residual_phases tt) 0%N)%Qc).
  - rewrite tolerant_columns by (try split; assumption). unfold phase_of. rewrite !index_be, be_value. rewrite <- (index_be (length ins) 0), index_0.
    assert (B : value (rev ins) X < length tt) by (rewrite L, <- (rev_length ins); apply value_lt).
    rewrite !(residual_at tt _ (length outs)) by (try exact F; try exact B; rewrite L; apply pow_pos).
    match goal with |- cmul (cexpi ?p) (cmul (cexpi ?q) ?z) = _ => transitivity (cmul (cexpi (p + q)%Qc) z); [rewrite exp_add; ring|] end. f_equal. f_equal. ring.
  - exact NI.
  - apply gray_gates_ok, LP.
  - apply restrict_read.
  - apply gray_correct; [exact LP|apply restrict_state].
Qed.
