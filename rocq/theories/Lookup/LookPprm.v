From Coq Require Import Reals Lia FinFun.
From Verif.Gray Require Import GraySpec GrayProofs GrayWalk GrayEmit GrayFinal GrayRange.
From Verif.CtrlOps Require Import CtrlSpec CtrlComplex.
From Verif.Lookup Require Import LookModel LookSpec LookProofs.
Local Open Scope nat_scope.
Add Ring cplx_ring : complex_ring.

Definition xsum (l : list bool) : bool := fold_right xorb false l.
Lemma xsum_app a b : xsum (a ++ b) = xorb (xsum a) (xsum b).
Proof. induction a as [|x a IH]; [symmetry; apply xorb_false_l|]. cbn [app xsum fold_right]. fold (xsum (a ++ b)) (xsum a). rewrite IH, xorb_assoc. reflexivity. Qed.
(** the monomial [m] is one on [x] *)
Fixpoint sub (n : nat) (m x : N) : bool := match n with O => true | S n => sub n m x && implb (tb m n) (tb x n) end.
Lemma sub_ext n m m' x : (forall k, k < n -> tb m k = tb m' k) -> sub n m x = sub n m' x.
Proof. induction n as [|n IH]; intros H; [reflexivity|]. cbn [sub]. rewrite IH, H by (intros; try apply H; lia). reflexivity. Qed.
Fixpoint agree (n i : nat) (x : N) : bool := match n with O => true | S n => agree n i x && eqb (Nat.testbit i n) (tb x n) end.
Lemma tb_lor a b k : tb (N.lor a b) k = tb a k || tb b k.
Proof. apply N.lor_spec. Qed.
Lemma minterm_low n i m : In m (minterm n i) -> gstate n m.
Proof.
  revert m. induction n as [|n IH]; intros m H; cbn [minterm] in H; [destruct H as [<-|[]]; reflexivity|].
  assert (A : forall m, In m (map (N.lor (bit n)) (minterm n i)) -> gstate (S n) m).
  { intros a Ha. apply in_map_iff in Ha. destruct Ha as (b & <- & Hb). apply IH in Hb. apply state_bits. intros k Hk. rewrite tb_lor, tb_bit, (proj1 (state_bits n b) Hb) by lia. destruct (Nat.eqb_spec n k); [lia|reflexivity]. }
  destruct (Nat.testbit i n); [apply A, H|]. apply in_app_or in H. destruct H as [H|H]; [apply A, H|]. apply (state_mono n); [lia|apply IH, H].
Qed.
Lemma minterm_sum n i x : xsum (map (fun m => sub n m x) (minterm n i)) = agree n i x.
Proof.
  induction n as [|n IH]; [reflexivity|]. cbn [minterm agree].
  assert (A : xsum (map (fun m => sub (S n) m x) (map (N.lor (bit n)) (minterm n i))) = agree n i x && tb x n).
  { rewrite <- IH. generalize (minterm n i) as l. clear IH. induction l as [|m l IHl]; [reflexivity|]. cbn [map xsum fold_right]. fold (xsum (map (fun m => sub (S n) m x) (map (N.lor (bit n)) l))) (xsum (map (fun m => sub n m x) l)).
    rewrite IHl. cbn [sub]. rewrite (sub_ext n (N.lor (bit n) m) m) by (intros k Hk; rewrite tb_lor, tb_bit; destruct (Nat.eqb_spec n k); [lia|reflexivity]).
    rewrite tb_lor, tb_bit, Nat.eqb_refl. cbn [orb implb]. destruct (sub n m x), (tb x n), (xsum (map (fun m0 : N => sub n m0 x) l)); reflexivity. }
  assert (B : xsum (map (fun m => sub (S n) m x) (minterm n i)) = agree n i x).
  { rewrite <- IH. f_equal. apply map_ext_in. intros m Hm. cbn [sub]. rewrite (proj1 (state_bits n m) (minterm_low n i m Hm) n) by lia. cbn [implb]. apply andb_true_r. }
  destruct (Nat.testbit i n); [rewrite A|rewrite map_app, xsum_app, A, B]; destruct (agree n i x), (tb x n); reflexivity.
Qed.
Lemma agree_iff n i x : agree n i x = true <-> forall k, k < n -> Nat.testbit i k = tb x k.
Proof.
  induction n as [|n IH]; cbn [agree]; [split; [lia|reflexivity]|]. rewrite andb_true_iff, IH, eqb_true_iff. split.
  - intros (A & B) k Hk. destruct (Nat.eq_dec k n) as [->|]; [exact B|apply A; lia].
  - intros H. split; [intros; apply H; lia|apply H; lia].
Qed.
Lemma testbit_small i n k : i < 2 ^ n -> n <= k -> Nat.testbit i k = false.
Proof. intros Hi Hk. rewrite Nat.testbit_eqb, Nat.div_small; [reflexivity|]. apply (Nat.lt_le_trans _ (2 ^ n)); [exact Hi|]. apply Nat.pow_le_mono_r; lia. Qed.
Lemma tb_of_nat i k : tb (N.of_nat i) k = Nat.testbit i k.
Proof. unfold tb. rewrite N.testbit_eqb, Nat.testbit_eqb. replace (2 ^ N.of_nat k)%N with (N.of_nat (2 ^ k)) by (rewrite bit_nat; reflexivity). change 2%N with (N.of_nat 2). rewrite <- Nat2N.inj_div, <- Nat2N.inj_mod.
  destruct (Nat.eqb_spec ((i / 2 ^ k) mod 2) 1) as [->|D]; [reflexivity|]. apply N.eqb_neq. intros E. apply D. change 1%N with (N.of_nat 1) in E. apply Nat2N.inj in E. exact E. Qed.
Lemma agree_eq n i v : i < 2 ^ n -> v < 2 ^ n -> agree n i (N.of_nat v) = (i =? v).
Proof.
  intros Hi Hv. apply eq_true_iff_eq. rewrite agree_iff, Nat.eqb_eq. split.
  - intros H. apply Nat.bits_inj. intros k. destruct (Nat.lt_ge_cases k n) as [Hk|Hk]; [rewrite H by exact Hk; apply tb_of_nat|rewrite !(testbit_small _ n) by assumption; reflexivity].
  - intros -> k Hk. symmetry. apply tb_of_nat.
Qed.
Lemma xsum_flat {A B} (f : B -> bool) (g : A -> list B) l : xsum (map f (flat_map g l)) = xsum (map (fun a => xsum (map f (g a))) l).
Proof. induction l as [|a l IH]; [reflexivity|]. cbn [flat_map map]. rewrite map_app, xsum_app, IH. reflexivity. Qed.
Lemma xsum_one (f : nat -> bool) v : forall m a, xsum (map (fun i => f i && (i =? v)) (seq a m)) = (a <=? v) && (v <? a + m) && f v.
Proof.
  induction m as [|m IH]; intros a; cbn [seq map xsum fold_right].
  - rewrite Nat.add_0_r. destruct (Nat.leb_spec a v), (Nat.ltb_spec v a); try reflexivity; lia.
  - fold (xsum (map (fun i => f i && (i =? v)) (seq (S a) m))). rewrite IH. destruct (Nat.eqb_spec a v) as [->|D].
    + destruct (Nat.leb_spec (S v) v); [lia|]. destruct (Nat.leb_spec v v); [|lia]. destruct (Nat.ltb_spec v (v + S m)); [|lia]. cbn. destruct (f v); reflexivity.
    + rewrite andb_false_r. destruct (Nat.leb_spec (S a) v), (Nat.leb_spec a v), (Nat.ltb_spec v (S a + m)), (Nat.ltb_spec v (a + S m)); cbn; destruct (f v); try reflexivity; lia.
Qed.
Lemma summands_value n tt j v : v < 2 ^ n -> xsum (map (fun m => sub n m (N.of_nat v)) (summands n tt j)) = cell tt v j.
Proof.
  intros Hv. unfold summands. rewrite xsum_flat. rewrite (map_ext_in _ (fun i => cell tt i j && (i =? v))).
  - rewrite (xsum_one (fun i => cell tt i j)). cbn [Nat.leb Nat.add andb]. apply Nat.ltb_lt in Hv. rewrite Hv. reflexivity.
  - intros i Hi. apply in_seq in Hi. destruct (cell tt i j); [|reflexivity]. rewrite minterm_sum, agree_eq by lia. reflexivity.
Qed.
(** terms that occur twice cancel *)
Lemma xsum_filter {A} (p g : A -> bool) U : xsum (map g (filter p U)) = xsum (map (fun m => p m && g m) U).
Proof. induction U as [|a U IH]; [reflexivity|]. cbn [filter]. destruct (p a) eqn:E; cbn [map xsum fold_right]; rewrite E; fold (xsum (map g (filter p U))) (xsum (map (fun m => p m && g m) U)); rewrite IH; cbn [andb]; [reflexivity|symmetry; apply xorb_false_l]. Qed.
Lemma xsum_point (g : N -> bool) a U : NoDup U -> In a U -> xsum (map (fun m => (if N.eq_dec a m then true else false) && g m) U) = g a.
Proof.
  assert (Z : forall V, ~ In a V -> xsum (map (fun m => (if N.eq_dec a m then true else false) && g m) V) = false).
  { induction V as [|b V IH]; intros NI; [reflexivity|]. cbn [map xsum fold_right]. fold (xsum (map (fun m => (if N.eq_dec a m then true else false) && g m) V)). rewrite IH by (intros C; apply NI; right; exact C). destruct (N.eq_dec a b) as [->|]; [exfalso; apply NI; left; reflexivity|reflexivity]. }
  intros ND. induction ND as [|b V NI ND IH]; intros H; [destruct H|]. cbn [map xsum fold_right]. fold (xsum (map (fun m => (if N.eq_dec a m then true else false) && g m) V)).
  destruct (N.eq_dec a b) as [->|D].
  - rewrite Z by exact NI. cbn [andb]. apply xorb_false_r.
  - destruct H as [H|H]; [congruence|]. rewrite IH by exact H. destruct (g a); reflexivity.
Qed.
Lemma xsum_xor {A} (f g : A -> bool) U : xsum (map (fun m => xorb (f m) (g m)) U) = xorb (xsum (map f U)) (xsum (map g U)).
Proof. induction U as [|a U IH]; [reflexivity|]. cbn [map xsum fold_right]. fold (xsum (map (fun m => xorb (f m) (g m)) U)) (xsum (map f U)) (xsum (map g U)). rewrite IH. destruct (f a), (g a), (xsum (map f U)), (xsum (map g U)); reflexivity. Qed.
Lemma xsum_count (g : N -> bool) U : NoDup U -> forall l, (forall m, In m l -> In m U) ->
  xsum (map g (filter (fun m => Nat.odd (count_occ N.eq_dec l m)) U)) = xsum (map g l).
Proof.
  intros ND. induction l as [|a l IH]; intros H; rewrite xsum_filter in *.
  - cbn [count_occ]. clear ND H. change (xsum (map g [])) with false. induction U as [|u U IHU]; [reflexivity|]. cbn [map xsum fold_right]. fold (xsum (map (fun m => Nat.odd 0 && g m) U)). rewrite IHU. reflexivity.
  - rewrite (map_ext _ (fun m => xorb ((if N.eq_dec a m then true else false) && g m) (Nat.odd (count_occ N.eq_dec l m) && g m))).
    + rewrite xsum_xor, xsum_point, IH; [reflexivity| |exact ND|apply H; left; reflexivity]. intros m Hm. apply H. right. exact Hm.
    + intros m. cbn [count_occ]. destruct (N.eq_dec a m); [rewrite Nat.odd_succ, <- Nat.negb_odd|]; destruct (Nat.odd (count_occ N.eq_dec l m)), (g m); reflexivity.
Qed.
Lemma poly_value n tt j v : v < 2 ^ n -> xsum (map (fun m => sub n m (N.of_nat v)) (synth_poly n tt j)) = cell tt v j.
Proof.
  intros Hv. unfold synth_poly. cbv zeta. rewrite xsum_count; [apply summands_value, Hv| |].
  - apply FinFun.Injective_map_NoDup; [intros a b E; apply Nat2N.inj, E|apply seq_NoDup].
  - intros m Hm. unfold summands in Hm. apply in_flat_map in Hm. destruct Hm as (i & _ & Hm). destruct (cell tt i j); [|destruct Hm]. apply minterm_low in Hm. unfold GraySpec.state in Hm. rewrite <- bit_nat in Hm.
    apply in_map_iff. exists (N.to_nat m). split; [apply N2Nat.id|]. apply in_seq. lia.
Qed.
(** ** the gates for a monomial *)
Lemma sub_qubits (ins : list nat) (m X : N) : forallb (tb X) (map (fun k => nth k ins 0) (filter (tb m) (seq 0 (length ins)))) = sub (length ins) m (restrict ins X).
Proof.
  assert (G : forall n, n <= length ins -> forallb (tb X) (map (fun k => nth k ins 0) (filter (tb m) (seq 0 n))) = sub n m (restrict ins X)); [|apply G; lia].
  induction n as [|n IH]; intros Hn; [reflexivity|]. rewrite seq_S, filter_app, map_app, forallb_app, IH by lia. cbn [sub Nat.add filter]. f_equal. rewrite <- restrict_read by lia. destruct (tb m n); cbn [map forallb implb]; [apply andb_true_r|reflexivity].
Qed.
Lemma number_full l : (number l =? 2 ^ length l - 1) = forallb (fun b => b) l.
Proof.
  induction l as [|b l IH]; [reflexivity|]. cbn [number length forallb]. rewrite <- IH, Nat.pow_succ_r'. pose proof (number_lt l). pose proof (pow_pos (length l)).
  destruct b; cbn [andb]; [|apply Nat.eqb_neq; lia]. apply eq_true_iff_eq. rewrite !Nat.eqb_eq. lia.
Qed.
Lemma forallb_id_map {A} (f : A -> bool) l : forallb (fun b => b) (map f l) = forallb f l.
Proof. induction l as [|a l IH]; [reflexivity|]. cbn. rewrite IH. reflexivity. Qed.
Lemma and_cell k v : v < 2 ^ k -> cell (and_table k) v 0 = (v =? 2 ^ k - 1).
Proof.
  intros Hv. unfold cell, and_table. destruct (Nat.eqb_spec v (2 ^ k - 1)) as [->|D].
  - rewrite app_nth2; rewrite repeat_length; [|lia]. rewrite Nat.sub_diag. reflexivity.
  - rewrite app_nth1 by (rewrite repeat_length; lia). assert (E : forall n w, nth 0 (nth w (repeat [false] n) []) false = false); [|apply E]. induction n as [|n IH]; intros [|w]; cbn; auto.
Qed.
Lemma and_length k : length (and_table k) = 2 ^ k.
Proof. unfold and_table. rewrite app_length, repeat_length. cbn. pose proof (pow_pos k). lia. Qed.
Lemma least_pair_ext n ph ph' b : b < n -> (forall x, gstate n x -> phase_of n ph x = phase_of n ph' x) -> least_pair n ph b -> least_pair n ph' b.
Proof.
  intros Hb E H. assert (C : forall q, coefficient n ph q = coefficient n ph' q).
  { intros q. rewrite !coefficient_bsum. apply bsum_ext. intros x Hx. f_equal. specialize (E x Hx). unfold phase_of in E. rewrite index_be in E. exact E. }
  intros p Hp D Min. apply H; [exact Hp|rewrite C; exact D|]. intros q Hq Dq. apply Min; [exact Hq|rewrite <- C; exact Dq].
Qed.
Lemma full_state n x : gstate n x -> (be n x =? 2 ^ n - 1) = (N.to_nat x =? 2 ^ n - 1).
Proof.
  intros Hx. pose proof (pow_pos n). assert (E : ones n = N.of_nat (2 ^ n - 1)).
  { unfold ones. rewrite N.ones_equiv. fold (bit n). rewrite <- bit_nat. lia. }
  apply eq_true_iff_eq. rewrite !Nat.eqb_eq. split; intros A.
  - assert (x = ones n) as ->; [|rewrite E; apply Nat2N.id]. apply (be_inj n); [exact Hx|apply ones_state|]. rewrite be_ones by lia. exact A.
  - assert (x = ones n) as ->; [|apply be_ones; lia]. rewrite E. apply N2Nat.inj. rewrite Nat2N.id. exact A.
Qed.
Lemma and_least k b : b <= k -> least_pair (S k) (column_phases k (and_table k) 0) b.
Proof.
  intros Hb. apply (least_pair_ext _ (repeat 0%Qc (2 ^ S k - 1) ++ [1%Qc])); [lia| |apply mcp_pairs]. intros x Hx. unfold column_phases. rewrite phase_reversed; [|apply (column_length k), and_length|exact Hx].
  unfold phase_of. rewrite index_be, nth_last_phase by apply be_lt. rewrite full_state by exact Hx.
  assert (B : N.to_nat x < 2 ^ S k) by (unfold GraySpec.state in Hx; rewrite <- bit_nat in Hx; lia). rewrite Nat.pow_succ_r' in *. pose proof (pow_pos k). rewrite and_length.
  destruct (Nat.lt_ge_cases (N.to_nat x) (2 ^ k)) as [L|L].
  - rewrite app_nth1 by (rewrite repeat_length; exact L). rewrite nth_repeat. destruct (Nat.eqb_spec (N.to_nat x) (2 * 2 ^ k - 1)); [lia|reflexivity].
  - rewrite app_nth2; rewrite repeat_length; [|exact L]. rewrite (nth_column k) by (try apply and_length; lia). rewrite and_cell by lia.
    destruct (Nat.eqb_spec (N.to_nat x - 2 ^ k) (2 ^ k - 1)), (Nat.eqb_spec (N.to_nat x) (2 * 2 ^ k - 1)); try reflexivity; lia.
Qed.
Lemma monomial_ok ins out tol m psi X : NoDup ins -> ~ In out ins ->
  run (monomial ins out tol m) psi X = psi (if sub (length ins) m (restrict ins X) then flip out X else X).
Proof.
  intros ND NI. rewrite <- sub_qubits. unfold monomial. set (qs := map _ (filter _ _)).
  assert (QI : forall q, In q qs -> In q ins).
  { intros q Hq. unfold qs in Hq. apply in_map_iff in Hq. destruct Hq as (k & <- & Hk). apply filter_In in Hk. destruct Hk as (Hk & _). apply in_seq in Hk. apply nth_In. lia. }
  assert (QN : NoDup qs).
  { unfold qs. clear QI qs. assert (NF : NoDup (filter (tb m) (seq 0 (length ins)))) by (apply NoDup_filter, seq_NoDup). assert (LF : forall k, In k (filter (tb m) (seq 0 (length ins))) -> k < length ins) by (intros k Hk; apply filter_In in Hk; destruct Hk as (Hk & _); apply in_seq in Hk; lia).
    induction NF as [|a l A NF IH]; [constructor|]. cbn [map]. constructor; [|apply IH; intros; apply LF; right; assumption].
    intros C. apply in_map_iff in C. destruct C as (b & E & Hb). apply A. replace a with b; [exact Hb|]. apply (proj1 (NoDup_nth ins 0) ND); [apply LF; right; exact Hb|apply LF; left; reflexivity|exact E]. }
  clearbody qs. destruct qs as [|q [|q' qs]]; [reflexivity|cbn; rewrite andb_true_r; reflexivity|]. destruct tol; [|reflexivity].
  set (l := q :: q' :: qs) in *. cbn [gray_logic_synth]. rewrite single_exact.
  - rewrite and_cell by apply value_lt. assert (E : (value l X =? 2 ^ length l - 1) = forallb (tb X) l); [|rewrite E; reflexivity].
    unfold value. rewrite <- (map_length (tb X) l), number_full. apply forallb_id_map.
  - apply and_length.
  - exact QN.
  - intros C. apply NI, QI, C.
  - intros b Hb. apply and_least, Hb.
Qed.
Lemma pprm_column ins out tt j tol psi X : NoDup ins -> ~ In out ins ->
  run (pprm_synth ins out tt j tol) psi X = psi (if cell tt (value ins X) j then flip out X else X).
Proof.
  intros ND NI. rewrite <- (poly_value (length ins)) by apply value_lt. fold (restrict ins X). unfold pprm_synth. generalize (synth_poly (length ins) tt j) as l. intros l. revert psi X. induction l as [|m l IH]; intros psi X; [reflexivity|].
  cbn [flat_map map xsum fold_right]. fold (xsum (map (fun m => sub (length ins) m (restrict ins X)) l)). rewrite run_app, IH, monomial_ok by assumption. f_equal.
  assert (E : forall Y, Y = X \/ Y = flip out X -> restrict ins Y = restrict ins X) by (intros Y [->| ->]; unfold restrict; [reflexivity|rewrite value_flip by exact NI; reflexivity]).
  destruct (xsum (map (fun m0 => sub (length ins) m0 (restrict ins X)) l)); rewrite ?(E (flip out X)) by auto; destruct (sub (length ins) m (restrict ins X)); cbn [xorb]; rewrite ?flip_flip; reflexivity.
Qed.
Theorem pprm_ok ins outs tt tol psi X : table_of (length ins) (length outs) tt -> NoDup (ins ++ outs) ->
  run (pprm ins outs tt tol) psi X = psi (looked_up tt ins outs X).
Proof.
  intros (L & F) ND. destruct (parts ins outs ND) as (NI & NO & NIO). unfold pprm.
  rewrite (columns ins tt (fun j o => pprm_synth ins o tt j tol) (fun _ _ => 0%Qc)).
  - rewrite map_cell by (try exact F; rewrite L; apply value_lt). assert (Z : forall l : list nat, fold_right (fun _ s => (0 + s)%Qc) 0%Qc l = 0%Qc) by (induction l as [|a l IH]; [reflexivity|cbn [fold_right]; rewrite IH; reflexivity]).
    rewrite Z, exp_0. unfold looked_up. ring.
  - exact NIO.
  - intros j o phi Y Ho _. rewrite pprm_column by auto. rewrite exp_0. ring.
Qed.
