(** Ripple multiplication. *)
From Coq Require Import List ZArith Znumtheory Bool Arith Lia.
Import ListNotations.
From Verif.Inverse Require Import InvSpec InvProofs.
From Verif.CtrlOps Require Import CtrlSpec CtrlProofs.
From Verif.Fourier Require Import FourierSpec RegProofs.
From Verif.ModTools Require Import ModToolsModel ModToolsProofs.
From Verif.Modular Require Import ModModel ModSpec ViewProofs ModAddProofs ReduceProofs MontProofs MultiplyProofs InplaceProofs AddFinal QqProofs StaticModel.
Local Open Scope Z_scope.

(** ** complements *)
Lemma number_negb : forall l, number (map negb l) = two (length l) - 1 - number l.
Proof. induction l as [|b l IH]; [reflexivity|]. cbn [map number length]. rewrite IH, two_S. destruct b; cbn [negb]; ring. Qed.
Lemma flips_length s x : length (execute (map Flip s) x) = length x. Proof. apply execute_length. Qed.
Lemma flips_off : forall s x p, ~ In p s -> getbit (execute (map Flip s) x) p = getbit x p.
Proof.
  induction s as [|q s IH]; intros x p H; [reflexivity|]. cbn [map]. rewrite execute_cons, IH by (intros I; apply H; right; exact I). cbn [perform].
  apply getbit_set_other. intros ->. apply H. left. reflexivity.
Qed.
Lemma flips_read : forall s x, register s x -> read (execute (map Flip s) x) s = map negb (read x s).
Proof.
  induction s as [|q s IH]; intros x R; [reflexivity|]. destruct (register_cons _ _ _ R) as (N & R' & L). cbn [map]. rewrite execute_cons. cbn [perform read map].
  rewrite flips_off by exact N. rewrite getbit_set_same by exact L. f_equal. fold (read (execute (map Flip s) (setbit x q (negb (getbit x q)))) s).
  rewrite IH by (apply (register_length _ x); [rewrite setbit_length; reflexivity|exact R']). f_equal. apply map_ext_in. intros p I. apply getbit_set_other. intros ->. contradiction.
Qed.
Lemma flips_run s x : register s x -> execute (map Flip s) x = store x s (- value x s - 1).
Proof.
  intros R. symmetry. apply store_ext; [exact R|apply flips_length| |intros p H; apply flips_off, H].
  unfold value at 1. rewrite flips_read, number_negb, read_length by exact R. fold (value x s). pose proof (value_range x s).
  apply (Z.mod_unique _ _ (-1)); lia.
Qed.
Lemma cxs_run c : forall s x, ~ In c s -> execute (map (Cx c) s) x = if getbit x c then execute (map Flip s) x else x.
Proof.
  induction s as [|q s IH]; intros x H; [cbn; destruct (getbit x c); reflexivity|]. cbn [map]. rewrite !execute_cons. cbn [perform].
  rewrite IH by (intros I; apply H; right; exact I). rewrite getbit_set_other by (intros ->; apply H; left; reflexivity).
  destruct (getbit x c); [cbn [xorb]; reflexivity|]. rewrite xorb_false_l. apply setbit_get.
Qed.
Lemma store_set x s w q b : ~ In q s -> store (setbit x q b) s w = setbit (store x s w) q b.
Proof. intros H. unfold store. apply write_set, H. Qed.
Lemma value_firstn x qs k : value x (firstn k qs) = value x qs mod two k.
Proof.
  destruct (le_lt_dec k (length qs)) as [L|L].
  - rewrite <- (firstn_skipn k qs) at 2. rewrite value_app. rewrite firstn_length_le by exact L.
    pose proof (value_range x (firstn k qs)) as V. rewrite firstn_length_le in V by exact L. rewrite mod_low by exact V. reflexivity.
  - rewrite firstn_all2 by lia. symmetry. apply Z.mod_small. pose proof (value_range x qs). split; [lia|]. apply Z.lt_le_trans with (two (length qs)); [lia|].
    unfold two. apply Z.pow_le_mono_r; lia.
Qed.
Definition frame (f : bool) (w : Z) : Z := if f then w else - w - 1.
Lemma cong_store x s a b : (two (length s) | a - b) -> store x s a = store x s b.
Proof.
  intros [z E]. rewrite <- (store_mod x s a), <- (store_mod x s b). f_equal. replace a with (b + z * two (length s)) by lia. apply Z_mod_plus_full.
Qed.

Section loop.
Context (x : list bool) (f1 f2 s : list nat) (Rs : register s x) (R1 : register f1 x) (A1 : apart f1 s) (A2 : apart f2 s).
Let A := value x f1.
Let B := value x f2.
Let n1 := length f1.
Lemma at_s w : register s (store x s w). Proof. apply (register_length _ x); [rewrite store_length|]; auto. Qed.
Lemma shifted_add w i : perform (store x s w) (Add [] (Qu (firstn (length s - i) f2)) (skipn i s)) = store x s (w + two i * B).
Proof.
  cbn [perform forallb amount]. rewrite store_tail by apply at_s. rewrite store_store by apply (proj1 Rs). rewrite value_firstn.
  rewrite (value_store_off x s w f2) by exact A2. fold B. rewrite value_store by exact Rs.
  apply cong_store. set (L := length s). destruct (le_lt_dec i L) as [Hi|Hi].
  - replace (two L) with (two i * two (L - i)) by (rewrite <- two_add; f_equal; lia). pose proof (two_pos i). pose proof (two_pos (L - i)).
    exists (- (w / (two i * two (L - i))) - B / two (L - i)). rewrite (Z.div_mod w (two i * two (L - i))) at 2 by nia. rewrite (Z.div_mod B (two (L - i))) at 2 by lia. ring.
  - replace (L - i)%nat with 0%nat by lia. change (two 0) with 1. rewrite Z.mod_1_r. pose proof (two_pos L).
    exists (- (w / two L) - two (i - L) * B). rewrite (Z.div_mod w (two L)) at 2 by lia. replace (two i) with (two (i - L) * two L) by (rewrite <- two_add; f_equal; lia). ring.
Qed.
Lemma whole_add w : perform (store x s w) (Add [] (Qu f2) s) = store x s (w + B).
Proof.
  cbn [perform forallb amount]. rewrite (value_store_off x s w f2) by exact A2. fold B. rewrite value_store by exact Rs. rewrite store_store by apply (proj1 Rs).
  apply cong_store. exists (- (w / two (length s))). rewrite (Z.div_mod w (two (length s))) at 2 by (pose proof (two_pos (length s)); lia). ring.
Qed.
Lemma flips_st w : execute (map Flip s) (store x s w) = store x s (- w - 1).
Proof.
  rewrite flips_run by apply at_s. rewrite store_store by apply (proj1 Rs). rewrite value_store by exact Rs. apply cong_store.
  exists (w / two (length s)). rewrite (Z.div_mod w (two (length s))) at 2 by (pose proof (two_pos (length s)); lia). ring.
Qed.
Lemma f1_bit w i : (i < n1)%nat -> getbit (store x s w) (nth i f1 0%nat) = Z.testbit A (Z.of_nat i).
Proof. intros H. rewrite store_other by (apply A1, nth_In, H). apply value_bit; auto. Qed.
Lemma cxs_st w i : (i < n1)%nat -> execute (map (Cx (nth i f1 0%nat)) s) (store x s w) = store x s (if Z.testbit A (Z.of_nat i) then - w - 1 else w).
Proof. intros H. rewrite cxs_run by (apply A1, nth_In, H). rewrite f1_bit by exact H. destruct (Z.testbit A (Z.of_nat i)); [apply flips_st|reflexivity]. Qed.
Lemma turn_st w i : (i + 1 < n1)%nat ->
  execute ([Cx (nth i f1 0%nat) (nth (i + 1) f1 0%nat)] ++ map (Cx (nth (i + 1) f1 0%nat)) s ++ [Cx (nth i f1 0%nat) (nth (i + 1) f1 0%nat)]) (store x s w)
  = store x s (if xorb (Z.testbit A (Z.of_nat i)) (Z.testbit A (Z.of_nat (i + 1))) then - w - 1 else w).
Proof.
  intros H. set (p := nth i f1 0%nat). set (q := nth (i + 1) f1 0%nat). set (bp := Z.testbit A (Z.of_nat i)). set (bq := Z.testbit A (Z.of_nat (i + 1))).
  assert (Np : ~ In p s) by (apply A1, nth_In; lia). assert (Nq : ~ In q s) by (apply A1, nth_In; lia).
  assert (pq : p <> q). { intros E. apply NoDup_nth in E; [lia| | |]; [apply (proj1 R1)|lia|lia]. }
  assert (Lq : (q < length x)%nat) by (apply (proj2 R1), nth_In; lia).
  assert (Gp : forall w, getbit (store x s w) p = bp) by (intros; apply f1_bit; lia). assert (Gq : forall w, getbit (store x s w) q = bq) by (intros; apply f1_bit; lia).
  rewrite !execute_app. cbn [execute fold_left perform]. fold (execute (map (Cx q) s)). rewrite Gp, Gq.
  change (fold_left perform (map (Cx q) s) (setbit (store x s w) q (xorb bp bq))) with (execute (map (Cx q) s) (setbit (store x s w) q (xorb bp bq))).
  rewrite cxs_run by exact Nq. rewrite getbit_set_same by (rewrite store_length; exact Lq).
  assert (Fin : forall w', setbit (setbit (store x s w') q (xorb bp bq)) q (xorb bp (xorb bp bq)) = store x s w').
  { intros w'. rewrite setbit_twice. rewrite <- xorb_assoc, xorb_nilpotent, xorb_false_l. rewrite <- (Gq w'). apply setbit_get. }
  destruct (xorb bp bq) eqn:X.
  - rewrite <- store_set by exact Nq. rewrite flips_run by (apply (register_length _ x); [rewrite store_length, setbit_length|]; auto).
    assert (Rq : register s (setbit x q true)) by (apply (register_length _ x); [rewrite setbit_length|]; auto).
    rewrite store_store by apply (proj1 Rs). rewrite (value_store _ s w Rq), store_set by exact Nq.
    rewrite getbit_set_other by (intros E; apply pq; auto). rewrite getbit_set_same by (rewrite store_length; exact Lq). rewrite Gp, Fin.
    apply cong_store. exists (w / two (length s)). rewrite (Z.div_mod w (two (length s))) at 2 by (pose proof (two_pos (length s)); lia). ring.
  - rewrite getbit_set_other by (intros E; apply pq; auto). rewrite getbit_set_same by (rewrite store_length; exact Lq). rewrite Gp. apply Fin.
Qed.
Definition partial_sum (W0 : Z) (k : nat) : Z := W0 + (2 * (A mod two k) - two k + 1) * B.
Lemma partial_step W0 k : frame (Z.testbit A (Z.of_nat k)) (partial_sum W0 k) + two k * B = frame (Z.testbit A (Z.of_nat k)) (partial_sum W0 (S k)).
Proof. unfold partial_sum. rewrite (low_step A k), two_S. unfold frame. destruct (Z.testbit A (Z.of_nat k)); cbn [b2]; ring. Qed.
Lemma loop_run W0 : forall k, (k < n1)%nat -> execute (q_int_loop f1 f2 s k) (store x s (frame (Z.testbit A 0) W0)) = store x s (frame (Z.testbit A (Z.of_nat k)) (partial_sum W0 k)).
Proof.
  induction k as [|k IH]; intros H.
  - cbn [q_int_loop seq flat_map execute fold_left]. f_equal. f_equal. unfold partial_sum. change (two 0) with 1. rewrite Z.mod_1_r. ring.
  - unfold q_int_loop. rewrite seq_snoc, flat_map_app, execute_app. fold (q_int_loop f1 f2 s k). rewrite IH by lia. cbn [flat_map]. rewrite app_nil_r.
    unfold q_int_round. cbn [Nat.add]. destruct (Nat.eqb_spec k (length f1 - 1)) as [E|E]; [unfold n1 in *; lia|].
    rewrite execute_app. rewrite execute_cons. cbn [execute fold_left]. rewrite shifted_add, partial_step.
    change (fold_left perform ?p ?y) with (execute p y). rewrite turn_st by lia. f_equal. replace (k + 1)%nat with (S k) by lia.
    destruct (Z.testbit A (Z.of_nat k)), (Z.testbit A (Z.of_nat (S k))); unfold frame, xorb; ring.
Qed.
Context (Pos : (0 < length f1)%nat).
Lemma core_run W : execute (map Flip s ++ [Add [] (Qu f2) s] ++ map (Cx (nth 0 f1 0%nat)) s ++ q_int_loop f1 f2 s n1 ++ map (Cx (last f1 0%nat)) s ++ map Flip s) (store x s W)
  = store x s (W - two n1 * B + 2 * A * B).
Proof.
  rewrite !execute_app, flips_st. cbn [execute fold_left]. rewrite whole_add. change (fold_left perform ?p ?y) with (execute p y).
  rewrite cxs_st by exact Pos. change (Z.of_nat 0) with 0.
  replace (if Z.testbit A 0 then - (- W - 1 + B) - 1 else - W - 1 + B) with (frame (Z.testbit A 0) (W - B)) by (unfold frame; destruct (Z.testbit A 0); ring).
  assert (E : exists k, n1 = S k) by (exists (n1 - 1)%nat; unfold n1; lia). destruct E as [k E]. rewrite E.
  unfold q_int_loop. rewrite seq_snoc, flat_map_app, execute_app. fold (q_int_loop f1 f2 s k). rewrite loop_run by lia. cbn [flat_map]. rewrite app_nil_r.
  unfold q_int_round. destruct (Nat.eqb_spec k (length f1 - 1)) as [E'|E']; [|fold n1 in E'; lia]. rewrite app_nil_r. rewrite execute_cons. cbn [execute fold_left]. rewrite shifted_add, partial_step.
  change (fold_left perform ?p ?y) with (execute p y). replace (last f1 0%nat) with (nth k f1 0%nat).
  2:{ destruct (exists_last (l := f1)) as (l & q & EL); [intros ->; cbn in Pos; lia|]. subst f1. rewrite last_last. unfold n1 in E. rewrite app_length in E. cbn in E. replace k with (length l) by lia. apply nth_snoc. }
  rewrite cxs_st by lia. rewrite flips_st. f_equal. unfold partial_sum. rewrite <- E. rewrite (Z.mod_small A) by (apply value_range). unfold frame. destruct (Z.testbit A (Z.of_nat k)); ring.
Qed.
End loop.

Lemma combine_firstn_r {A B} : forall (a : list A) (b : list B), combine a b = combine a (firstn (length a) b).
Proof. induction a as [|c l IH]; intros [|v u]; cbn [combine firstn length]; auto. f_equal. apply IH. Qed.
(** the two factors in either order *)
Lemma longer_shorter f1 f2 x : value x (longer f1 f2) * value x (shorter f1 f2) = value x f1 * value x f2.
Proof. unfold longer, shorter. destruct (length f1 <? length f2)%nat; ring. Qed.
Lemma longer_in f1 f2 q : In q (longer f1 f2) \/ In q (shorter f1 f2) -> In q f1 \/ In q f2.
Proof. unfold longer, shorter. destruct (length f1 <? length f2)%nat; tauto. Qed.
Section multiply.
Context (x : list bool) (f1 f2 target : list nat) (low : nat).
Let s := low :: target.
Context (Rs : register s x) (R1 : register f1 x) (R2 : register f2 x) (A1 : apart f1 s) (A2 : apart f2 s) (P1 : (0 < length f1)%nat) (P2 : (0 < length f2)%nat) (Zl : getbit x low = false).
Let a := longer f1 f2.
Let b := shorter f1 f2.
Lemma a_reg : register a x. Proof. unfold a, longer. destruct (length f1 <? length f2)%nat; auto. Qed.
Lemma b_reg : register b x. Proof. unfold b, shorter. destruct (length f1 <? length f2)%nat; auto. Qed.
Lemma a_apart : apart a s. Proof. unfold a, longer. destruct (length f1 <? length f2)%nat; auto. Qed.
Lemma b_apart : apart b s. Proof. unfold b, shorter. destruct (length f1 <? length f2)%nat; auto. Qed.
Lemma a_pos : (0 < length a)%nat. Proof. unfold a, longer. destruct (length f1 <? length f2)%nat; auto. Qed.
Lemma target_reg : register target x. Proof. apply (register_cons _ _ _ Rs). Qed.
Lemma s_value : value x s = 2 * value x target.
Proof. unfold s. rewrite value_cons, Zl. ring. Qed.
Lemma s_store z : store x s (2 * z) = store x target z.
Proof.
  assert (R' : register ([low] ++ target ++ []) x) by (rewrite app_nil_r; exact Rs). symmetry. rewrite (store_part x [low] target [] z R'). rewrite app_nil_r. change ([low] ++ target) with s.
  rewrite value_one, Zl, value_nil. cbn [length]. change (two 1) with 2. rewrite <- (store_mod x s (2 * z)). f_equal. unfold s. cbn [length]. rewrite Z.mul_0_r, Z.add_0_r. assert (E : two (S (length target)) = 2 * two (length target)) by apply two_S. rewrite E, Z.mul_mod_distr_l by (pose proof (two_pos (length target)); lia). ring.
Qed.
Lemma q_int_run : (length a <= length target)%nat -> execute (q_int_mult f1 f2 true target low) x = store x target (value x target + value x f1 * value x f2).
Proof.
  intros Fit. unfold q_int_mult. fold a b s. rewrite execute_app. unfold q_int_start. rewrite execute_cons. cbn [execute fold_left].
  assert (E0 : x = store x s (value x s)) by (symmetry; apply store_value, (proj1 Rs)). rewrite E0 at 1.
  rewrite (shifted_add x a b s Rs b_apart). change (fold_left perform ?p ?y) with (execute p y).
  rewrite core_run; auto; [|apply a_reg|apply a_apart|apply b_apart|apply a_pos]. rewrite <- longer_shorter. fold a b. rewrite s_value.
  replace (2 * value x target + two (length a) * value x b - two (length a) * value x b + 2 * value x a * value x b) with (2 * (value x target + value x a * value x b)) by ring. apply s_store.
Qed.
Lemma q_int_new : length target = (length f1 + length f2)%nat -> value x target = 0 -> execute (q_int_mult f1 f2 false target low) x = store x target (value x f1 * value x f2).
Proof.
  intros Len Z0. assert (La : (length a + length b = length target)%nat) by (unfold a, b, longer, shorter; destruct (length f1 <? length f2)%nat; lia).
  unfold q_int_mult. fold a b s. rewrite execute_app. unfold q_int_start.
  assert (Ls : length s = S (length target)) by reflexivity.
  assert (E1 : execute (copy b (skipn (length a) s)) x = store x s (two (length a) * value x b)).
  { assert (Zs : forall q, In q s -> getbit x q = false) by (intros q [<-|I]; [exact Zl|apply (value_zero _ _ Z0 q I)]).
    set (u := skipn (length a) s). assert (Lu : length u = S (length b)) by (unfold u; rewrite skipn_length; lia).
    assert (Ru : register u x) by (split; [apply nodup_skipn, (proj1 Rs)|intros q I; apply (proj2 Rs); apply in_skipn in I; exact I]).
    assert (C : copy b u = copy b (firstn (length b) u)).
    { unfold copy. f_equal. apply combine_firstn_r. }
    assert (Eu : u = [] ++ firstn (length b) u ++ skipn (length b) u) by (cbn [app]; rewrite firstn_skipn; reflexivity).
    assert (Lf : length (firstn (length b) u) = length b) by (apply firstn_length_le; lia).
    assert (Zu : forall l, (forall q, In q l -> In q s) -> value x l = 0) by (intros l H; apply zero_value; intros q I; apply Zs, H, I).
    assert (Iu : forall q, In q u -> In q s) by (intros q I; apply in_skipn in I; exact I).
    rewrite C, copy_store; [| |split; [apply nodup_firstn, (proj1 Ru)|intros q I; apply (proj2 Ru); apply in_firstn in I; exact I]|intros q I J; apply (b_apart q I), Iu; apply in_firstn in J; exact J|intros q I; apply Zs, Iu; apply in_firstn in I; exact I].
    2:{ symmetry. exact Lf. }
    assert (Ru' : register ([] ++ firstn (length b) u ++ skipn (length b) u) x) by (rewrite <- Eu; exact Ru).
    rewrite (store_part x [] _ _ _ Ru'). rewrite <- Eu. rewrite Lf, value_nil. rewrite (Zu (skipn (length b) u)) by (intros q I; apply Iu; apply in_skipn in I; exact I).
    rewrite (Z.mod_small (value x b)) by apply value_range. cbn [length]. change (two 0) with 1. replace (0 + 1 * value x b + two (0 + length b) * 0) with (value x u + value x b) by (rewrite (Zu u Iu); ring).
    unfold u. rewrite store_tail by exact Rs. f_equal. rewrite s_value, Z0. ring. }
  rewrite E1. rewrite core_run; auto; [|apply a_reg|apply a_apart|apply b_apart|apply a_pos]. rewrite <- longer_shorter. fold a b.
  replace (two (length a) * value x b - two (length a) * value x b + 2 * value x a * value x b) with (2 * (value x a * value x b)) by ring. apply s_store.
Qed.
End multiply.
