(** The Montgomery product of a number and a register. *)
From Coq Require Import List ZArith Znumtheory Bool Arith Lia.
Import ListNotations.
From Verif.Inverse Require Import InvSpec InvProofs.
From Verif.CtrlOps Require Import CtrlSpec CtrlProofs.
From Verif.Fourier Require Import FourierSpec RegProofs.
From Verif.ModTools Require Import ModToolsModel ModToolsProofs.
From Verif.Modular Require Import ModModel ModSpec ViewProofs ModAddProofs ReduceProofs MontProofs.
Local Open Scope Z_scope.

(** ** sums over the qubits of a register *)
Definition sumf (l : list nat) (g : nat -> Z) : Z := fold_right (fun j acc => g j + acc) 0 l.
Lemma sumf_app l l' g : sumf (l ++ l') g = sumf l g + sumf l' g.
Proof. induction l as [|a l IH]; cbn; [reflexivity|]. fold (sumf (l ++ l') g) (sumf l g). rewrite IH. lia. Qed.
Lemma sumf_rev l g : sumf (rev l) g = sumf l g.
Proof. induction l as [|a l IH]; [reflexivity|]. cbn [rev]. rewrite sumf_app, IH. unfold sumf at 2. cbn [fold_right]. change (sumf (a :: l) g) with (g a + sumf l g). lia. Qed.
Lemma sumf_ext l g g' : (forall j, In j l -> g j = g' j) -> sumf l g = sumf l g'.
Proof. induction l as [|a l IH]; intros H; [reflexivity|]. cbn. rewrite H by (left; auto). f_equal. apply IH. intros; apply H; right; auto. Qed.
Lemma sumf_map l h g : sumf (map h l) g = sumf l (fun j => g (h j)).
Proof. induction l as [|a l IH]; [reflexivity|]. cbn. f_equal. exact IH. Qed.
Lemma sumf_scale l g c : sumf l (fun j => g j * c) = sumf l g * c.
Proof. induction l as [|a l IH]; [reflexivity|]. cbn. fold (sumf l (fun j => g j * c)) (sumf l g). rewrite IH. ring. Qed.
Lemma sumf_cong l g g' M : (forall j, In j l -> g j mod M = g' j mod M) -> sumf l g mod M = sumf l g' mod M.
Proof.
  induction l as [|a l IH]; intros H; [reflexivity|]. cbn. fold (sumf l g) (sumf l g').
  rewrite Zplus_mod, H, IH, <- Zplus_mod; auto; [intros; apply H; right; auto|left; auto].
Qed.
Lemma sumf_range l g c : (forall j, In j l -> 0 <= g j <= c) -> 0 <= sumf l g <= Z.of_nat (length l) * c.
Proof.
  induction l as [|a l IH]; intros H; [cbn; lia|]. cbn [sumf fold_right length]. fold (sumf l g). pose proof (H a (or_introl eq_refl)).
  specialize (IH (fun j I => H j (or_intror I))). lia.
Qed.
Lemma countdown n : map (fun i => (n - i - 1)%nat) (seq 0 n) = rev (seq 0 n).
Proof.
  induction n as [|n IH]; [reflexivity|]. assert (E : rev (seq 0 (S n)) = n :: rev (seq 0 n)) by (rewrite seq_S, rev_app_distr; reflexivity). rewrite E, <- IH.
  cbn [seq map]. replace (S n - 0 - 1)%nat with n by lia. f_equal. rewrite <- seq_shift, map_map. apply map_ext. intros i. lia.
Qed.
Lemma flat_map_single {A B} (g : A -> B) l : flat_map (fun i => [g i]) l = map g l.
Proof. induction l as [|a l IH]; [reflexivity|]. cbn. rewrite IH. reflexivity. Qed.
Definition bit_sum (x : list bool) (y : list nat) (f : nat -> Z) (l : list nat) : Z := sumf l (fun j => if getbit x (nth j y 0%nat) then f j else 0).
Lemma selected_sumf x y f : selected_sum x y f = bit_sum x y f (seq 0 (length y)).
Proof. reflexivity. Qed.
Lemma value_sumf : forall y x, value x y = bit_sum x y (fun j => two j) (seq 0 (length y)).
Proof.
  induction y as [|q y IH]; intros x; [reflexivity|]. rewrite value_cons, IH. unfold bit_sum. cbn [length seq].
  set (g := fun j => if getbit x (nth j (q :: y) 0%nat) then two j else 0). change (sumf (0%nat :: seq 1 (length y)) g) with (g 0%nat + sumf (seq 1 (length y)) g). unfold g. cbv beta. rewrite <- seq_shift, sumf_map. cbn [nth].
  change (two 0) with 1. f_equal. rewrite Z.mul_comm, <- sumf_scale. apply sumf_ext. intros j _. rewrite two_S. destruct (getbit x (nth j y 0%nat)); lia.
Qed.
Lemma value_zero x y : value x y = 0 -> forall q, In q y -> getbit x q = false.
Proof.
  induction y as [|q y IH]; intros V p; [intros []|]. intros [<-|I]; rewrite value_cons in V; pose proof (value_range x y); destruct (getbit x q); try lia; auto; apply IH; auto; lia.
Qed.
Lemma zero_value x y : (forall q, In q y -> getbit x q = false) -> value x y = 0.
Proof. induction y as [|q y IH]; intros H; [reflexivity|]. rewrite value_cons, H, IH by (auto with datatypes). reflexivity. Qed.

(** ** adding numbers under the control of single qubits *)
Lemma add_each x y f T : register T x -> (forall q, In q y -> ~ In q T) -> forall l, (forall j, In j l -> (j < length y)%nat) ->
  execute (map (fun j => Add [nth j y 0%nat] (Cl (f j)) T) l) x = store x T (value x T + bit_sum x y f l).
Proof.
  intros R O l. revert x R. induction l as [|j l IH]; intros x R H.
  - cbn. rewrite Z.add_0_r. symmetry. apply store_value, (proj1 R).
  - cbn [map]. rewrite execute_cons. cbn [perform forallb amount]. rewrite andb_true_r. unfold bit_sum. cbn [sumf fold_right]. fold (sumf l (fun j => if getbit x (nth j y 0%nat) then f j else 0)). fold (bit_sum x y f l).
    assert (Hl : forall k, In k l -> (k < length y)%nat) by (intros; apply H; right; auto).
    destruct (getbit x (nth j y 0%nat)); [|rewrite IH by auto; f_equal; lia].
    set (x1 := store x T (value x T + f j)). rewrite IH; [|apply (register_length T x); [unfold x1; rewrite store_length; reflexivity|exact R]|exact Hl].
    unfold x1 at 1. rewrite store_store by apply (proj1 R). unfold x1 at 1. rewrite value_store by exact R.
    replace (bit_sum x1 y f l) with (bit_sum x y f l); [rewrite <- store_mod, Zplus_mod_idemp_l, store_mod; f_equal; lia|].
    apply sumf_ext. intros k Ik. unfold x1. rewrite store_other; [reflexivity|]. apply O, nth_In, Hl, Ik.
Qed.
Lemma sub_each x y f T : register T x -> (forall q, In q y -> ~ In q T) -> forall l, (forall j, In j l -> (j < length y)%nat) ->
  execute (map (fun j => Sub [nth j y 0%nat] (Cl (f j)) T) l) x = store x T (value x T - bit_sum x y f l).
Proof.
  intros R O l H. transitivity (execute (map (fun j => Add [nth j y 0%nat] (Cl ((fun j => - f j) j)) T) l) x).
  - clear. revert x. induction l as [|j l IH]; intros x; [reflexivity|]. cbn [map]. rewrite !execute_cons, sub_as_add. apply IH.
  - rewrite (add_each x y (fun j => - f j) T R O l H). f_equal. unfold Z.sub. f_equal. unfold bit_sum.
    replace (- sumf l (fun j => if getbit x (nth j y 0%nat) then f j else 0)) with (sumf l (fun j => if getbit x (nth j y 0%nat) then f j else 0) * -1) by ring.
    rewrite <- sumf_scale. apply sumf_ext. intros k _. destruct (getbit x (nth k y 0%nat)); lia.
Qed.

(** ** the product *)
Section multiply.
Context (x : list bool) (y aux res : list nat) (N X : Z) (m : nat) (mont : bool).
Let n := length res.
Context (Rg : register (aux ++ res ++ y) x) (La : length aux = (m + 1)%nat) (Odd : Z.odd N = true) (HN : 0 < N <= two n) (Hn : (0 < n)%nat)
        (Za : value x aux = 0).
Let T := aux ++ res.
Definition enc (X : Z) : Z := if mont then X else (X * two m) mod N.
Definition piece (j : nat) : Z := (enc X * two j) mod N.

Lemma RT : register T x. Proof. unfold T. rewrite app_assoc in Rg. apply (register_app _ _ _ Rg). Qed.
Lemma LT : length T = (m + 1 + n)%nat. Proof. unfold T. rewrite app_length, La. reflexivity. Qed.
Lemma y_off q : In q y -> ~ In q T.
Proof. intros I J. rewrite app_assoc in Rg. apply (proj2 (proj2 (register_app _ _ _ Rg)) q J I). Qed.
Lemma Raux : register aux x. Proof. apply (register_app _ _ _ RT). Qed.
Lemma Rres : register res x. Proof. apply (register_app _ _ _ RT). Qed.
Lemma value_T : value x T = two (m + 1) * value x res. Proof. unfold T. rewrite value_app, Za, La. ring. Qed.
Lemma store_T v : 0 <= v < two n -> store x T (two (m + 1) * v) = store x res v.
Proof.
  intros V. rewrite (store_part x aux res []) by (rewrite app_nil_r; apply RT). rewrite app_nil_r. fold T n. f_equal. rewrite Za, value_nil, La, Z.mod_small by exact V. ring.
Qed.
Lemma modulus_inverse : exists N1, modinv N (two m * 2) = Some N1 /\ (N * N1) mod two (m + 1) = 1.
Proof.
  assert (E2 : two m * 2 = two (m + 1)) by (rewrite Nat.add_1_r, two_S; ring). rewrite E2.
  assert (2 <= two (m + 1)) by (rewrite Nat.add_1_r, two_S; pose proof (two_pos m); lia).
  destruct (modinv_spec N (two (m + 1))) as (r & E & Rr & M); [lia|lia|apply Zgcd_1_rel_prime, coprime_two, Odd|].
  exists r. split; [exact E|]. exact M.
Qed.
Lemma multiply_shape : exists N1, (N * N1) mod two (m + 1) = 1 /\
  cq_montgomery_multiply X y N m mont res aux = Some (map (fun j => Add [nth j y 0%nat] (Cl (piece j)) T) (rev (seq 0 (length y)))
    ++ q_montgomery_reduction T N m ++ map (fun j => Sub [nth j y 0%nat] (Cl (piece j * N1)) aux) (rev (seq 0 (length y)))).
Proof.
  destruct modulus_inverse as (N1 & E & M). exists N1. split; [exact M|]. unfold cq_montgomery_multiply.
  assert (ER : Z.shiftl 1 (Z.of_nat m) = two m) by (rewrite Z.shiftl_mul_pow2 by lia; ring).
  assert (ER2 : Z.shiftl (Z.shiftl 1 (Z.of_nat m)) 1 = two m * 2) by (rewrite ER, Z.shiftl_mul_pow2 by lia; reflexivity).
  rewrite ER2, E, ER. cbv zeta. f_equal.
  assert (EX : (if mont then X else mont_enc X (two m) N) = enc X) by (unfold enc, mont_enc; destruct mont; [reflexivity|symmetry; apply Z.mul_mod; lia]).
  rewrite EX, <- !countdown, !map_map. cbn [inverted map rev app undo_step]. rewrite !flat_map_single.
  assert (EP : forall j, Z.shiftl (enc X) (Z.of_nat j) mod N = piece j) by (intros; unfold piece; rewrite Z.shiftl_mul_pow2 by lia; reflexivity).
  f_equal; [|f_equal]; apply map_ext; intros i; rewrite EP; reflexivity.
Qed.
Lemma rev_seq_lt j : In j (rev (seq 0 (length y))) -> (j < length y)%nat.
Proof. intros I. apply in_rev, in_seq in I. lia. Qed.
Definition pieces : Z := bit_sum x y piece (seq 0 (length y)).
Lemma pieces_rev f : bit_sum x y f (rev (seq 0 (length y))) = bit_sum x y f (seq 0 (length y)).
Proof. apply sumf_rev. Qed.
Lemma pieces_mod : pieces mod N = (enc X * value x y) mod N.
Proof.
  rewrite value_sumf, Z.mul_comm. unfold pieces, bit_sum. rewrite <- sumf_scale. apply sumf_cong. intros j _. unfold piece.
  destruct (getbit x (nth j y 0%nat)); [rewrite Z.mod_mod by lia; f_equal; ring|reflexivity].
Qed.
Lemma pieces_nonneg : 0 <= pieces.
Proof.
  apply (sumf_range _ _ N). intros j _. unfold piece. destruct (getbit _ _); [|lia]. pose proof (Z.mod_pos_bound (enc X * two j) N). lia.
Qed.

Lemma uncompute N1 z u S : (N * N1) mod two (m + 1) = 1 -> 0 <= S < two n -> 0 <= u < two (m + 1) -> (u * N) mod two (m + 1) = z mod two (m + 1) -> z = pieces ->
  execute (map (fun j => Sub [nth j y 0%nat] (Cl (piece j * N1)) aux) (rev (seq 0 (length y)))) (store x T (u + two (m + 1) * S)) = store x res S.
Proof.
  intros M HS U E Ez. set (w := u + two (m + 1) * S). set (s := store x T w).
  assert (Ls : length s = length x) by (unfold s; rewrite store_length; reflexivity).
  rewrite (sub_each s y (fun j => piece j * N1) aux); [|apply (register_length _ x); [auto|apply Raux]|intros q I J; apply (y_off q I); unfold T; apply in_or_app; auto|apply rev_seq_lt].
  assert (W : 0 <= w < two (length T)) by (rewrite LT, two_add; unfold w; pose proof (two_pos (m + 1)); nia).
  destruct (split_value w [] aux res x) as (_ & V2 & V3); [cbn [app]; apply RT|cbn [app]; exact W|]. cbn [app length Nat.add] in V2, V3. change (two 0) with 1 in V2. fold T in V2, V3. fold s in V2, V3.
  rewrite Z.div_1_r, La in V2. rewrite La in V3. unfold w in V2, V3. rewrite mod_low in V2 by exact U. rewrite div_low in V3 by exact U.
  assert (Eb : bit_sum s y (fun j => piece j * N1) (rev (seq 0 (length y))) = pieces * N1).
  { transitivity (bit_sum x y (fun j => piece j * N1) (rev (seq 0 (length y)))).
    - apply sumf_ext. intros j I. unfold s. rewrite store_other; [reflexivity|]. apply y_off, nth_In, rev_seq_lt, I.
    - rewrite pieces_rev. unfold pieces, bit_sum. rewrite <- sumf_scale. apply sumf_ext. intros j _. destruct (getbit x (nth j y 0%nat)); ring. }
  rewrite Eb, V2. rewrite (store_part s [] aux res) by (cbn [app]; apply (register_length _ x); [auto|apply RT]). cbn [app length Nat.add]. fold T.
  unfold s at 1. rewrite store_store by apply (proj1 RT). rewrite value_nil, La, V3.
  replace ((u - pieces * N1) mod two (m + 1)) with 0; [rewrite <- store_T by exact HS; f_equal; change (two 0) with 1; lia|].
  symmetry. rewrite Zminus_mod. replace (u mod two (m + 1)) with ((pieces * N1) mod two (m + 1)); [rewrite Z.sub_diag; reflexivity|].
  rewrite <- Ez, <- Zmult_mod_idemp_l, <- E, Zmult_mod_idemp_l. replace (u * N * N1) with (u * (N * N1)) by ring. rewrite <- Zmult_mod_idemp_r, M, Z.mul_1_r. reflexivity.
Qed.

(** an empty result register *)
Lemma multiply_fits : value x res = 0 -> pieces < N * two m -> exists p S, cq_montgomery_multiply X y N m mont res aux = Some p /\
  execute p x = store x res S /\ 0 <= S < N /\ (S * two m) mod N = (enc X * value x y) mod N.
Proof.
  intros Zr Hp. destruct multiply_shape as (N1 & M & E). eexists.
  assert (Ht : 0 <= pieces < two (m + n)) by (split; [apply pieces_nonneg|rewrite two_add; pose proof (two_pos m); nia]).
  destruct (reduction_fits x T N m n RT LT Odd HN Hn pieces Ht) as (S & u & ER & HS & U & C1 & C2 & C3). exists S. split; [exact E|]. split.
  - rewrite !execute_app. rewrite (add_each x y piece T RT); [|intros q I; apply y_off, I|apply rev_seq_lt].
    rewrite value_T, Zr, pieces_rev. fold pieces. rewrite Z.mul_0_r, Z.add_0_l. rewrite ER. apply (uncompute N1 pieces u S); auto.
  - split; [auto with zarith|]. rewrite C1. apply pieces_mod.
Qed.
(** the factor register is 0 *)
Lemma multiply_general : value x res = 0 -> pieces < two (m + 1 + n) -> (forall H u, two m * H + u * N = pieces -> 0 <= u < two m -> H < N) ->
  exists p S, cq_montgomery_multiply X y N m mont res aux = Some p /\
  execute p x = store x res S /\ 0 <= S < N /\ (S * two m) mod N = (enc X * value x y) mod N.
Proof.
  intros Zr Hp Fit. destruct multiply_shape as (N1 & M & E). eexists.
  assert (Ht : 0 <= pieces < two (m + 1 + n)) by (split; [apply pieces_nonneg|exact Hp]).
  destruct (reduction_general x T N m n RT LT Odd HN Hn pieces Ht) as (S & u & H & w & ER & HS & U & C1 & C2 & TH & W & ES).
  { intros H u TH U. specialize (Fit H u TH U). lia. }
  exists S. split; [exact E|]. split.
  - rewrite !execute_app. rewrite (add_each x y piece T RT); [|intros q I; apply y_off, I|apply rev_seq_lt].
    rewrite value_T, Zr, pieces_rev. fold pieces. rewrite Z.mul_0_r, Z.add_0_l. rewrite ER. apply (uncompute N1 pieces u S); auto.
  - split; [|rewrite C1; apply pieces_mod]. specialize (Fit H w TH W). destruct (Z.ltb_spec H 0); lia.
Qed.
Lemma multiply_upper : value x y = 0 -> exists p, cq_montgomery_multiply X y N m mont res aux = Some p /\
  execute p x = store x res (twist N n (value x res)).
Proof.
  intros Zy. destruct multiply_shape as (N1 & M & E). eexists. split; [exact E|].
  assert (P0 : forall f, bit_sum x y f (seq 0 (length y)) = 0).
  { intros f. unfold bit_sum. transitivity (sumf (seq 0 (length y)) (fun j => 0 * f j)).
    - apply sumf_ext. intros j I. rewrite (value_zero x y Zy) by (apply nth_In; apply in_seq in I; lia). ring.
    - clear. induction (seq 0 (length y)); cbn; auto. }
  rewrite !execute_app. rewrite (add_each x y piece T RT); [|intros q I; apply y_off, I|apply rev_seq_lt]. rewrite pieces_rev, P0, Z.add_0_r, value_T.
  pose proof (value_range x res) as VR. rewrite (reduction_upper x T N m n RT LT Odd HN Hn (value x res) VR).
  replace (two (m + 1) * twist N n (value x res)) with (0 + two (m + 1) * twist N n (value x res)) by ring.
  apply (uncompute N1 0 0); auto.
  - apply Z.mod_pos_bound, two_pos.
  - pose proof (two_pos (m + 1)). lia.
  - symmetry. apply P0.
Qed.
End multiply.
