(** Property theorems: C18 (labels of QuantumFloats), C19 (truncate), C20 (sizes of results). *)
From Coq Require Import ZArith QArith Qabs List Bool Lia.
From Verif.QFloat Require Import QFModel QFSpec QFProofs SbpProofs.
Import ListNotations.
Local Open Scope Z_scope.

(** * C18 *)
(** Encoding a representable number, given as an integer or a float, gives a basis state whose label is that number. *)
Theorem C18_roundtrip_partial : forall f i, (msize f <= 53)%nat -> representable f (value_of i) ->
  exists c, encoder f i = Some c /\ basis f c /\ (decoder f c == value_of i)%Q /\ (value f c == value_of i)%Q.
Proof.
  intros f i M (k & R & V). destruct (encoder_exact f i k M R V) as (c & E & B & K). exists c.
  assert (X : (value f c == value_of i)%Q) by (unfold value; rewrite K, V; reflexivity).
  split; [exact E|]. split; [exact B|]. split; [rewrite decoder_value by assumption|]; exact X.
Qed.
Print Assumptions C18_roundtrip_partial.
(** The labels are the numbers the basis states stand for, all of them representable, and different states have different labels. *)
Theorem C18_labels_partial : forall f c, (msize f <= 53)%nat -> basis f c ->
  (decoder f c == value f c)%Q /\ representable f (decoder f c) /\ forall d, basis f d -> (decoder f c == decoder f d)%Q -> c = d.
Proof.
  intros f c M B. pose proof (decoder_value f c M B) as D. split; [exact D|]. split.
  - exists (mantissa f c). split; [apply mantissa_range, B|exact D].
  - intros d B' H. apply (value_inj f); auto. rewrite <- D, <- (decoder_value f d M B'). exact H.
Qed.
Print Assumptions C18_labels_partial.
(** A number below the smallest or above the largest label is rejected. *)
Theorem C18_out_of_range_partial : forall f i, (msize f <= 53)%nat ->
  (forall c, basis f c -> (value_of i < value f c)%Q) \/ (forall c, basis f c -> (value f c < value_of i)%Q) -> encoder f i = None.
Proof.
  intros f i M H. apply encoder_out; [exact M|]. intros [A B].
  assert (X : forall k, in_range f k -> exists c, basis f c /\ (value f c == inject_Z k * pw (expo f))%Q).
  { intros k R. destruct (code_of f k R) as [Bc Mc]. eexists. split; [exact Bc|]. unfold value. rewrite Mc. reflexivity. }
  destruct (lo_hi_53 f M) as (_ & _ & Z0). destruct H as [H|H].
  - destruct (X (lo f)) as (c & Bc & V); [apply in_range_lo; lia|]. specialize (H c Bc). rewrite V in H. apply (Qlt_not_le _ _ H A).
  - destruct (X (hi f)) as (c & Bc & V); [apply in_range_lo; lia|]. specialize (H c Bc). rewrite V in H. apply (Qlt_not_le _ _ H B).
Qed.
Print Assumptions C18_out_of_range_partial.
(** A float in range but off the grid is not rejected: its fraction is cut off. *)
Theorem C18_off_grid : forall f q, (msize f <= 53)%nat -> in_bounds f q ->
  exists c, encoder f (Flt q) = Some c /\ basis f c /\ mantissa f c = qtrunc (q / pw (expo f)).
Proof. exact encoder_trunc. Qed.
Print Assumptions C18_off_grid.
Theorem C18_off_grid_refuted : exists f q c, ~ representable f q /\ encoder f (Flt q) = Some c.
Proof.
  exists (mk 3 0 false), (5 # 2)%Q, 2. split; [|vm_compute; reflexivity]. intros (k & _ & V). unfold Qeq in V. cbn in V. destruct k; cbn in V; lia.
Qed.
Print Assumptions C18_off_grid_refuted.
(** With more than 53 mantissa qubits, labels are rounded to float64: two states share a label, and a representable number is encoded as another one. *)
Theorem C18_large_refuted : exists f c d i, basis f c /\ basis f d /\ c <> d /\ decoder f c = decoder f d /\
  representable f (value_of i) /\ exists e, encoder f i = Some e /\ ~ (value f e == value_of i)%Q.
Proof.
  exists (mk 54 0 false), (2 ^ 53), (2 ^ 53 + 1), (Int (2 ^ 53 + 1)). split; [split; vm_compute; [discriminate|reflexivity]|]. split; [split; vm_compute; [discriminate|reflexivity]|].
  split; [discriminate|]. split; [vm_compute; reflexivity|]. split.
  - exists (2 ^ 53 + 1). split; [split; vm_compute; [discriminate|reflexivity]|]. vm_compute. reflexivity.
  - exists (2 ^ 53). split; [vm_compute; reflexivity|]. vm_compute. discriminate.
Qed.
Print Assumptions C18_large_refuted.
(** encode(x, rounding=True) chooses a state whose label is closest to x. *)
Theorem C18_rounding_partial : forall f x, (msize f <= 53)%nat ->
  exists c, encode_rounding f x = Some c /\ basis f c /\ forall c', basis f c' -> (Qabs (x - value f c) <= Qabs (x - value f c'))%Q.
Proof. exact encode_rounding_ok. Qed.
Print Assumptions C18_rounding_partial.

Example C18_ex : encoder (mk 2 (-1) true) (Flt (-2 # 1)) = Some 4 /\ (decoder (mk 2 (-1) true) 4 == -2)%Q /\ encoder (mk 2 (-1) true) (Int 2) = None /\ encoder (mk 2 0 false) (Int (-1)) = None /\ encoder (mk 3 60 true) (Int (- 5 * 2 ^ 60)) = Some 11.
Proof. vm_compute. repeat split. Qed.
Example C18_ex_rep : representable (mk 2 (-1) true) (value_of (Flt (-2 # 1))).
Proof. exists (-4). split; [split; vm_compute; [discriminate|reflexivity]|reflexivity]. Qed.
Example C18_ex_rounding : encode_rounding (mk 2 (-1) true) (37 # 100) = Some 1 /\ encode_rounding (mk 2 (-1) true) 100 = Some 3.
Proof. vm_compute. auto. Qed.

(** * C19 *)
Theorem C19_truncate_partial : forall f x, (msize f <= 53)%nat ->
  representable f (truncate f x) /\ forall v, representable f v -> (Qabs (x - truncate f x) <= Qabs (x - v))%Q.
Proof.
  intros f x M. split; [|intros v V; apply truncate_nearest; assumption]. destruct (truncate_value f x M) as [R T]. eexists. split; [exact R|exact T].
Qed.
Print Assumptions C19_truncate_partial.
(** Hence it can be encoded. *)
Theorem C19_encodes_partial : forall f x, (msize f <= 53)%nat -> exists c, encoder f (Flt (truncate f x)) = Some c /\ basis f c /\ (value f c == truncate f x)%Q.
Proof.
  intros f x M. destruct (C19_truncate_partial f x M) as [R _]. destruct (C18_roundtrip_partial f (Flt (truncate f x)) M R) as (c & E & B & _ & V). exists c. auto.
Qed.
Print Assumptions C19_encodes_partial.
(** With 54 mantissa qubits the result may not be representable: the largest label is rounded up. *)
Theorem C19_large_refuted : exists f x, ~ representable f (truncate f x).
Proof.
  exists (mk 54 0 false), (inject_Z (2 ^ 55)). intros (k & [_ H] & V). assert (E : k = 2 ^ 54) by (apply (mul_pw_inj _ _ 0); change (expo (mk 54 0 false)) with 0 in V; rewrite <- V; vm_compute; reflexivity).
  subst k. vm_compute in H. discriminate.
Qed.
Print Assumptions C19_large_refuted.
Example C19_ex : (truncate (mk 4 (-2) true) (157 # 50) == 13 # 4)%Q /\ (truncate (mk 4 (-2) true) (-100) == -4)%Q /\ (truncate (mk 3 0 false) (5 # 2) == 2)%Q.
Proof. vm_compute. repeat split. Qed.

(** * C20 *)
(** Adding, subtracting and multiplying two QuantumFloats of any shapes gives a register that holds the exact result. *)
Theorem C20_add : forall a b ca cb same, basis a ca -> basis b cb -> let (out, c) := sbp Add same a b ca cb in
  basis out c /\ (value out c == value a ca + value b cb)%Q.
Proof. exact sbp_add_ok. Qed.
Print Assumptions C20_add.
Theorem C20_sub : forall a b ca cb same, basis a ca -> basis b cb -> let (out, c) := sbp Sub same a b ca cb in
  basis out c /\ (value out c == value a ca - value b cb)%Q.
Proof. exact sbp_sub_ok. Qed.
Print Assumptions C20_sub.
Theorem C20_mul : forall a b ca cb, basis a ca -> basis b cb -> let (out, c) := sbp Mul false a b ca cb in
  basis out c /\ (value out c == value a ca * value b cb)%Q.
Proof. exact sbp_mul_ok. Qed.
Print Assumptions C20_mul.
Theorem C20_square : forall a ca, basis a ca -> let (out, c) := sbp Mul true a a ca ca in
  basis out c /\ (value out c == value a ca * value a ca)%Q.
Proof. exact sbp_square_ok. Qed.
Print Assumptions C20_square.
(** Multiplication by a non-zero integer is exact, except for the smallest number of a signed QuantumFloat times -2^s. *)
Theorem C20_mul_int_partial : forall f other c, basis f c -> other <> 0 ->
  ~ (signed f = true /\ mantissa f c = - 2 ^ Z.of_nat (msize f) /\ exists s, 0 <= s /\ other = - 2 ^ s) ->
  exists fuel, forall fuel', (fuel <= fuel')%nat -> exists out d, mul_int fuel' f other c = Some (out, d) /\ basis out d /\ (value out d == inject_Z other * value f c)%Q.
Proof.
  intros f other c B N Ex. destruct (mul_int_total f other c N) as [fuel H]. exists fuel. intros fuel' L. specialize (H fuel' L).
  destruct (mul_int fuel' f other c) as [[out d]|] eqn:E; [|contradiction]. exists out, d. split; [reflexivity|]. exact (mul_int_ok fuel' f other c out d B E Ex).
Qed.
Print Assumptions C20_mul_int_partial.
Theorem C20_mul_int_refuted : exists f c out d, basis f c /\ mul_int 5 f (-1) c = Some (out, d) /\ ~ (value out d == inject_Z (-1) * value f c)%Q.
Proof. exists (mk 2 0 true), 4. do 2 eexists. split; [split; vm_compute; [discriminate|reflexivity]|]. split; [vm_compute; reflexivity|]. vm_compute. discriminate. Qed.
Print Assumptions C20_mul_int_refuted.
(** Multiplication by zero never returns. *)
Theorem C20_mul_zero_refuted : forall fuel f c, mul_int fuel f 0 c = None.
Proof. intros fuel f c. unfold mul_int. rewrite odd_part_zero. reflexivity. Qed.
Print Assumptions C20_mul_zero_refuted.
(** Adding a number keeps the shape: exact if the sum is representable, an error if the number is off the grid, ... *)
Theorem C20_add_number_partial : forall f x c, basis f c -> representable f (value f c + x) -> exists d, add_num f x c = Some (f, d) /\ basis f d /\ (value f d == value f c + x)%Q.
Proof. exact add_num_ok. Qed.
Print Assumptions C20_add_number_partial.
Theorem C20_add_number_grid : forall f x c, (forall k, ~ (x == inject_Z k * pw (expo f))%Q) -> add_num f x c = None.
Proof. exact add_num_grid. Qed.
Print Assumptions C20_add_number_grid.
(** ... and wrong otherwise. *)
Theorem C20_add_number_refuted : exists f x c d, basis f c /\ add_num f x c = Some (f, d) /\ ~ (value f d == value f c + x)%Q.
Proof. exists (mk 2 0 false), 1%Q, 3. eexists. split; [split; vm_compute; [discriminate|reflexivity]|]. split; [vm_compute; reflexivity|]. vm_compute. discriminate. Qed.
Print Assumptions C20_add_number_refuted.
(** The entries of a safe matrix product hold every dot product, if the entries of at most one factor are signed, ... *)
Theorem C20_dot_partial : forall a b l, signed a && signed b = false -> l <> [] -> (forall p, In p l -> basis a (fst p) /\ basis b (snd p)) ->
  representable (dot_shape (length l) a b) (dotq a b l).
Proof. exact dot_ok. Qed.
Print Assumptions C20_dot_partial.
(** ... but not if both are. *)
Theorem C20_dot_refuted : exists a b l, (forall p, In p l -> basis a (fst p) /\ basis b (snd p)) /\ ~ representable (dot_shape (length l) a b) (dotq a b l).
Proof.
  exists (mk 1 0 true), (mk 1 0 true), [(2, 2); (2, 2)]. split.
  - intros p [<-|[<-|[]]]; (split; (split; vm_compute; [discriminate|reflexivity])).
  - intros (k & [_ H] & V). assert (E : k = 8). { apply (mul_pw_inj _ _ 0). change (expo (dot_shape (length [(2, 2); (2, 2)]) (mk 1 0 true) (mk 1 0 true))) with 0 in V. rewrite <- V. vm_compute. reflexivity. }
    subst k. vm_compute in H. discriminate.
Qed.
Print Assumptions C20_dot_refuted.
Example C20_ex_add : exists c, sbp Add false (mk 2 (-1) true) (mk 3 1 false) 4 7 = (mk 7 (-1) true, c) /\ (value (mk 7 (-1) true) c == 12)%Q.
Proof. eexists. vm_compute. split; reflexivity. Qed.
Example C20_ex_mul : exists c, sbp Mul false (mk 2 (-1) true) (mk 2 1 true) 4 4 = (mk 5 0 true, c) /\ (value (mk 5 0 true) c == 16)%Q.
Proof. eexists. vm_compute. split; reflexivity. Qed.
Example C20_ex_square : exists c, sbp Mul true (mk 2 (-1) true) (mk 2 (-1) true) 4 4 = (mk 5 (-2) false, c) /\ (value (mk 5 (-2) false) c == 4)%Q.
Proof. eexists. vm_compute. split; reflexivity. Qed.
Example C20_ex_int : exists out d, mul_int 6 (mk 2 0 true) 12 5 = Some (out, d) /\ (value out d == -36)%Q.
Proof. do 2 eexists. vm_compute. split; reflexivity. Qed.
