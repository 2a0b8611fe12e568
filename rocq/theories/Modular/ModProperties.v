(** Modular arithmetic on quantum registers. *)
From Coq Require Import List ZArith Bool Lia.
Import ListNotations.
From Verif.Inverse Require Import InvSpec.
From Verif.CtrlOps Require Import CtrlSpec.
From Verif.Fourier Require Import FourierSpec RegProofs.
From Verif.ModTools Require Import ModToolsModel ModToolsProofs.
From Verif.Modular Require Import ModModel ModSpec ViewProofs AddFinal MulFinal QqProofs ModFinal.
Local Open Scope Z_scope.

(** ** C80: sums and differences *)
Theorem C80_adder : forall x a b N ctrl sign rnn,
  register (b ++ [sign; rnn]) x -> getbit x sign = false -> getbit x rnn = false -> 0 < N <= 2 ^ Z.of_nat (length b) -> value x b < N ->
  off_control ctrl (b ++ [sign; rnn]) -> fits x N (b ++ [sign; rnn]) a ->
  execute (mod_adder a b N ctrl sign rnn) x = store x b ((value x b + if enabled x ctrl then amount x a else 0) mod N) /\
  execute (inverted (mod_adder a b N ctrl sign rnn)) x = store x b ((value x b - if enabled x ctrl then amount x a else 0) mod N).
Proof. intros. split; [apply mod_adder_run|apply mod_adder_inverse]; assumption. Qed.
(** what a register stands for is what the decoder returns *)
Theorem C80_decoder : forall q k v, 2 <= modulus q -> good (modulus q) (shift q) -> 0 <= k ->
  stands_for (modulus q) (shift q) k v <-> decoder q k = Some v.
Proof.
  intros q k v HN G K. unfold decoder, stands_for. destruct (Z.leb_spec (modulus q) k) as [L|L]; [split; [lia|discriminate]|].
  destruct (Z.eq_dec (shift q) 0) as [Z0|Z0].
  - rewrite Z0. unfold new_mont_dec, pow2mod_py. cbn -[Z.modulo]. rewrite mont_enc_value by lia. rewrite Zmult_mod_idemp_r, !Z.mul_1_r, !(Z.mod_small k) by lia.
    split; [intros (_ & V & E); rewrite Z.mod_small in E by lia; congruence|intros E; injection E as <-; rewrite Z.mod_small by lia; auto].
  - destruct G as [?|G]; [lia|]. destruct (new_mont_dec_spec k (shift q) (modulus q) HN G) as (y & Ey & Y & Pos & Neg). rewrite Ey.
    destruct (Z.leb_spec 0 (shift q)) as [S|S].
    + specialize (Pos ltac:(lia)). split.
      * intros (_ & V & E). f_equal. rewrite E in Pos. rewrite <- (Z2Nat.id (shift q)) in Pos by lia. apply (MontProofs.two_cancel _ _ _ _ G) in Pos; [|lia]. rewrite !Z.mod_small in Pos by lia. exact Pos.
      * intros E. injection E as <-. auto.
    + specialize (Neg ltac:(lia)). split.
      * intros (_ & V & E). f_equal. rewrite (Z.mod_small v) in E by lia. congruence.
      * intros E. injection E as <-. split; [lia|]. split; [exact Y|]. rewrite (Z.mod_small y) by lia. symmetry. exact Neg.
Qed.
(** q += o *)
Theorem C80_iadd : forall q o sign rnn x v w, let N := modulus q in let away := reg q ++ [sign; rnn] in
  2 <= N -> good N (shift q) -> register away x -> getbit x sign = false -> getbit x rnn = false ->
  represents x (reg q) N (shift q) v -> operand_means x N (shift q) away o w ->
  exists p k, iadd q o sign rnn = Some p /\ execute p x = store x (reg q) k /\ stands_for N (shift q) k ((v + w) mod N).
Proof. intros q o sign rnn x v w. exact (iadd_run q o sign rnn x v w). Qed.
(** q -= o *)
Theorem C80_isub : forall q o sign rnn x v w, let N := modulus q in let away := reg q ++ [sign; rnn] in
  2 <= N -> good N (shift q) -> register away x -> getbit x sign = false -> getbit x rnn = false ->
  represents x (reg q) N (shift q) v -> operand_means x N (shift q) away o w -> same_shift q o = true ->
  exists p k, isub q o sign rnn = Some p /\ execute p x = store x (reg q) k /\ stands_for N (shift q) k ((v - w) mod N).
Proof. intros. apply isub_run; assumption. Qed.
(** q + o, q - o and o - q in a new register *)
Theorem C80_out_of_place : forall q o res sign rnn x v w, let N := modulus q in let away := res ++ [sign; rnn] in
  2 <= N -> good N (shift q) -> fresh away x -> apart (reg q) away -> length res = length (reg q) ->
  represents x (reg q) N (shift q) v -> operand_means x N (shift q) away o w -> same_shift q o = true ->
  (exists p k, add q o res sign rnn = Some (p, mkq res N (shift q)) /\ execute p x = store x res k /\ stands_for N (shift q) k ((v + w) mod N)) /\
  (exists p k, sub q o res sign rnn = Some (p, mkq res N (shift q)) /\ execute p x = store x res k /\ stands_for N (shift q) k ((v - w) mod N)) /\
  (exists p k, rsub q o res sign rnn = Some (p, mkq res N (shift q)) /\ execute p x = store x res k /\ stands_for N (shift q) k ((w - v) mod N)).
Proof.
  intros q o res sign rnn x v w N away HN G (Rg & Fr) A L HB Ho S. split; [|split].
  - apply add_run; assumption.
  - apply sub_run; assumption.
  - apply rsub_run; assumption.
Qed.
(** different shifts: an exception, never a wrong result *)
Theorem C80_shift_mismatch : forall q o res sign rnn, same_shift q o = false ->
  isub q o sign rnn = None /\ add q o res sign rnn = None /\ sub q o res sign rnn = None /\ rsub q o res sign rnn = None.
Proof.
  intros q o res sign rnn S. unfold isub, add, sub, rsub. rewrite S. destruct (normalize q o); auto.
Qed.
(** a QuantumFloat that holds a number of at least N: 4 + 7 modulo 5 gives 6 *)
Theorem C80_float_refuted : exists q qs sign rnn x p, modulus q = 5 /\ shift q = 0 /\ register (reg q ++ qs ++ [sign; rnn]) x /\
  represents x (reg q) 5 0 4 /\ value x qs = 7 /\ getbit x sign = false /\ getbit x rnn = false /\
  iadd q (Float qs) sign rnn = Some p /\ value (execute p x) (reg q) = 6 /\ decoder q 6 = None.
Proof.
  exists (mkq [0; 1; 2]%nat 5 0), [3; 4; 5]%nat, 6%nat, 7%nat, [false; false; true; true; true; true; false; false]. eexists.
  assert (R : register ([0; 1; 2] ++ [3; 4; 5] ++ [6; 7])%nat [false; false; true; true; true; true; false; false]).
  { split; [repeat constructor; cbn; intuition discriminate|]. intros q I. cbn in I. cbn. intuition lia. }
  split; [reflexivity|]. split; [reflexivity|]. split; [exact R|].
  split; [split; [exact (proj1 (register_app [0; 1; 2]%nat _ _ R))|vm_compute; repeat split; congruence]|].
  split; [reflexivity|]. split; [reflexivity|]. split; [reflexivity|]. split; [unfold iadd; reflexivity|]. split; vm_compute; reflexivity.
Qed.
Example C80_adder_nonvacuous : let x := [true; true; false; false; true; true; false; false; true] in
  let b := [0; 1; 2]%nat in register (b ++ [6; 7])%nat x /\ value x b = 3 /\ fits x 7 (b ++ [6; 7])%nat (Qu [3; 4; 5]%nat) /\ value x [3; 4; 5]%nat = 6 /\
  value (execute (mod_adder (Qu [3; 4; 5]%nat) b 7 (Some 8%nat) 6 7) x) b = 2 /\ enabled x (Some 8%nat) = true.
Proof.
  cbv zeta. split; [split; [repeat constructor; cbn; intuition discriminate|intros q I; cbn in I; cbn; intuition lia]|].
  split; [reflexivity|]. split; [|vm_compute; auto]. split; [|reflexivity]. intros q I J. cbn in I, J. intuition lia.
Qed.
(** shifts 1 and -2 over the modulus 7: 3 is held as 6, 5 as 3; the sum 1 is held as 2 *)
Example C80_iadd_nonvacuous : let q := mkq [0; 1; 2]%nat 7 1 in let p := mkq [3; 4; 5]%nat 7 (-2) in
  let x := [false; true; true; true; true; false; false; false] in
  represents x (reg q) 7 1 3 /\ represents x (reg p) 7 (-2) 5 /\ decoder q 6 = Some 3 /\ decoder p 3 = Some 5 /\
  option_map (fun r => value (execute r x) (reg q)) (iadd q (Mod p) 6 7) = Some 2 /\ decoder q 2 = Some 1.
Proof.
  cbv zeta. assert (R : forall a b c, (a < 8)%nat -> (b < 8)%nat -> (c < 8)%nat -> NoDup [a; b; c] -> register [a; b; c] [false; true; true; true; true; false; false; false]).
  { intros a b c A B C D. split; [exact D|]. intros q [<-|[<-|[<-|[]]]]; assumption. }
  split; [split; [apply R; try lia; repeat constructor; cbn; intuition discriminate|vm_compute; repeat split; congruence]|].
  split; [split; [apply R; try lia; repeat constructor; cbn; intuition discriminate|vm_compute; repeat split; congruence]|]. vm_compute. auto.
Qed.
Print Assumptions C80_adder.
Print Assumptions C80_decoder.
Print Assumptions C80_iadd.
Print Assumptions C80_isub.
Print Assumptions C80_out_of_place.
Print Assumptions C80_shift_mismatch.
Print Assumptions C80_float_refuted.

(** ** C81: classical factors *)
Theorem C81_product : forall x y aux res N X m, let n := length y in
  register (aux ++ res ++ y) x -> length aux = (m + 1)%nat -> length res = n -> Z.odd N = true -> 3 <= N <= 2 ^ Z.of_nat n -> 0 <= X ->
  value x aux = 0 -> value x res = 0 ->
  selected_sum x y (fun j => ((X * 2 ^ Z.of_nat m) mod N * 2 ^ Z.of_nat j) mod N) < N * 2 ^ Z.of_nat m \/ Z.of_nat n <= 2 ^ Z.of_nat m ->
  exists p, cq_montgomery_multiply X y N m false res aux = Some p /\ execute p x = store x res ((X * value x y) mod N).
Proof. intros x y aux res N X m n Rg La Lr Odd HN HX Za Zr [B|B]; [apply from_sum|apply from_size]; assumption. Qed.
(** q * X with an integer X: for every odd modulus, factor and residue *)
Theorem C81_mul : forall q X res aux x v, let N := modulus q in
  Z.odd N = true -> 3 <= N -> Z.of_nat (length (reg q)) = smallest_power_of_two N -> shift q = 0 -> 0 <= X ->
  length res = length (reg q) -> length aux = (mul_shift X N + 1)%nat -> register (aux ++ res ++ reg q) x -> value x aux = 0 -> value x res = 0 ->
  represents x (reg q) N 0 v ->
  exists p, mul q X res aux = Some (p, mkq res N 0) /\ execute p x = store x res ((X * v) mod N).
Proof.
  intros q X res aux x v N Odd HN En S0 HX Lr La Rg Za Zr (_ & Fit & K & V & E). destruct (smallest_power_spec N) as (P0 & P1 & P2).
  cbn in E. rewrite Z.mul_1_r, !Z.mod_small in E by lia.
  assert (H2 : 2 ^ Z.of_nat (length (reg q)) < 2 * N).
  { rewrite En. destruct (Z.eq_dec (smallest_power_of_two N) 0) as [Z0|Z0]; [rewrite Z0, Z.pow_0_r; lia|].
    destruct (Z_lt_le_dec (2 ^ smallest_power_of_two N) (2 * N)) as [L|L]; [exact L|]. assert (Dbl : 2 ^ smallest_power_of_two N = 2 * 2 ^ (smallest_power_of_two N - 1)) by (rewrite <- Z.pow_succ_r by lia; f_equal; lia).
    exfalso. assert (Q : N <= 2 ^ (smallest_power_of_two N - 1)) by lia. specialize (P2 (smallest_power_of_two N - 1) ltac:(lia) Q). lia. }
  destruct (product_run x (reg q) aux res N X Rg La Lr Odd (conj HN Fit) H2 HX Za Zr (proj2 K)) as (p & Ep & Hp).
  exists p. unfold mul. fold N. rewrite Ep. split; [reflexivity|]. rewrite Hp, E. reflexivity.
Qed.
(** in place, with or without a control *)
Theorem C81_inplace : forall x y tmp aux aux' N X m ctrl, let n := length y in
  register (y ++ tmp ++ aux ++ aux' ++ opt_control ctrl) x -> length tmp = n -> length aux = (m + 1)%nat -> length aux' = (m + 1)%nat ->
  Z.odd N = true -> 3 <= N <= 2 ^ Z.of_nat n -> value x tmp = 0 -> value x aux = 0 -> value x aux' = 0 -> 0 <= X -> Z.gcd X N = 1 -> value x y < N ->
  (Z.of_nat n <= 2 ^ Z.of_nat m \/
   forall X1, (X * X1) mod N = 1 -> 0 <= X1 < N ->
     selected_sum x y (fun j => ((X * 2 ^ Z.of_nat m) mod N * 2 ^ Z.of_nat j) mod N) < N * 2 ^ Z.of_nat m /\
     selected_sum (store x y ((X * value x y) mod N)) y (fun j => ((X1 * 2 ^ Z.of_nat m) mod N * 2 ^ Z.of_nat j) mod N) < N * 2 ^ Z.of_nat m) ->
  exists p, cq_montgomery_multiply_inplace X y N m false ctrl tmp aux aux' = Some p /\
    execute p x = if enabled x ctrl then store x y ((X * value x y) mod N) else x.
Proof.
  intros x y tmp aux aux' N X m ctrl n Rg Lt La La' Odd HN Zt Za Za' HX Cop HV B. apply inplace_run; auto. intros _ _ X1 P1 R1. destruct B as [B|B]; [|apply B; assumption].
  split; apply sum_by_size; auto; try lia; intros j; (match goal with |- 0 <= ?a mod N <= _ => pose proof (Z.mod_pos_bound a N); lia end).
Qed.
(** q *= X, if X is 1 or at least the number of qubits *)
Theorem C81_imul_partial : forall q X ctrl tmp aux aux' x v, let N := modulus q in let n := length (reg q) in let m := mul_shift X N in
  Z.odd N = true -> 3 <= N -> Z.of_nat n = smallest_power_of_two N -> shift q = 0 -> Z.gcd X N = 1 -> X = 1 \/ Z.of_nat n <= X ->
  length tmp = n -> length aux = (m + 1)%nat -> length aux' = (m + 1)%nat -> register (reg q ++ tmp ++ aux ++ aux' ++ opt_control ctrl) x ->
  value x tmp = 0 -> value x aux = 0 -> value x aux' = 0 -> represents x (reg q) N 0 v ->
  exists p, imul q X ctrl tmp aux aux' = Some p /\ execute p x = if enabled x ctrl then store x (reg q) ((X * v) mod N) else x.
Proof.
  intros q X ctrl tmp aux aux' x v N n m Odd HN En S0 Cop HX Lt La La' Rg Zt Za Za' (_ & Fit & K & V & E).
  cbn in E. rewrite Z.mul_1_r, !Z.mod_small in E by lia. rewrite <- E. unfold imul. fold N. fold m.
  assert (N2 : 2 <= N) by lia. destruct (Z.eq_dec X 1) as [X1|X1].
  - apply inplace_run; auto; try lia.
  - apply inplace_run; auto; try lia. intros _ _ X2 P2 R2. assert (B : Z.of_nat (length (reg q)) <= 2 ^ Z.of_nat m).
    { destruct (Z_lt_le_dec X N) as [L|L].
      - destruct (shift_small X N) as (S & _); [lia..|]. fold m in S. fold n. lia.
      - pose proof (shift_big X N L N2) as S. fold m in S. assert (Z.of_nat n <= N - 1); [|fold n; lia].
        apply bits_small; [|exact HN]. rewrite En. destruct (smallest_power_spec N) as (P0 & P1 & P3).
        destruct (Z.eq_dec (smallest_power_of_two N) 0) as [Z0|Z0]; [rewrite Z0, Z.pow_0_r; lia|].
        destruct (Z_lt_le_dec (2 ^ smallest_power_of_two N) (2 * N)) as [L2|L2]; [exact L2|]. assert (Dbl : 2 ^ smallest_power_of_two N = 2 * 2 ^ (smallest_power_of_two N - 1)) by (rewrite <- Z.pow_succ_r by lia; f_equal; lia).
    exfalso. assert (Q : N <= 2 ^ (smallest_power_of_two N - 1)) by lia. specialize (P3 (smallest_power_of_two N - 1) ltac:(lia) Q). lia. }
    split; apply sum_by_size; auto; try lia; intros j; (match goal with |- 0 <= ?a mod N <= _ => pose proof (Z.mod_pos_bound a N); lia end).
Qed.
Ltac layout := split; [repeat constructor; cbn; intuition discriminate|let q := fresh in let I := fresh in intros q I; cbn in I; cbn; intuition lia].
(** q *= 3 over the modulus 259: the Montgomery shift is chosen from the factor and is too small for the inverse direction: 85 becomes
    something else than 3 * 85 = 255, and the ancillas are not restored *)
Definition wide (y : Z) : list bool := store (repeat false 24) (seq 0 9) y.
Theorem C81_imul_refuted : exists q X tmp aux aux' x p, modulus q = 259 /\ shift q = 0 /\ Z.odd 259 = true /\ Z.gcd X 259 = 1 /\
  register (reg q ++ tmp ++ aux ++ aux') x /\ length tmp = length (reg q) /\ length aux = (mul_shift X 259 + 1)%nat /\ length aux' = (mul_shift X 259 + 1)%nat /\
  value x tmp = 0 /\ value x aux = 0 /\ value x aux' = 0 /\ value x (reg q) = 85 /\
  imul q X None tmp aux aux' = Some p /\ (X * 85) mod 259 = 255 /\ execute p x <> store x (reg q) 255 /\ value (execute p x) tmp <> 0.
Proof.
  exists (mkq (seq 0 9) 259 0), 3, (seq 9 9), (seq 18 3), (seq 21 3), (wide 85). eexists.
  assert (R : register (seq 0 24) (wide 85)) by (split; [apply seq_NoDup|intros q I; apply in_seq in I; unfold wide; rewrite store_length, repeat_length; lia]).
  split; [reflexivity|]. split; [reflexivity|]. split; [reflexivity|]. split; [reflexivity|]. split; [exact R|].
  split; [reflexivity|]. split; [reflexivity|]. split; [reflexivity|]. split; [reflexivity|]. split; [reflexivity|]. split; [reflexivity|]. split; [reflexivity|]. split; [vm_compute; reflexivity|].
  split; [reflexivity|]. split; vm_compute; discriminate.
Qed.
(** q * -1 over the modulus 5: 3 gives 7, not 2 *)
Theorem C81_negative_factor_refuted : exists q X res aux x p r, modulus q = 5 /\ shift q = 0 /\ X = -1 /\ represents x (reg q) 5 0 3 /\
  register (aux ++ res ++ reg q) x /\ length res = length (reg q) /\ length aux = (mul_shift X 5 + 1)%nat /\ value x aux = 0 /\ value x res = 0 /\
  mul q X res aux = Some (p, r) /\ (X * 3) mod 5 = 2 /\ value (execute p x) (reg r) = 7 /\ decoder r 7 = None.
Proof.
  exists (mkq [0; 1; 2]%nat 5 0), (-1), [3; 4; 5]%nat, [6]%nat, [true; true; false; false; false; false; false]. eexists _, _.
  split; [reflexivity|]. split; [reflexivity|]. split; [reflexivity|]. split; [split; [layout|vm_compute; repeat split; congruence]|]. split; [layout|].
  split; [reflexivity|]. split; [reflexivity|]. split; [reflexivity|]. split; [reflexivity|]. split; [vm_compute; reflexivity|]. vm_compute. auto.
Qed.
(** q * X for a QuantumModulus with a Montgomery shift: the shift is dropped, 3 * 2 decodes to 5 instead of 6 (modulus 7, shift 1: 3 is held as 6) *)
Theorem C81_mul_shift_refuted : exists q X res aux x p r, modulus q = 7 /\ shift q = 1 /\ represents x (reg q) 7 1 3 /\
  register (aux ++ res ++ reg q) x /\ length res = length (reg q) /\ length aux = (mul_shift X 7 + 1)%nat /\ value x aux = 0 /\ value x res = 0 /\
  mul q X res aux = Some (p, r) /\ X = 2 /\ decoder r (value (execute p x) (reg r)) = Some 5.
Proof.
  exists (mkq [0; 1; 2]%nat 7 1), 2, [3; 4; 5]%nat, [6; 7]%nat, [false; true; true; false; false; false; false; false]. eexists _, _.
  split; [reflexivity|]. split; [reflexivity|]. split; [split; [layout|vm_compute; repeat split; congruence]|]. split; [layout|].
  split; [reflexivity|]. split; [reflexivity|]. split; [reflexivity|]. split; [reflexivity|]. split; [vm_compute; reflexivity|]. vm_compute. auto.
Qed.
(** 5 * 6 = 4 modulo 13, controlled by a qubit that is on *)
Example C81_imul_nonvacuous : let q := mkq (seq 0 4) 13 0 in let x := store (repeat false 16 ++ [true]) (seq 0 4) 6 in
  mul_shift 5 13 = 3%nat /\ register (seq 0 17) x /\ Z.of_nat 4 = smallest_power_of_two 13 /\ represents x (reg q) 13 0 6 /\
  option_map (fun p => execute p x) (imul q 5 (Some 16%nat) (seq 4 4) (seq 8 4) (seq 12 4)) = Some (store x (seq 0 4) 4).
Proof.
  cbv zeta. split; [reflexivity|]. split; [split; [apply seq_NoDup|intros q I; apply in_seq in I; cbn; lia]|]. split; [reflexivity|]. split; [split; [layout|vm_compute; repeat split; congruence]|].
  vm_compute. reflexivity.
Qed.
(** the sum in the hypothesis of C81_mul can exceed the bound, and the product is still right: 2 * 511 mod 513 *)
Example C81_mul_nonvacuous : let q := mkq (seq 0 10) 513 0 in let x := store (repeat false 22) (seq 0 10) 511 in
  mul_shift 2 513 = 1%nat /\ 513 * 2 <= selected_sum x (reg q) (fun j => ((2 * 2) mod 513 * 2 ^ Z.of_nat j) mod 513) /\ Z.of_nat 10 = smallest_power_of_two 513 /\
  option_map (fun '(p, r) => execute p x) (mul q 2 (seq 10 10) (seq 20 2)) = Some (store x (seq 10 10) 509).
Proof. vm_compute. repeat split; discriminate. Qed.
Print Assumptions C81_product.
Print Assumptions C81_mul.
Print Assumptions C81_inplace.
Print Assumptions C81_imul_partial.
Print Assumptions C81_imul_refuted.
Print Assumptions C81_negative_factor_refuted.
Print Assumptions C81_mul_shift_refuted.

(** ** C82: products of two registers *)
Theorem C82_product : forall z x y res aux N m, let n := length res in let t := value z x * value z y in
  register (aux ++ res) z -> register (x ++ y) z -> apart (x ++ y) (aux ++ res) -> length aux = (m + 1)%nat -> (0 < n)%nat -> Z.odd N = true -> 0 < N <= 2 ^ Z.of_nat n ->
  value z aux = 0 -> value z res = 0 -> t < 2 ^ Z.of_nat (m + n) ->
  exists k, execute (qq_montgomery_multiply x y N m res aux) z = store z res k /\ 0 <= k < 2 ^ Z.of_nat n /\ (k * 2 ^ Z.of_nat m) mod N = t mod N /\
    (t < N * 2 ^ Z.of_nat m -> k < N).
Proof.
  intros z x y res aux N m n t Rg Rxy A La Hn Odd HN Za Zr Ht. apply qq_run; auto.
  - apply (register_app _ _ _ Rxy).
  - intros q I. apply A. rewrite in_app_iff. auto.
  - intros q I. apply A. rewrite in_app_iff. auto.
Qed.
(** p * q while tracing: the new register is congruent to the product; it is reduced if the product of the registers is below N * 2^m *)
Theorem C82_traced_partial : forall p q res aux z v w, let N := modulus p in let m := traced_shift N in let s := shift p + shift q - Z.of_nat m in
  modulus q = N -> 3 <= N -> Z.odd N = true -> Z.of_nat (length res) = smallest_power_of_two N -> length aux = (m + 1)%nat ->
  register (aux ++ res) z -> register (reg p ++ reg q) z -> apart (reg p ++ reg q) (aux ++ res) -> value z aux = 0 -> value z res = 0 ->
  stands_for N (shift p) (value z (reg p)) v -> stands_for N (shift q) (value z (reg q)) w ->
  exists prog k, mul_traced p q res aux = (prog, mkq res N s) /\ execute prog z = store z res k /\
    0 <= k < 2 ^ Z.of_nat (length res) /\ stands_for N s (k mod N) ((v * w) mod N) /\
    (value z (reg p) * value z (reg q) < N * 2 ^ Z.of_nat m -> stands_for N s k ((v * w) mod N)).
Proof.
  intros p q res aux z v w N m s Mq HN Odd En La Rg Rpq A Za Zr Sp Sq.
  destruct (traced_run p q res aux z v w) as (prog & k & E & X & K & S & B); auto.
  - apply (register_app _ _ _ Rpq).
  - intros r I. apply A. rewrite in_app_iff. auto.
  - intros r I. apply A. rewrite in_app_iff. auto.
  - exists prog, k. split; [exact E|]. split; [exact X|]. split; [exact K|]. split; [exact S|]. intros L. specialize (B L). fold N m s in S. rewrite (Z.mod_small k) in S by (unfold N in *; lia). exact S.
Qed.
(** 20 * 20 over the modulus 21 while tracing: the register holds 25, which is not a residue *)
Theorem C82_traced_refuted : exists p q res aux z prog r, modulus p = 21 /\ modulus q = 21 /\ shift p = 0 /\ shift q = 0 /\
  Z.of_nat (length res) = smallest_power_of_two 21 /\ length aux = (traced_shift 21 + 1)%nat /\ register (reg p ++ reg q ++ aux ++ res) z /\
  value z aux = 0 /\ value z res = 0 /\ represents z (reg p) 21 0 20 /\ represents z (reg q) 21 0 20 /\
  mul_traced p q res aux = (prog, r) /\ value (execute prog z) (reg r) = 25 /\ decoder r 25 = None.
Proof.
  exists (mkq (seq 0 5) 21 0), (mkq (seq 5 5) 21 0), (seq 15 5), (seq 10 5), (store (store (repeat false 20) (seq 0 5) 20) (seq 5 5) 20). eexists _, _.
  split; [reflexivity|]. split; [reflexivity|]. split; [reflexivity|]. split; [reflexivity|]. split; [reflexivity|]. split; [reflexivity|].
  split; [split; [apply (seq_NoDup 20 0)|intros q I; change (In q (seq 0 20)) in I; apply in_seq in I; cbn; lia]|].
  split; [reflexivity|]. split; [reflexivity|].
  split; [split; [layout|vm_compute; repeat split; congruence]|]. split; [split; [layout|vm_compute; repeat split; congruence]|].
  split; [reflexivity|]. vm_compute. auto.
Qed.
(** 17 * 19 over the modulus 21 (m = 4): 323 < 336, and 323 = 8 * 2^4 modulo 21 gives the shift -4 *)
Example C82_traced_nonvacuous : let z := store (store (repeat false 20) (seq 0 5) 17) (seq 5 5) 19 in let p := mkq (seq 0 5) 21 0 in let q := mkq (seq 5 5) 21 0 in
  let '(prog, r) := mul_traced p q (seq 15 5) (seq 10 5) in value z (reg p) * value z (reg q) < 21 * 2 ^ Z.of_nat (traced_shift 21) /\
  shift r = -4 /\ decoder r (value (execute prog z) (reg r)) = Some ((17 * 19) mod 21) /\ value (execute prog z) (seq 10 5) = 0.
Proof. vm_compute. auto. Qed.
Print Assumptions C82_product.
Print Assumptions C82_traced_partial.
Print Assumptions C82_traced_refuted.
