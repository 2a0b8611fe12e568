(** Products outside tracing. *)
From Coq Require Import List ZArith Bool Arith Lia.
Import ListNotations.
From Verif.Inverse Require Import InvSpec InvProofs.
From Verif.CtrlOps Require Import CtrlSpec.
From Verif.Fourier Require Import FourierSpec RegProofs.
From Verif.ModTools Require Import ModToolsModel ModToolsProofs.
From Verif.Modular Require Import ModModel ModSpec ViewProofs MultiplyProofs InplaceProofs QqProofs ModFinal StaticModel StaticSpec RippleProofs QredcProofs StaticProofs.
Local Open Scope Z_scope.

(** ** C83: products of two registers outside tracing *)
(** ripple multiplication into a given register adds the product; the factors may be the same register *)
Theorem C83_ripple : forall x f1 f2 target low,
  register (low :: target) x -> register f1 x -> register f2 x -> apart f1 (low :: target) -> apart f2 (low :: target) -> (0 < length f1)%nat -> (0 < length f2)%nat ->
  (length f1 <= length target)%nat -> (length f2 <= length target)%nat -> getbit x low = false ->
  let p := q_int_mult f1 f2 true target low in
  execute p x = store x target (value x target + value x f1 * value x f2) /\
  execute (inverted p) x = store x target (value x target - value x f1 * value x f2).
Proof.
  intros x f1 f2 target low Rs R1 R2 A1 A2 P1 P2 L1 L2 Zl p. destruct (register_cons _ _ _ Rs) as (Nl & Rt & Ll).
  assert (Lo : (length (longer f1 f2) <= length target)%nat) by (unfold longer; destruct (length f1 <? length f2)%nat; auto).
  split; [apply q_int_run; auto|]. set (y := store x target (value x target - value x f1 * value x f2)). assert (Ly : length y = length x) by apply store_length.
  assert (T1 : forall q, In q f1 -> ~ In q target) by (intros q I J; apply (A1 q I); right; exact J). assert (T2 : forall q, In q f2 -> ~ In q target) by (intros q I J; apply (A2 q I); right; exact J).
  assert (E : execute p y = x).
  { unfold p. rewrite q_int_run; auto; try (apply (register_length _ x); auto; fail).
    - unfold y. rewrite value_store, store_store by (auto; apply (proj1 Rt)). rewrite !value_store_off by auto. apply store_same_value; [apply (proj1 Rt)|]. rewrite Zplus_mod_idemp_l.
      replace (value x target - value x f1 * value x f2 + value x f1 * value x f2) with (value x target) by ring. apply Z.mod_small, value_range.
    - unfold y. rewrite store_other; auto. }
  rewrite <- E at 1. apply inverted_undoes. apply q_int_valid; auto; apply (register_length _ x); auto.
Qed.
(** into a new register, whose size is the sum of the sizes: the product itself *)
Theorem C83_ripple_new : forall x f1 f2 target low,
  register (low :: target) x -> register f1 x -> register f2 x -> apart f1 (low :: target) -> apart f2 (low :: target) -> (0 < length f1)%nat -> (0 < length f2)%nat ->
  length target = (length f1 + length f2)%nat -> value x target = 0 -> getbit x low = false ->
  let y := execute (q_int_mult f1 f2 false target low) x in
  value y target = value x f1 * value x f2 /\ forall q, ~ In q target -> getbit y q = getbit x q.
Proof.
  intros x f1 f2 target low Rs R1 R2 A1 A2 P1 P2 L Zt Zl y. unfold y. rewrite q_int_new by auto. destruct (register_cons _ _ _ Rs) as (Nl & Rt & Ll). split.
  - rewrite value_store by exact Rt. apply Z.mod_small. rewrite L, two_add. pose proof (value_range x f1). pose proof (value_range x f2). split; [apply Z.mul_nonneg_nonneg; lia|]. apply Z.mul_lt_mono_nonneg; lia.
  - intros q H. apply store_other, H.
Qed.
(** multiplication of a register by an odd number in place, modulo 2^size; even numbers are refused *)
Theorem C83_inplace : forall x t k, register t x ->
  match inpl_q_int_mult t k with Some p => execute p x = store x t (k * value x t) | None => Z.even k = true end.
Proof.
  intros x t k R. unfold inpl_q_int_mult. destruct (Z.even k) eqn:E; [reflexivity|]. rewrite qc_mul_run by (auto; rewrite <- Z.negb_even, E; reflexivity). f_equal. ring.
Qed.
(** a * b for two QuantumModulus of an odd modulus and any Montgomery shifts: the new register holds a reduced number that stands for the
    product of the residues, and no other qubit changes. a and b may be the same *)
Theorem C83_product : forall a b t low x v w, let N := modulus a in let n := length (reg a) in let m := static_shift N n in let s := shift a + shift b - Z.of_nat m in
  3 <= N -> Z.odd N = true -> modulus b = N -> Z.of_nat n = smallest_power_of_two N -> length (reg b) = n -> length t = (m + n + 1)%nat ->
  register (low :: t) x -> apart (reg a ++ reg b) (low :: t) -> value x (low :: t) = 0 ->
  represents x (reg a) N (shift a) v -> represents x (reg b) N (shift b) w ->
  exists p out k, montgomery_mod_mul a b t low = Some (p, mkq out N s) /\ (forall q, In q out -> In q t) /\ NoDup out /\ length out = n /\
    execute p x = store x out k /\ represents (execute p x) out N s ((v * w) mod N).
Proof.
  intros a b t low x v w N n m s HN Odd Mb En Lb Lt Rs A Z0 (R1 & F1 & S1) (R2 & F2 & S2). destruct (static_bound N n HN En) as (Sh & Bd). fold m in Sh, Bd.
  destruct (three_parts t m n Lt) as (lo & mid & q & Et & Ll & Lm). subst t.
  destruct (register_cons _ _ _ Rs) as (Nl & Rt & _). rewrite value_cons in Z0. pose proof (value_range x (lo ++ mid ++ [q])) as Vr.
  assert (Zl : getbit x low = false) by (destruct (getbit x low); [lia|reflexivity]). rewrite Zl in Z0.
  assert (Np : (0 < n)%nat) by (destruct (Nat.eq_dec n 0) as [N0|N0]; [fold n in F1; rewrite N0 in F1; change (2 ^ Z.of_nat 0) with 1 in F1; lia|lia]).
  assert (K1 := proj1 S1). assert (K2 := proj1 S2).
  destruct (static_product x (reg a) (reg b) lo mid q low N) as (p & S & E & X & HS & C); auto; try lia; try (rewrite Lm; fold n; lia); try (fold n; lia).
  - intros r I. apply A. rewrite in_app_iff. auto.
  - intros r I. apply A. rewrite in_app_iff. auto.
  - rewrite Lm. unfold n. lia.
  - rewrite Ll. nia.
  - exists (q_int_mult (reg a) (reg b) true (lo ++ mid ++ [q]) low ++ p), mid, S. unfold montgomery_mod_mul. rewrite Mb. fold N. rewrite Z.eqb_refl. fold n m. rewrite Ll in E. rewrite E.
    assert (ES : qredc_S (lo ++ mid ++ [q]) m = mid) by (apply (S_is lo mid q m Ll)). rewrite ES. split; [reflexivity|]. assert (Rm : register mid x) by exact (rm x lo mid q Rt).
    split; [intros r I; rewrite !in_app_iff; auto|]. split; [apply (proj1 Rm)|]. split; [exact Lm|]. split; [exact X|]. rewrite X. split; [|split].
    + apply (register_length _ x); [rewrite store_length; reflexivity|exact Rm].
    + rewrite Lm. exact F1.
    + rewrite value_store by exact Rm. rewrite Lm, Z.mod_small by (unfold n; lia). rewrite Ll in C. rewrite <- (Z.mod_small S N) by exact HS. apply (product_means N (shift a) (shift b) (value x (reg a)) (value x (reg b)) v w m S); auto. lia.
Qed.
(** 20 * 20 over 21, which is wrong while tracing (C82_traced_refuted), squared in one register: 400 = 1 modulo 21 *)
Example C83_product_nonvacuous : let a := mkq (seq 0 5) 21 0 in let m := static_shift 21 5 in let x := store (repeat false 17) (seq 0 5) 20 in let t := seq 6 (m + 6) in
  m = 5%nat /\ Z.of_nat 5 = smallest_power_of_two 21 /\ register (5%nat :: t) x /\ value x (5%nat :: t) = 0 /\ represents x (reg a) 21 0 20 /\
  option_map (fun '(p, r) => (value (execute p x) (reg r), shift r, decoder r (value (execute p x) (reg r)))) (montgomery_mod_mul a a t 5%nat) = Some (2, -5, Some 1).
Proof.
  cbv zeta. split; [reflexivity|]. split; [reflexivity|]. split; [split; [apply (seq_NoDup 12 5)|intros q I; change (In q (seq 5 12)) in I; apply in_seq in I; cbn; lia]|]. split; [reflexivity|].
  split; [split; [split; [apply seq_NoDup|intros q I; apply in_seq in I; cbn; lia]|vm_compute; repeat split; congruence]|]. vm_compute. reflexivity.
Qed.
Example C83_ripple_nonvacuous : let x := store (store (store (repeat false 12) [0; 1; 2]%nat 5) [3; 4]%nat 3) [6; 7; 8; 9; 10]%nat 9 in
  value (execute (q_int_mult [3; 4]%nat [0; 1; 2]%nat true [6; 7; 8; 9; 10]%nat 5%nat) x) [6; 7; 8; 9; 10]%nat = 9 + 5 * 3.
Proof. reflexivity. Qed.
Print Assumptions C83_ripple.
Print Assumptions C83_ripple_new.
Print Assumptions C83_inplace.
Print Assumptions C83_product.

(** ** C84: products with a number outside tracing *)
Theorem C84_product : forall a b given out fresh permeable x v, let N := modulus a in let n := length (reg a) in
  3 <= N -> Z.odd N = true -> represents x (reg a) N (shift a) v -> length out = n -> register out x -> apart (reg a) out -> value x out = 0 ->
  workspace x (b mod N) N out (reg a) fresh ->
  exists p, montgomery_mod_semi_mul a b given out fresh permeable = Some (p, mkq out N (shift a)) /\
    execute p x = store x out ((b * value x (reg a)) mod N) /\ represents (execute p x) out N (shift a) ((b * v) mod N).
Proof.
  intros a b given out fresh permeable x v N n HN Odd (R & F & S) Lo Ro Ao Zo W.
  destruct (mul_on a b given out fresh permeable Odd) with (x := x) as (p & E & X); auto; [rewrite Lo; unfold n; fold N; lia|apply S|].
  exists p. split; [exact E|]. split; [exact X|]. rewrite X. split; [apply (register_length _ x); [rewrite store_length; reflexivity|exact Ro]|]. split; [rewrite Lo; exact F|].
  rewrite value_store by exact Ro. assert (P : 0 <= (b * value x (reg a)) mod N < N) by (apply Z.mod_pos_bound; lia). fold N. rewrite (Z.mod_small ((b * value x (reg a)) mod N)) by (rewrite Lo; unfold n; lia). apply stands_scale; [lia|exact S].
Qed.
(** in place, for every factor without a common divisor with the modulus, with or without a control *)
Theorem C84_inplace : forall a X ctrl tmp fresh fresh' x v, let N := modulus a in let n := length (reg a) in
  3 <= N -> Z.odd N = true -> Z.gcd X N = 1 -> represents x (reg a) N (shift a) v -> length tmp = n -> register (reg a ++ tmp ++ opt_control ctrl) x -> value x tmp = 0 ->
  workspace x (X mod N) N tmp (reg a ++ opt_control ctrl) fresh ->
  (forall X1, (X * X1) mod N = 1 -> 0 <= X1 < N -> workspace x X1 N (reg a) (tmp ++ opt_control ctrl) fresh') ->
  exists p k, semi_cl_inpl_mult a X ctrl tmp fresh fresh' = Some p /\ execute p x = store x (reg a) k /\
    represents (execute p x) (reg a) N (shift a) (if enabled x ctrl then (X * v) mod N else v).
Proof.
  intros a X ctrl tmp fresh fresh' x v N n HN Odd Cop (R & F & S) Lt Rg Zt W W'. assert (K := proj1 S).
  destruct (inplace_static x a X ctrl tmp fresh fresh') as (p & E & Ex); auto; [lia|].
  fold N in Ex. assert (P : 0 <= (X * value x (reg a)) mod N < N) by (apply Z.mod_pos_bound; lia).
  exists p, (if enabled x ctrl then (X * value x (reg a)) mod N else value x (reg a)). split; [exact E|]. rewrite Ex. destruct (enabled x ctrl).
  - split; [reflexivity|]. split; [apply (register_length _ x); [rewrite store_length; reflexivity|exact R]|]. split; [exact F|]. rewrite value_store by exact R.
    rewrite (Z.mod_small ((X * value x (reg a)) mod N)) by (unfold N in *; lia). apply stands_scale; [lia|exact S].
  - split; [symmetry; apply store_value, (proj1 R)|]. split; [exact R|]. split; [exact F|exact S].
Qed.
(** other factors are refused *)
Theorem C84_not_invertible : forall a X ctrl tmp fresh fresh', 2 <= modulus a -> Z.gcd X (modulus a) <> 1 -> semi_cl_inpl_mult a X ctrl tmp fresh fresh' = None.
Proof.
  intros a X ctrl tmp fresh fresh' HN G. unfold semi_cl_inpl_mult. set (N := modulus a) in *. assert (G' : Z.gcd (X mod N) N <> 1) by (rewrite Z.gcd_mod, Z.gcd_comm by lia; exact G).
  destruct (Z.eqb_spec (X mod N) 0) as [E0|E0]; [reflexivity|]. destruct (Z.eqb_spec (X mod N) 1) as [E1|E1]; [exfalso; apply G'; rewrite E1; apply Z.gcd_1_l|].
  pose proof (Z.mod_pos_bound X N). rewrite (proj2 (modinv_py_spec (X mod N) N ltac:(lia) ltac:(lia)) G'). destruct (montgomery_mod_semi_mul _ _ _ _ _ _) as [[f r]|]; reflexivity.
Qed.
(** 3 * 85 = 255 over the modulus 259, which the operator *= gets wrong (C81_imul_refuted), under a control that is on, and off *)
Definition room (m : nat) : list nat * nat := (seq 19 m, 31%nat).
Definition state (on : bool) : list bool := store (setbit (repeat false 32) 18 on) (seq 0 9) 85.
Example C84_inplace_nonvacuous : let a := mkq (seq 0 9) 259 0 in
  find_best_montgomery_shift 3 259 = Some 7%nat /\ modinv_py 3 259 = Some 173 /\ find_best_montgomery_shift 173 259 = Some 9%nat /\
  option_map (fun p => execute p (state true)) (semi_cl_inpl_mult a 3 (Some 18%nat) (seq 9 9) room room) = Some (store (state true) (seq 0 9) 255) /\
  option_map (fun p => execute p (state false)) (semi_cl_inpl_mult a 3 (Some 18%nat) (seq 9 9) room room) = Some (state false).
Proof. cbv zeta. repeat (split; [vm_compute; reflexivity|]). vm_compute. reflexivity. Qed.
Print Assumptions C84_product.
Print Assumptions C84_inplace.
Print Assumptions C84_not_invertible.
