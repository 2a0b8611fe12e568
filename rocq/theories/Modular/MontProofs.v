(** The Montgomery product with a number. *)
From Coq Require Import List ZArith Znumtheory Bool Arith Lia.
Import ListNotations.
From Verif.Inverse Require Import InvSpec InvProofs.
From Verif.CtrlOps Require Import CtrlSpec CtrlProofs.
From Verif.Fourier Require Import FourierSpec RegProofs.
From Verif.ModTools Require Import ModToolsModel ModToolsProofs.
From Verif.Modular Require Import ModModel ModSpec ViewProofs ModAddProofs ReduceProofs.
Local Open Scope Z_scope.

(** ** numbers *)
Lemma coprime_two N k : Z.odd N = true -> rel_prime N (two k).
Proof.
  intros O. induction k as [|k IH]; [apply rel_prime_sym, rel_prime_1|rewrite two_S; apply rel_prime_mult; [|exact IH]].
  apply rel_prime_sym, prime_rel_prime; [exact prime_2|]. intros [z E]. rewrite E, Z.odd_mul in O. cbn in O. rewrite andb_false_r in O. discriminate.
Qed.
Lemma two_cancel N k a b : Z.odd N = true -> 0 < N -> (a * two k) mod N = (b * two k) mod N -> a mod N = b mod N.
Proof.
  intros O P E. assert (D : (N | (a - b))).
  { apply Gauss with (two k); [|apply coprime_two, O]. replace (two k * (a - b)) with (a * two k - b * two k) by ring. 
    apply Z.mod_divide; [lia|]. rewrite Zminus_mod, E, Z.sub_diag. reflexivity. }
  destruct D as [z E']. replace a with (b + z * N) by lia. apply Z_mod_plus_full.
Qed.

Section cases.
Context (x : list bool) (qf : list nat) (N : Z) (m n : nat) (Rg : register qf x) (Len : length qf = (m + 1 + n)%nat)
        (Odd : Z.odd N = true) (HN : 0 < N <= two n) (Hn : (0 < n)%nat).
Lemma odd_b2 z : b2 (Z.odd z) = z mod 2. Proof. rewrite Zmod_odd. reflexivity. Qed.
(** the quotient fits *)
Lemma reduction_general t : 0 <= t < two (m + 1 + n) -> (forall H u, two m * H + u * N = t -> 0 <= u < two m -> H < two n) -> exists S u H w,
  execute (q_montgomery_reduction qf N m) (store x qf t) = store x qf (u + two (m + 1) * S) /\
  0 <= S < two n /\ 0 <= u < two (m + 1) /\ (S * two m) mod N = t mod N /\ (u * N) mod two (m + 1) = t mod two (m + 1) /\
  two m * H + w * N = t /\ 0 <= w < two m /\ S = H + if H <? 0 then N else 0.
Proof.
  intros Ht' Fit. pose proof (two_pos m) as Pm. pose proof (two_pos n) as Pn.
  destruct (reduction_run x qf N m n t Rg Len Odd (proj1 HN) Ht' Hn) as (H & u & T & U & E). cbv zeta in E.
  assert (HL : - N < H) by nia. assert (HU : H < two n) by (apply (Fit H u); auto).
  assert (Hov : overflow n (H mod two (n + 1)) = (H <? 0) /\ reduced N n (H mod two (n + 1)) = H + if H <? 0 then N else 0).
  { assert (O : overflow n (H mod two (n + 1)) = (H <? 0)).
    { unfold overflow. rewrite Nat.add_1_r, two_S. destruct (Z.ltb_spec H 0).
      - apply Z.leb_le. rewrite <- (Z.mod_unique H (2 * two n) (-1) (H + 2 * two n)) by lia. lia.
      - apply Z.leb_gt. rewrite Z.mod_small by lia. lia. }
    split; [exact O|]. unfold reduced. rewrite O. rewrite Nat.add_1_r, two_S.
    destruct (Z.ltb_spec H 0).
    - rewrite <- (Z.mod_unique H (2 * two n) (-1) (H + 2 * two n)) by lia. replace (H + 2 * two n + N) with (H + N + 2 * two n) by ring. rewrite Z.mod_add by lia. apply Z.mod_small. lia.
    - rewrite (Z.mod_small H) by lia. apply Z.mod_small. lia. }
  destruct Hov as [O Re]. rewrite O, Re in E. set (S := H + if H <? 0 then N else 0) in *.
  exists S, (u + two m * b2 (xorb (H <? 0) (Z.odd S))), H, u. split; [exact E|].
  assert (HS : 0 <= S < two n) by (unfold S; destruct (Z.ltb_spec H 0); lia).
  split; [exact HS|]. split; [rewrite Nat.add_1_r, two_S; destruct (xorb _ _); unfold b2; lia|]. split; [|split; [|split; [exact T|split; [exact U|reflexivity]]]].
  - rewrite <- T. unfold S. destruct (H <? 0).
    + replace ((H + N) * two m) with (two m * H + two m * N) by ring. rewrite Z_mod_plus_full, Z_mod_plus_full. reflexivity.
    + rewrite Z.add_0_r, Z_mod_plus_full. f_equal. ring.
  - rewrite <- T. set (b := xorb (H <? 0) (Z.odd S)). assert (Eb : exists k, b2 b * N = H + 2 * k).
    { assert (P : (b2 b * N) mod 2 = H mod 2).
      { rewrite <- Zmult_mod_idemp_r, <- (odd_b2 N), Odd. cbn [b2]. rewrite Z.mul_1_r. unfold b, S. rewrite <- (odd_b2 H).
        destruct (Z.ltb_spec H 0).
        - rewrite Z.odd_add, Odd. destruct (Z.odd H); reflexivity.
        - rewrite Z.add_0_r. destruct (Z.odd H); reflexivity. }
      exists ((b2 b * N - H) / 2). rewrite <- Z_div_exact_full_2; [ring|lia|]. rewrite Zminus_mod, P, Z.sub_diag. reflexivity. }
    destruct Eb as [k Ek]. replace ((u + two m * b2 b) * N) with (two m * H + u * N + k * two (m + 1)); [apply Z_mod_plus_full|].
    rewrite Nat.add_1_r, two_S. replace ((u + two m * b2 b) * N) with (u * N + two m * (b2 b * N)) by ring. rewrite Ek. ring.
Qed.
(** the number fits *)
Lemma reduction_fits t : 0 <= t < two (m + n) -> exists S u,
  execute (q_montgomery_reduction qf N m) (store x qf t) = store x qf (u + two (m + 1) * S) /\
  0 <= S < two n /\ 0 <= u < two (m + 1) /\ (S * two m) mod N = t mod N /\ (u * N) mod two (m + 1) = t mod two (m + 1) /\ (t < N * two m -> S < N).
Proof.
  intros Ht. pose proof (two_pos m) as Pm. pose proof (two_pos n) as Pn. rewrite two_add in Ht.
  destruct (reduction_general t) as (S & u & H & w & E & HS & U & C1 & C2 & T & W & ES).
  - rewrite !two_add. change (two 1) with 2. nia.
  - intros H u T U. nia.
  - exists S, u. split; [exact E|]. split; [exact HS|]. split; [exact U|]. split; [exact C1|]. split; [exact C2|].
    intros L. subst S. destruct (Z.ltb_spec H 0); [lia|]. assert (0 <= w * N) by (apply Z.mul_nonneg_nonneg; lia). apply (Z.mul_lt_mono_pos_l (two m)); lia.
Qed.
(** only the upper part is there *)
Definition twist (v : Z) : Z := reduced N n (2 * v).
Lemma reduction_upper v : 0 <= v < two n -> execute (q_montgomery_reduction qf N m) (store x qf (two (m + 1) * v)) = store x qf (two (m + 1) * twist v).
Proof.
  intros Hv. pose proof (two_pos m) as Pm. pose proof (two_pos n) as Pn.
  assert (Ht : 0 <= two (m + 1) * v < two (m + 1 + n)) by (rewrite (two_add (m + 1)); pose proof (two_pos (m + 1)); nia).
  destruct (reduction_run x qf N m n _ Rg Len Odd (proj1 HN) Ht Hn) as (H & u & T & U & E). cbv zeta in E.
  assert (Du : (two m | u)).
  { apply Gauss with N; [|apply rel_prime_sym, coprime_two, Odd]. exists (2 * v - H). rewrite Nat.add_1_r, two_S in T. lia. }
  assert (u = 0) by (destruct Du as [z ->]; assert (z < 1) by nia; assert (0 <= z) by nia; assert (z = 0) by lia; subst z; lia). subst u. assert (EH : H = 2 * v) by (rewrite Nat.add_1_r, two_S in T; nia). subst H.
  rewrite (Nat.add_1_r n), (two_S n), (Z.mod_small (2 * v)) in E by lia. fold (twist v) in E. rewrite E. clear E T. f_equal.
  assert (X : xorb (overflow n (2 * v)) (Z.odd (twist v)) = false); [|rewrite X; unfold b2; rewrite Nat.add_1_r, two_S; ring].
  unfold twist, reduced. set (o := overflow n (2 * v)). destruct n as [|k]; [lia|].
  assert (Q : b2 (Z.odd ((2 * v + (if o then N else 0)) mod two (S k))) = b2 o).
  { rewrite odd_b2, even_mod. rewrite Z.add_comm, (Z.mul_comm 2), Z_mod_plus_full. destruct o; [rewrite <- odd_b2, Odd|]; reflexivity. }
  clearbody o. destruct o; destruct (Z.odd (_ mod _)); cbv [b2 xorb] in *; try reflexivity; lia.
Qed.
End cases.
