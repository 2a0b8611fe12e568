(** Proofs about the modular helpers on BigIntegers. *)
From Verif.BigInt Require Import BigIntSpec BigIntModel BigIntLemmas BigIntArith BigIntBits BigIntDiv BigIntKnuth BigIntDivTop.
From Verif.ContFrac Require Import CFSpec CFModel CFProofs.
From Verif.BigMod Require Import BigModModel.
From Coq Require Import ZArith List Lia Znumtheory.
Import ListNotations.
Local Open Scope Z_scope.

Definition small (x : Z) : Prop := x <= 2 ^ 32 - 4.

Lemma div_exact2 u v : wf u -> wf v -> length u = length v -> 0 < value v ->
  value v < 2 ^ 32 \/ small (value u / value v) ->
  exists r q, floordiv u v = Some q /\ modulo u v = Some r /\ wf r /\ wf q /\ length r = length u /\ length q = length u /\
    value q = value u / value v /\ value r = value u mod value v.
Proof.
  intros Hu Hv Hl Hp Hd.
  assert (exists r q, remainder_division u v = Some (r, q) /\ wf r /\ wf q /\ length r = length u /\ length q = length u /\
    value q = value u / value v /\ value r = value u mod value v) as (r & q & E & R).
  { destruct Hd as [Hd|Hd]; [apply div_single; auto|apply div_small_quotient; auto]. }
  exists r, q. unfold floordiv, modulo. rewrite E. cbn. tauto.
Qed.

Lemma mul_exact x y n : wf x -> wf y -> length x = n -> length y = n -> value x * value y < cap n ->
  wf (mul x y) /\ length (mul x y) = n /\ value (mul x y) = value x * value y.
Proof.
  intros Hx Hy Lx Ly H. split; [apply mul_wf; congruence|]. split; [rewrite mul_length; congruence|].
  rewrite mul_value by congruence. rewrite Lx. apply Z.mod_small.
  pose proof (value_bound _ Hx). pose proof (value_bound _ Hy). split; [apply Z.mul_nonneg_nonneg; lia|exact H].
Qed.
Lemma sub_exact x y n : wf x -> wf y -> length x = n -> length y = n -> value y <= value x ->
  wf (sub x y) /\ length (sub x y) = n /\ value (sub x y) = value x - value y.
Proof.
  intros Hx Hy Lx Ly H. split; [apply sub_wf; assumption|]. split; [rewrite sub_length; congruence|].
  rewrite sub_value by congruence. apply Z.mod_small.
  pose proof (value_bound _ Hx). pose proof (value_bound _ Hy). lia.
Qed.
Lemma add_exact x y n : wf x -> wf y -> length x = n -> length y = n -> value x + value y < cap n ->
  wf (add x y) /\ length (add x y) = n /\ value (add x y) = value x + value y.
Proof.
  intros Hx Hy Lx Ly H. split; [apply add_wf; assumption|]. split; [rewrite add_length; congruence|].
  rewrite add_value by congruence. rewrite Lx. apply Z.mod_small.
  pose proof (value_bound _ Hx). pose proof (value_bound _ Hy). lia.
Qed.

(** one Euclid step: r - (r // nr) * nr *)
Lemma euclid_step r nr q n : wf r -> wf nr -> wf q -> length r = n -> length nr = n -> length q = n ->
  0 < value nr -> value q = value r / value nr ->
  wf (sub r (mul q nr)) /\ length (sub r (mul q nr)) = n /\ value (sub r (mul q nr)) = value r mod value nr.
Proof.
  intros Wr Wn Wq Lr Ln Lq Hp Hq.
  pose proof (value_bound _ Wr) as Br. rewrite Lr in Br.
  pose proof (Z.div_mod (value r) (value nr) ltac:(lia)) as E. pose proof (Z.mod_pos_bound (value r) (value nr) Hp) as M.
  destruct (mul_exact q nr n Wq Wn Lq Ln) as (A1 & A2 & A3). { rewrite Hq. lia. }
  destruct (sub_exact r (mul q nr) n Wr A1 Lr A2) as (B1 & B2 & B3). { rewrite A3, Hq. lia. }
  split; [exact B1|]. split; [exact B2|]. rewrite B3, A3, Hq. lia.
Qed.

(** ** Modular inverse *)
Lemma modinv_step A M C n rv nv m t nt r nr :
  wf m -> wf t -> wf nt -> wf r -> wf nr ->
  length m = n -> length t = n -> length nt = n -> length r = n -> length nr = n ->
  value m = M -> value r = rv -> value nr = nv -> 2 <= M -> 0 < nv ->
  C * C = cap n -> M < C -> rv < C -> nv < C ->
  nv < 2 ^ 32 \/ small (rv / nv) -> M < 2 ^ 32 \/ small (rv / nv) ->
  0 <= value t < M -> 0 <= value nt < M ->
  (M | value t * A - rv) -> (M | value nt * A - nv) ->
  exists q x tu, floordiv r nr = Some q /\ modulo (mul q nt) m = Some x /\ modulo (sub (add t m) x) m = Some tu /\
    wf tu /\ length tu = n /\ 0 <= value tu < M /\ (M | value tu * A - rv mod nv) /\
    wf (sub r (mul q nr)) /\ length (sub r (mul q nr)) = n /\ value (sub r (mul q nr)) = rv mod nv.
Proof.
  intros Wm Wt Wnt Wr Wnr Lm Lt Lnt Lr Lnr Em Er Enr HM Hp HC CM Cr Cn S1 S2 Ht Hnt D1 D2.
  pose proof (value_bound _ Wr) as Br.
  destruct (div_exact2 r nr Wr Wnr ltac:(congruence)) as (rr & q & E1 & _ & _ & Wq & _ & Lq & Vq & _).
  { lia. } { rewrite Er, Enr. exact S1. }
  rewrite Er, Enr in Vq.
  assert (Q0 : 0 <= rv / nv) by (apply Z.div_pos; lia).
  assert (Q1 : rv / nv <= rv).
  { apply Z.div_le_upper_bound; [lia|]. rewrite <- (Z.mul_1_l rv) at 1. apply Z.mul_le_mono_nonneg_r; lia. }
  destruct (mul_exact q nt n Wq Wnt ltac:(congruence) Lnt) as (A1 & A2 & A3).
  { rewrite Vq, <- HC. apply Z.le_lt_trans with (C * value nt).
    - apply Z.mul_le_mono_nonneg_r; lia.
    - apply Z.mul_lt_mono_pos_l; lia. }
  destruct (div_exact2 (mul q nt) m A1 Wm ltac:(congruence)) as (x & q2 & _ & E2 & Wx & _ & Lx & _ & _ & Vx).
  { lia. }
  { rewrite Em. destruct S2 as [S2|S2]; [now left|right]. unfold small in *.
    apply Z.le_trans with (rv / nv); [|exact S2]. rewrite A3, Vq. apply Z.div_le_upper_bound; [lia|].
    rewrite (Z.mul_comm M). apply Z.mul_le_mono_nonneg_l; lia. }
  rewrite Em, A3, Vq in Vx. pose proof (Z.mod_pos_bound (rv / nv * value nt) M ltac:(lia)) as Bx. rewrite <- Vx in Bx.
  destruct (add_exact t m n Wt Wm Lt Lm) as (B1 & B2 & B3).
  { rewrite <- HC, Em. apply Z.lt_le_trans with (2 * C); [lia|]. apply Z.mul_le_mono_nonneg_r; lia. }
  destruct (sub_exact (add t m) x n B1 Wx B2 ltac:(congruence)) as (F1 & F2 & F3). { lia. }
  rewrite B3, Em in F3.
  destruct (div_exact2 (sub (add t m) x) m F1 Wm ltac:(congruence)) as (tu & q3 & _ & E3 & Wtu & _ & Ltu & _ & _ & Vtu).
  { lia. }
  { rewrite Em, F3. right. unfold small. apply Z.le_trans with 2; [|lia].
    apply Z.div_le_upper_bound; lia. }
  rewrite Em, F3 in Vtu.
  destruct (euclid_step r nr q n Wr Wnr Wq Lr Lnr ltac:(congruence)) as (H1 & H2 & H3). { lia. } { now rewrite Er, Enr. }
  exists q, x, tu. do 4 (split; [assumption|]). split; [congruence|].
  split; [rewrite Vtu; apply Z.mod_pos_bound; lia|]. split; [|split; [exact H1|split; [exact H2|]]].
  - (* congruence *)
    assert (K1 : (M | value tu - (value t - rv / nv * value nt))).
    { rewrite Vtu, Vx. rewrite Z.mod_eq by lia. rewrite (Z.mod_eq (rv / nv * value nt) M) by lia.
      exists (1 + (rv / nv * value nt) / M - (value t + M - (rv / nv * value nt - M * (rv / nv * value nt / M))) / M). ring. }
    replace (value tu * A - rv mod nv) with
      ((value tu - (value t - rv / nv * value nt)) * A + (value t * A - rv) - rv / nv * (value nt * A - nv)).
    2: { rewrite (Z.mod_eq rv nv) by lia. ring. }
    apply Z.divide_sub_r; [apply Z.divide_add_r; [now apply Z.divide_mul_l|exact D1]|now apply Z.divide_mul_r].
  - rewrite H3, Er, Enr. reflexivity.
Qed.

Lemma modinv_loop_correct : forall A M C n ds rv nv, cf_digits rv nv ds ->
  forall bi0 m t nt r nr fuel,
  wf m -> wf t -> wf nt -> wf r -> wf nr -> wf bi0 ->
  length m = n -> length t = n -> length nt = n -> length r = n -> length nr = n -> length bi0 = n ->
  value bi0 = 0 -> value m = M -> value r = rv -> value nr = nv ->
  2 <= M -> C * C = cap n -> M < C -> rv < C -> nv < C ->
  (M < 2 ^ 32 /\ (nv < 2 ^ 32 \/ rv < 2 ^ 32)) \/ Forall small ds ->
  0 <= value t < M -> 0 <= value nt < M ->
  (M | value t * A - rv) -> (M | value nt * A - nv) -> Z.gcd rv nv = 1 ->
  (length ds < fuel)%nat ->
  exists out, modinv_loop fuel bi0 m t nt r nr = Ok out /\ wf out /\ length out = n /\
    0 <= value out < M /\ (M | value out * A - 1).
Proof.
  intros A M C n ds rv nv HC.
  assert (cond : forall rv nv l, 0 < nv -> 0 <= rv -> (M < 2 ^ 32 /\ (nv < 2 ^ 32 \/ rv < 2 ^ 32)) \/ Forall small (rv / nv :: l) ->
     (nv < 2 ^ 32 \/ small (rv / nv)) /\ (M < 2 ^ 32 \/ small (rv / nv))).
  { intros r0 n0 l0 Hp Hr [[H1 H2]|H].
    - split; [|now left]. destruct (Z.lt_ge_cases n0 (2 ^ 32)); [now left|right].
      unfold small. rewrite Z.div_small; lia.
    - inversion H; subst. tauto. }
  induction HC as [rv nv Hp Hz|rv nv l Hp Hz HC IH];
    intros bi0 m t nt r nr fuel Wm Wt Wnt Wr Wnr Wz Lm Lt Lnt Lr Lnr Lz Ez Em Er Enr HM HC2 CM Cr Cn HS Ht Hnt D1 D2 G HF;
    pose proof (value_bound _ Wr) as Br;
    (destruct (cond rv nv _ Hp ltac:(lia) HS) as [S1 S2]);
    (destruct (modinv_step A M C n rv nv m t nt r nr) as (q & x & tu & E1 & E2 & E3 & Wtu & Ltu & Btu & Dtu & Wru & Lru & Vru);
      try assumption).
  - destruct fuel as [|[|fuel]]; [cbn in HF; lia|cbn in HF; lia|].
    cbn [modinv_loop]. rewrite (ne_value nr bi0) by congruence. rewrite Ez, Enr.
    rewrite (proj2 (Z.eqb_neq _ _)) by lia. cbn [negb of_opt bind]. rewrite E1. cbn [of_opt bind]. rewrite E2. cbn [of_opt bind].
    rewrite E3. cbn [of_opt bind].
    rewrite (ne_value _ bi0) by congruence. rewrite Ez, Vru, Hz. cbn [Z.eqb negb of_opt bind].
    exists nt. repeat (split; [try assumption; reflexivity|]).
    assert (N1 : nv = 1).
    { rewrite (Z.div_mod rv nv), Hz, Z.add_0_r in G by lia.
      rewrite Z.gcd_comm, Z.gcd_mul_diag_l in G; lia. }
    rewrite N1 in D2. exact D2.
  - destruct fuel as [|fuel]; [cbn in HF; lia|].
    cbn [modinv_loop]. rewrite (ne_value nr bi0) by congruence. rewrite Ez, Enr.
    rewrite (proj2 (Z.eqb_neq _ _)) by lia. cbn [negb of_opt bind]. rewrite E1. cbn [of_opt bind]. rewrite E2. cbn [of_opt bind].
    rewrite E3. cbn [of_opt bind]. pose proof (Z.mod_pos_bound rv nv Hp).
    apply IH; try assumption; try congruence; try lia.
    + destruct HS as [[H1 H2]|H1]; [left; split; [exact H1|]|right; now inversion H1].
      destruct H2 as [H2|H2]; [left; lia|].
      destruct (Z.lt_ge_cases nv (2 ^ 32)); [lia|]. left. rewrite Z.mod_small by lia. exact H2.
    + rewrite Z.gcd_comm, Z.gcd_mod by lia. rewrite Z.gcd_comm. exact G.
    + cbn in HF. lia.
Qed.

Lemma widen_wf n x : wf x -> wf (widen n x).
Proof. intros H. apply wf_app; [exact H|]. apply Forall_forall. intros y Hy. apply repeat_spec in Hy. subst. lia. Qed.
Lemma widen_length n x : length (widen n x) = (length x + n)%nat.
Proof. unfold widen. rewrite app_length, repeat_length. reflexivity. Qed.
Lemma widen_value n x : value (widen n x) = value x.
Proof. unfold widen. rewrite value_app, value_repeat. lia. Qed.
Lemma cap_double n : cap n * cap n = cap (n + n).
Proof. unfold cap. rewrite <- Z.pow_add_r by lia. f_equal. lia. Qed.
Lemma firstn_wf n x : wf x -> wf (firstn n x).
Proof. intros H. unfold wf in *. rewrite Forall_forall in *. intros y Hy. apply H. eapply (In_nth _ _ 0) in Hy.
  destruct Hy as (i & Hi & E). rewrite <- (firstn_skipn n x). apply in_or_app. left. rewrite <- E. now apply nth_In. Qed.
Lemma firstn_value n x : wf x -> (n <= length x)%nat -> value x < cap n ->
  length (firstn n x) = n /\ value (firstn n x) = value x.
Proof.
  intros W L H. assert (LF : length (firstn n x) = n) by (rewrite firstn_length; lia). split; [exact LF|].
  pose proof (value_app (firstn n x) (skipn n x)) as E. rewrite firstn_skipn, LF in E.
  assert (W' : wf (skipn n x)).
  { unfold wf in *. rewrite Forall_forall in *. intros y Hy. apply W. rewrite <- (firstn_skipn n x). apply in_or_app. now right. }
  pose proof (value_bound _ W'). pose proof (value_bound _ (firstn_wf n x W)). pose proof (cap_pos n).
  assert (value (skipn n x) = 0); [|lia].
  destruct (Z.eq_dec (value (skipn n x)) 0); [assumption|].
  assert (cap n * 1 <= cap n * value (skipn n x)) by (apply Z.mul_le_mono_nonneg_l; lia). lia.
Qed.

Lemma modinv_correct a m ds fuel : wf a -> wf m -> length a = length m -> 2 <= value m -> 0 < value a ->
  Z.gcd (value a) (value m) = 1 -> cf_digits (value m) (value a) ds ->
  value m < 2 ^ 32 \/ Forall small ds -> (length ds < fuel)%nat ->
  exists x, bi_modinv fuel a m = Ok x /\ wf x /\ length x = length a /\
    0 <= value x < value m /\ (value a * value x) mod value m = 1.
Proof.
  intros Wa Wm L HM Ha G HC HS HF.
  pose proof (value_bound _ Wa) as Ba. pose proof (value_bound _ Wm) as Bm. rewrite <- L in Bm.
  assert (C0 : value (create 0 (2 * length a)) = 0).
  { rewrite create_value. apply Z.mod_0_l. pose proof (cap_pos (2 * length a)). lia. }
  assert (CC : cap (length a) * cap (length a) = cap (2 * length a)) by (rewrite cap_double; f_equal; lia).
  assert (C1 : value (create 1 (2 * length a)) = 1).
  { rewrite create_value. apply Z.mod_small. rewrite <- CC. split; [lia|].
    apply Z.lt_le_trans with (2 * cap (length a)); [lia|]. apply Z.mul_le_mono_nonneg_r; lia. }
  destruct (modinv_loop_correct (value a) (value m) (cap (length a)) (2 * length a) ds (value m) (value a) HC
    (create 0 (2 * length a)) (widen (length a) m) (create 0 (2 * length a)) (create 1 (2 * length a))
    (widen (length a) m) (widen (length a) a) fuel) as (out & O1 & O2 & O3 & O4 & O5);
    try apply create_wf; try apply create_length; try (apply widen_wf; assumption);
    try (rewrite widen_length; lia); try (rewrite widen_value; lia); try lia; try assumption.
  - destruct HS as [HS|HS]; [left|right; exact HS]. split; [exact HS|now right].
  - rewrite C0. exists (-1). ring.
  - rewrite C1. exists 0. ring.
  - rewrite Z.gcd_comm. exact G.
  - destruct (firstn_value (length a) out O2) as [F1 F2]; [lia|lia|].
    exists (firstn (length a) out). unfold bi_modinv. rewrite O1. cbn [bind].
    split; [reflexivity|]. split; [now apply firstn_wf|]. split; [exact F1|]. rewrite F2. split; [exact O4|].
    destruct O5 as [k O5]. replace (value a * value out) with (1 + k * value m) by lia.
    rewrite Z.mod_add by lia. apply Z.mod_small. lia.
Qed.

(** ** Extended Euclid *)
Lemma sub_mul_mod s q t n : wf s -> wf q -> wf t -> length s = n -> length q = n -> length t = n ->
  wf (sub s (mul q t)) /\ length (sub s (mul q t)) = n /\ (cap n | value (sub s (mul q t)) - (value s - value q * value t)).
Proof.
  intros Ws Wq Wt Ls Lq Lt.
  pose proof (mul_wf q t Wq Wt ltac:(congruence)) as Wm. pose proof (mul_length q t Wq Wt ltac:(congruence)) as Lm.
  split; [now apply sub_wf|]. split; [rewrite sub_length; congruence|].
  rewrite sub_value by congruence. rewrite mul_value by congruence. rewrite Ls, Lq. pose proof (cap_pos n).
  rewrite Z.mod_eq by lia. rewrite (Z.mod_eq (value q * value t)) by lia.
  set (k := value q * value t / cap n). set (j := (value s - (value q * value t - cap n * k)) / cap n).
  exists (k - j). ring.
Qed.

Lemma egcd_loop_correct : forall A B n ds av bv, cf_digits av bv ds ->
  forall bi0 r old_r s old_s t old_t fuel,
  wf r -> wf old_r -> wf s -> wf old_s -> wf t -> wf old_t -> wf bi0 ->
  length r = n -> length old_r = n -> length s = n -> length old_s = n -> length t = n -> length old_t = n -> length bi0 = n ->
  value bi0 = 0 -> value old_r = av -> value r = bv ->
  bv < 2 ^ 32 \/ Forall small ds ->
  (cap n | value s * A + value t * B - bv) -> (cap n | value old_s * A + value old_t * B - av) ->
  (length ds < fuel)%nat ->
  exists g x y, egcd_loop fuel bi0 r old_r s old_s t old_t = Ok (g, x, y) /\ wf g /\ wf x /\ wf y /\
    length g = n /\ length x = n /\ length y = n /\ value g = Z.gcd av bv /\ (cap n | value x * A + value y * B - value g).
Proof.
  intros A B n ds av bv HC.
  induction HC as [av bv Hp Hz|av bv l Hp Hz HC IH];
    intros bi0 r old_r s old_s t old_t fuel Wr Wor Ws Wos Wt Wot Wz Lr Lor Ls Los Lt Lot Lz Ez Eor Er HS D1 D2 HF;
    (destruct (div_exact2 old_r r Wor Wr ltac:(congruence)) as (rr & q & E1 & _ & _ & Wq & _ & Lq & Vq & _);
       [lia|rewrite Eor, Er; destruct HS as [HS|HS]; [now left|right; now inversion HS]|]);
    rewrite Eor, Er in Vq;
    (destruct (euclid_step old_r r q n Wor Wr Wq Lor Lr ltac:(congruence)) as (H1 & H2 & H3); [lia|congruence|]);
    rewrite Eor, Er in H3;
    (destruct (sub_mul_mod old_s q s n) as (I1 & I2 & I3); try assumption; try congruence);
    (destruct (sub_mul_mod old_t q t n) as (J1 & J2 & J3); try assumption; try congruence).
  - destruct fuel as [|[|fuel]]; [cbn in HF; lia|cbn in HF; lia|].
    cbn [egcd_loop]. rewrite (ne_value r bi0) by congruence. rewrite Ez, Er.
    rewrite (proj2 (Z.eqb_neq _ _)) by lia. cbn [negb of_opt bind]. rewrite E1. cbn [of_opt bind].
    rewrite (ne_value _ bi0) by congruence. rewrite Ez, H3, Hz. cbn [Z.eqb negb of_opt bind].
    exists r, s, t. repeat (split; [try assumption; reflexivity|]).
    split; [|now rewrite Er].
    rewrite Er. rewrite (Z.div_mod av bv), Hz, Z.add_0_r by lia. rewrite Z.gcd_comm, Z.gcd_mul_diag_l; lia.
  - destruct fuel as [|fuel]; [cbn in HF; lia|].
    cbn [egcd_loop]. rewrite (ne_value r bi0) by congruence. rewrite Ez, Er.
    rewrite (proj2 (Z.eqb_neq _ _)) by lia. cbn [negb of_opt bind]. rewrite E1. cbn [of_opt bind].
    pose proof (Z.mod_pos_bound av bv Hp).
    destruct (IH bi0 (sub old_r (mul q r)) r (sub old_s (mul q s)) s (sub old_t (mul q t)) t fuel)
      as (g & x & y & K1 & K2 & K3 & K4 & K5 & K6 & K7 & K8 & K9); try assumption; try congruence.
    + destruct HS as [HS|HS]; [left; lia|right; now inversion HS].
    + replace (value (sub old_s (mul q s)) * A + value (sub old_t (mul q t)) * B - av mod bv) with
        ((value (sub old_s (mul q s)) - (value old_s - value q * value s)) * A
         + (value (sub old_t (mul q t)) - (value old_t - value q * value t)) * B
         + ((value old_s * A + value old_t * B - av) - value q * (value s * A + value t * B - bv))).
      2: { rewrite Vq. rewrite (Z.mod_eq av bv) by lia. ring. }
      apply Z.divide_add_r; [apply Z.divide_add_r; now apply Z.divide_mul_l|].
      apply Z.divide_sub_r; [exact D2|now apply Z.divide_mul_r].
    + cbn in HF. lia.
    + exists g, x, y. repeat (split; [assumption|]). split; [|exact K9].
      rewrite K8. rewrite Z.gcd_comm, Z.gcd_mod by lia. apply Z.gcd_comm.
Qed.

Lemma egcd_correct a b ds fuel : wf a -> wf b -> length a = length b -> 0 < value b ->
  cf_digits (value a) (value b) ds -> value b < 2 ^ 32 \/ Forall small ds -> (length ds < fuel)%nat ->
  exists g x y, bi_extended_euclidean fuel a b = Ok (g, x, y) /\ wf g /\ wf x /\ wf y /\
    length g = length a /\ length x = length a /\ length y = length a /\ value g = Z.gcd (value a) (value b) /\
    (value x * value a + value y * value b) mod cap (length a) = value g.
Proof.
  intros Wa Wb L Hb HC HS HF.
  pose proof (value_bound _ Wa) as Ba. pose proof (value_bound _ Wb) as Bb. pose proof (cap_pos (length a)) as CP.
  assert (C0 : value (create 0 (length a)) = 0) by (rewrite create_value; apply Z.mod_0_l; lia).
  assert (C1 : value (create 1 (length a)) = 1) by (rewrite create_value; apply Z.mod_small; rewrite L; lia).
  destruct (egcd_loop_correct (value a) (value b) (length a) ds _ _ HC (create 0 (length a)) b a (create 0 (length a)) (create 1 (length a))
     (create 1 (length a)) (create 0 (length a)) fuel) as (g & x & y & K1 & K2 & K3 & K4 & K5 & K6 & K7 & K8 & K9);
    try apply create_wf; try apply create_length; try assumption; try congruence.
  - rewrite C0, C1. exists 0. ring.
  - rewrite C0, C1. exists 0. ring.
  - exists g, x, y. repeat (split; [assumption|]). 
    destruct K9 as [k K9]. replace (value x * value a + value y * value b) with (value g + k * cap (length a)) by lia.
    rewrite Z.mod_add by lia. apply Z.mod_small. pose proof (value_bound _ K2). rewrite K5 in *. lia.
Qed.

(** ** Montgomery *)
Lemma mul_mod_exact x y m n : wf x -> wf y -> wf m -> length x = n -> length y = n -> length m = n -> 0 < value m ->
  value m < 2 ^ 32 \/ (forall i : nat, (value x * value y / value m / (2 ^ 32) ^ Z.of_nat i) mod 2 ^ 32 <= 2 ^ 32 - 4) ->
  exists r, bind (of_opt (modulo (mul (widen n x) (widen n y)) (widen n m))) (fun rem2 => Ok (firstn n rem2)) = Ok r /\
    wf r /\ length r = n /\ value r = (value x * value y) mod value m.
Proof.
  intros Wx Wy Wm Lx Ly Lm Hp HS.
  pose proof (value_bound _ Wx) as Bx. pose proof (value_bound _ Wy) as By. pose proof (value_bound _ Wm) as Bm.
  rewrite Lx in Bx. rewrite Ly in By. rewrite Lm in Bm.
  destruct (mul_exact (widen n x) (widen n y) (n + n)) as (A1 & A2 & A3); try (apply widen_wf; assumption);
    try (rewrite widen_length; congruence).
  { rewrite !widen_value, <- cap_double. apply Z.le_lt_trans with (cap n * value y).
    - apply Z.mul_le_mono_nonneg_r; lia.
    - apply Z.mul_lt_mono_pos_l; lia. }
  rewrite !widen_value in A3.
  destruct (div_exact (mul (widen n x) (widen n y)) (widen n m) A1 (widen_wf n m Wm)) as (r & q & _ & E & Wr & _ & Lr & _ & _ & Vr).
  { rewrite A2, widen_length, Lm. reflexivity. } { now rewrite widen_value. }
  { rewrite widen_value, A3. exact HS. }
  rewrite E. cbn [of_opt bind]. rewrite widen_value, A3 in Vr.
  pose proof (Z.mod_pos_bound (value x * value y) (value m) Hp).
  destruct (firstn_value n r Wr) as [F1 F2]; [lia|lia|].
  exists (firstn n r). split; [reflexivity|]. split; [now apply firstn_wf|]. split; [exact F1|]. now rewrite F2.
Qed.

Lemma encode_correct x R m : wf x -> wf R -> wf m -> length x = length m -> length R = length m -> 0 < value m ->
  value m < 2 ^ 32 \/ (forall i : nat, (value x * value R / value m / (2 ^ 32) ^ Z.of_nat i) mod 2 ^ 32 <= 2 ^ 32 - 4) ->
  exists r, bi_montgomery_encode x R m = Ok r /\ wf r /\ length r = length m /\ value r = (value x * value R) mod value m.
Proof. intros. apply mul_mod_exact; auto. Qed.

Lemma roundtrip_correct x R m fuel ds : wf x -> wf R -> wf m -> length x = length m -> length R = length m ->
  2 <= value m < 2 ^ 32 -> Z.gcd (value R) (value m) = 1 -> value x < value m ->
  cf_digits (value m) (value R) ds -> (length ds < fuel)%nat ->
  exists y z, bi_montgomery_encode x R m = Ok y /\ value y = (value x * value R) mod value m /\
    bi_montgomery_decode fuel y R m = Ok z /\ wf z /\ length z = length m /\ value z = value x.
Proof.
  intros Wx WR Wm Lx LR HM G Hx HC HF.
  pose proof (value_bound _ Wx) as Bx. pose proof (value_bound _ WR) as BR.
  destruct (encode_correct x R m) as (y & E1 & Wy & Ly & Vy); try assumption; [lia|left; lia|].
  assert (RP : 0 < value R).
  { destruct (Z.eq_dec (value R) 0) as [Z0|]; [|lia]. rewrite Z0, Z.gcd_0_l in G. lia. }
  destruct (modinv_correct R m ds fuel) as (i & E2 & Wi & Li & Bi & Vi); try assumption; try lia.
  destruct (mul_mod_exact y i m (length m)) as (z & E3 & Wz & Lz & Vz); try assumption; try congruence; [lia|left; lia|].
  exists y, z. split; [exact E1|]. split; [exact Vy|]. split.
  { unfold bi_montgomery_decode. rewrite E2. cbn [bind]. exact E3. }
  split; [exact Wz|]. split; [exact Lz|].
  rewrite Vz, Vy, Z.mul_mod_idemp_l by lia. rewrite <- Z.mul_assoc, <- Z.mul_mod_idemp_r, Vi by lia.
  rewrite Z.mul_1_r. apply Z.mod_small. lia.
Qed.
