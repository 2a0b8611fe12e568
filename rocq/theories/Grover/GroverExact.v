(** The exact algorithm. *)
From Coq Require Import Reals Lra List ZArith Bool Lia Ring_theory Ring.
Import ListNotations.
From Verif.CtrlOps Require Import CtrlSpec CtrlComplex.
From Verif.Fourier Require Import FourierSpec FourierProofs.
From Verif.Amplify Require Import AmpSpec Conj AmpComplex.
From Verif.Grover Require Import GroverModel GroverSpec GroverProofs.
Local Open Scope R_scope.
Add Ring complex_numbers_x : complex_ring.

Lemma bits_count m : length (all_bits m) = (2 ^ m)%nat.
Proof. induction m as [|m IH]; [reflexivity|]. cbn [all_bits]. rewrite app_length, !map_length, IH. cbn [Nat.pow]. lia. Qed.
Lemma inr_pos m : 0 < INR (2 ^ m). Proof. apply lt_0_INR. pose proof (Nat.pow_nonzero 2 m). lia. Qed.
Lemma count_le {A} (f : A -> bool) l : (length (filter f l) <= length l)%nat.
Proof. induction l as [|b l IH]; cbn; [lia|]. destruct (f b); cbn; lia. Qed.
Lemma total_two {A} (l : list A) (f : A -> bool) (g b : cplx) : ctotal l (fun x => if f x then g else b) = cadd (cmul (re (INR (length (filter f l)))) g) (cmul (re (INR (length l) - INR (length (filter f l)))) b).
Proof.
  induction l as [|x l IH]; cbn [total fold_right filter length]; [cbn [INR]; apply cplx_eq; cbn; ring|]. unfold total in IH. rewrite IH. destruct (f x); cbn [length]; rewrite !S_INR; apply cplx_eq; cbn; ring.
Qed.
Section pair.
Context (S : R) (e : cplx).
Fixpoint pair (k : nat) : cplx * cplx :=
  match k with
  | O => (c1, c1)
  | Datatypes.S k => let (g, b) := pair k in let i := cadd (cmul (re S) (cmul e g)) (cmul (re (1 - S)) b) in
    (csub (cmul (csub c1 e) i) (cmul e g), csub (cmul (csub c1 e) i) b)
  end.
Lemma pair_step k : snd (pair (Datatypes.S (Datatypes.S k))) =
  csub (cmul (copp (cadd (cmul (re 2) e) (cmul (cmul (csub c1 e) (csub c1 e)) (re S)))) (snd (pair (Datatypes.S k)))) (cmul (cmul e e) (snd (pair k))).
Proof.
  cbn [pair]. destruct (pair k) as [g b]. cbn [snd]. rewrite re_sub. change (re 2) with (re (1 + 1)). rewrite re_add, !re_1. ring.
Qed.
End pair.
Lemma cis_square phi : cmul (csub c1 (cis phi)) (csub c1 (cis phi)) = cmul (re (-4 * (sin (phi / 2) * sin (phi / 2)))) (cis phi).
Proof.
  assert (C : cos phi = 1 - 2 * (sin (phi / 2) * sin (phi / 2))). { replace phi with (2 * (phi / 2)) at 1 by field. rewrite cos_2a_sin. ring. }
  assert (Q : sin phi * sin phi = 1 - cos phi * cos phi) by (pose proof (sin2_cos2 phi) as E; unfold Rsqr in E; lra).
  set (h := sin (phi / 2) * sin (phi / 2)) in *. assert (Eh : h = (1 - cos phi) / 2) by lra. rewrite Eh. apply cplx_eq; unfold cis, csub, cmul, c1, re; cbn [fst snd].
  - transitivity ((1 - cos phi) * (1 - cos phi) - sin phi * sin phi); [ring|rewrite Q; field].
  - field.
Qed.
Lemma cmul_re_l r c : cmul (re r) c = (r * fst c, r * snd c). Proof. apply cplx_eq; cbn; ring. Qed.
(** the losing amplitudes *)
Lemma pair_losers S phi beta k : sin (phi / 2) * sin (phi / 2) * S = sin beta * sin beta ->
  cmul (re (cos beta)) (snd (pair S (cis phi) k)) = cmul (re (cos (INR (2 * k + 1) * beta))) (FourierSpec.power c1 cmul (copp (cis phi)) k).
Proof.
  intros HS. set (e := cis phi). assert (AS : cmul (cmul (csub c1 e) (csub c1 e)) (re S) = cmul (re (-4 * (sin beta * sin beta))) e).
  { unfold e. rewrite cis_square, <- HS. apply cplx_eq; cbn; ring. }
  assert (P2 : forall k, cmul (re (cos beta)) (snd (pair S e k)) = cmul (re (cos (INR (2 * k + 1) * beta))) (FourierSpec.power c1 cmul (copp e) k) /\
    cmul (re (cos beta)) (snd (pair S e (Datatypes.S k))) = cmul (re (cos (INR (2 * Datatypes.S k + 1) * beta))) (FourierSpec.power c1 cmul (copp e) (Datatypes.S k))).
  { induction k0 as [|j [E1 E2]].
    - split; [cbn; apply cplx_eq; cbn; rewrite Rmult_1_l; reflexivity|]. cbn [pair snd FourierSpec.power]. replace (INR (2 * 1 + 1) * beta) with (2 * beta + beta) by (cbn; ring).
      assert (C3 : re (cos (2 * beta + beta)) = cmul (re (cos beta)) (csub c1 (cmul (re 4) (re (sin beta * sin beta))))).
      { rewrite <- re_1, <- re_mul, <- re_sub, <- re_mul. f_equal. rewrite cos_plus, cos_2a_sin, sin_2a. ring. }
      rewrite C3. transitivity (cmul (re (cos beta)) (csub (csub (csub c1 e) (cmul (cmul (csub c1 e) (csub c1 e)) (re S))) c1)); [rewrite re_sub, re_1; ring|]. rewrite AS.
      replace (re (-4 * (sin beta * sin beta))) with (copp (cmul (re 4) (re (sin beta * sin beta)))) by (rewrite <- re_mul, <- re_opp; f_equal; ring). ring.
    - split; [exact E2|]. rewrite pair_step. transitivity (csub (cmul (copp (cadd (cmul (re 2) e) (cmul (cmul (csub c1 e) (csub c1 e)) (re S)))) (cmul (re (cos beta)) (snd (pair S e (Datatypes.S j))))) (cmul (cmul e e) (cmul (re (cos beta)) (snd (pair S e j))))); [ring|].
      rewrite E1, E2, AS. cbn [FourierSpec.power].
      assert (C : re (cos (INR (2 * Datatypes.S (Datatypes.S j) + 1) * beta)) = csub (cmul (cmul (re 2) (csub c1 (cmul (re 2) (re (sin beta * sin beta))))) (re (cos (INR (2 * Datatypes.S j + 1) * beta)))) (re (cos (INR (2 * j + 1) * beta)))).
      { rewrite <- re_1, <- !re_mul, <- !re_sub, <- !re_mul, <- re_sub. f_equal. set (v := INR (2 * Datatypes.S j + 1)).
        replace (INR (2 * Datatypes.S (Datatypes.S j) + 1) * beta) with (v * beta + 2 * beta) by (unfold v; rewrite !plus_INR, !mult_INR, !S_INR; cbn [INR]; ring).
        replace (INR (2 * j + 1) * beta) with (v * beta - 2 * beta) by (unfold v; rewrite !plus_INR, !mult_INR, !S_INR; cbn [INR]; ring).
        rewrite cos_plus, cos_minus, cos_2a_sin. ring. }
      rewrite C. replace (re (-4 * (sin beta * sin beta))) with (copp (cmul (cmul (re 2) (re 2)) (re (sin beta * sin beta)))) by (rewrite <- !re_mul, <- re_opp; f_equal; ring). ring. }
  apply (P2 k).
Qed.
Lemma pair_norm S phi k : S * norm2 (fst (pair S (cis phi) k)) + (1 - S) * norm2 (snd (pair S (cis phi) k)) = 1.
Proof.
  induction k as [|k IH]; [cbn; unfold norm2, c1; cbn; ring|]. cbn [pair]. destruct (pair S (cis phi) k) as [g b]. cbn [fst snd] in *.
  set (p := cmul (cis phi) g). assert (NP : norm2 p = norm2 g).
  { unfold p, norm2, cis, cmul. cbn [fst snd]. transitivity ((cos phi * cos phi + sin phi * sin phi) * (fst g * fst g + snd g * snd g)); [ring|]. pose proof (sin2_cos2 phi) as E. unfold Rsqr in E. replace (cos phi * cos phi + sin phi * sin phi) with 1 by lra. ring. }
  rewrite <- NP in IH. destruct p as [p1 p2], b as [b1 b2]. unfold norm2, cis, csub, cmul, cadd, c1, re in *. cbn [fst snd] in *. pose proof (sin2_cos2 phi) as E. unfold Rsqr in E.
  set (C := cos phi) in *. set (D := sin phi) in *. clearbody C D. set (i1 := S * p1 + (1 - S) * b1). set (i2 := S * p2 + (1 - S) * b2).
  transitivity ((i1 * i1 + i2 * i2) * (C * C + D * D - 1) + (S * (p1 * p1 + p2 * p2) + (1 - S) * (b1 * b1 + b2 * b2))); [unfold i1, i2; ring|]. rewrite IH. replace (C * C + D * D) with 1 by lra. ring.
Qed.
Section ideal.
Context (m : nat) (w : list bool -> bool) (phi : R).
Let M := length (filter w (all_bits m)).
Let S := INR M / INR (2 ^ m).
Lemma ideal_pair k x : length x = m -> ideal_grover m w phi k x = cmul (if w x then fst (pair S (cis phi) k) else snd (pair S (cis phi) k)) (uniform_state m x).
Proof.
  revert x. induction k as [|k IH]; intros x L; [cbn [ideal_grover pair fst snd]; destruct (w x); ring|].
  cbn [ideal_grover pair]. destruct (pair S (cis phi) k) as [g b] eqn:EP. cbn [fst snd] in *. unfold ideal_diffuser.
  set (v := cmul (re (/ sqrt (INR (2 ^ m)))) (re (/ sqrt (INR (2 ^ m))))).
  assert (V : v = re (/ INR (2 ^ m))). { unfold v. rewrite <- re_mul. f_equal. rewrite <- Rinv_mult, sqrt_sqrt; [reflexivity|]. apply Rlt_le, inr_pos. }
  assert (I : inner c0 cadd cmul (fun c => (fst c, - snd c)) m (uniform_state m) (ideal_oracle w phi (ideal_grover m w phi k)) = cadd (cmul (re S) (cmul (cis phi) g)) (cmul (re (1 - S)) b)).
  { unfold inner. transitivity (ctotal (all_bits m) (fun x => if w x then cmul v (cmul (cis phi) g) else cmul v b)).
    - apply total_ext. intros y Iy. apply all_bits_length in Iy. unfold ideal_oracle. rewrite IH by exact Iy. change (fst (uniform_state m y), - snd (uniform_state m y)) with (cconj (re (/ sqrt (INR (2 ^ m))))). rewrite conj_re.
      unfold uniform_state, v. fold (re (/ sqrt (INR (2 ^ m)))). destruct (w y); ring.
    - rewrite total_two, V, bits_count. fold M. pose proof (inr_pos m). unfold S. apply cplx_eq; cbn; field; lra. }
  rewrite I. unfold ideal_oracle. rewrite IH by exact L. destruct (w x); ring.
Qed.
End ideal.
Section exact.
Context (m : nat) (w : list bool -> bool) (k : nat).
Let M := length (filter w (all_bits m)).
Context (HM : (0 < M)%nat) (HK : exact_iterations (2 ^ m) M k).
Lemma share_01 : 0 < INR M / INR (2 ^ m) <= 1.
Proof.
  pose proof (inr_pos m). assert (0 < INR M) by (apply lt_0_INR; exact HM). split; [apply Rdiv_lt_0_compat; assumption|]. apply Rmult_le_reg_r with (INR (2 ^ m)); [assumption|]. unfold Rdiv. rewrite Rmult_assoc, Rinv_l, Rmult_1_r, Rmult_1_l by lra.
  apply le_INR. unfold M. rewrite <- (bits_count m). apply count_le.
Qed.
Lemma theta_facts : let t := exact_theta (2 ^ m) M in 0 < t <= PI / 2 /\ sin t * sin t = INR M / INR (2 ^ m) /\ 0 < sin t.
Proof.
  destruct share_01 as [S0 S1]. cbv zeta. unfold exact_theta. set (S := INR M / INR (2 ^ m)) in *. assert (Q : 0 < sqrt S <= 1) by (split; [apply sqrt_lt_R0, S0|rewrite <- sqrt_1; apply sqrt_le_1; lra]).
  pose proof (asin_bound (sqrt S)) as AB. rewrite !sin_asin by lra. rewrite sqrt_sqrt by lra. repeat split; try lra. destruct (Rlt_le_dec 0 (asin (sqrt S))) as [C|C]; [exact C|exfalso].
  assert (SN : sin (asin (sqrt S)) <= sin 0) by (apply sin_incr_1; pose proof PI_RGT_0; lra). rewrite sin_asin, sin_0 in SN by lra. lra.
Qed.
Let beta := PI / (4 * (INR k - 1) + 6).
Lemma beta_facts : 0 < beta <= PI / 2 /\ INR (2 * k + 1) * beta = PI / 2 /\ beta <= exact_theta (2 ^ m) M.
Proof.
  destruct theta_facts as ((T0 & T1) & _ & _). pose proof (pos_INR k). pose proof PI_RGT_0. assert (D : 4 * (INR k - 1) + 6 = 2 * INR (2 * k + 1)) by (rewrite plus_INR, mult_INR; cbn [INR]; ring).
  assert (P : 1 <= INR (2 * k + 1)) by (rewrite plus_INR, mult_INR; cbn [INR]; lra). assert (BE : INR (2 * k + 1) * beta = PI / 2) by (unfold beta; rewrite D; field; lra).
  assert (B0 : 0 < beta) by (unfold beta; rewrite D; apply Rdiv_lt_0_compat; lra). split; [split; [exact B0|]|split; [exact BE|]].
  - rewrite <- BE. nra.
  - destruct HK as [_ HK2]. set (t := exact_theta (2 ^ m) M) in *. assert (K : PI <= 2 * INR (2 * k + 1) * t).
    { assert (PI / (4 * t) * (4 * t) <= (INR k + 1 / 2) * (4 * t)) as L by (apply Rmult_le_compat_r; lra). replace (PI / (4 * t) * (4 * t)) with PI in L by (field; lra). rewrite plus_INR, mult_INR. cbn [INR]. lra. }
    destruct (Rle_lt_dec beta t) as [|C]; [assumption|exfalso]. nra.
Qed.
Lemma phase_sin : sin (exact_phi (2 ^ m) M k / 2) * sin (exact_phi (2 ^ m) M k / 2) * (INR M / INR (2 ^ m)) = sin beta * sin beta.
Proof.
  destruct theta_facts as ((T0 & T1) & TS & TP). destruct beta_facts as ((B0 & B1) & _ & BT). destruct share_01 as [S0 S1]. unfold exact_phi. fold beta. set (t := exact_theta (2 ^ m) M) in *.
  assert (MP : 0 < INR M) by (apply lt_0_INR, HM). pose proof (inr_pos m) as NP.
  assert (SQ : sqrt (INR (2 ^ m) / INR M) = / sin t).
  { apply sqrt_lem_1; [apply Rlt_le, Rdiv_lt_0_compat; lra|apply Rlt_le, Rinv_0_lt_compat, TP|]. rewrite <- Rinv_mult, TS. unfold Rdiv. rewrite Rinv_mult, Rinv_inv. ring. }
  rewrite SQ. assert (SB : 0 <= sin beta <= sin t) by (split; [apply sin_ge_0; pose proof PI_RGT_0; lra|apply sin_incr_1; pose proof PI_RGT_0; lra]).
  replace (2 * asin (sin beta * / sin t) / 2) with (asin (sin beta * / sin t)) by field. rewrite sin_asin; [rewrite <- TS; field; lra|]. pose proof (Rinv_0_lt_compat _ TP) as IP. assert (sin t * / sin t = 1) by (field; lra). split; nra.
Qed.
Lemma exact_losers x : length x = m -> w x = false -> ideal_grover m w (exact_phi (2 ^ m) M k) k x = c0.
Proof.
  intros L F. rewrite ideal_pair, F by exact L. fold M. destruct beta_facts as ((B0 & B1) & BE & BT). destruct (Nat.eq_dec k 0) as [->|K].
  - exfalso. assert (ET : exact_theta (2 ^ m) M = PI / 2). { destruct theta_facts as ((T0 & T1) & _). unfold beta in BT. cbn [INR] in BT. replace (PI / (4 * (0 - 1) + 6)) with (PI / 2) in BT by (field). lra. }
    destruct theta_facts as (_ & TS & _). rewrite ET, sin_PI2 in TS. pose proof (inr_pos m) as NP. assert (E : INR M = INR (2 ^ m)). { replace (INR M) with (INR M / INR (2 ^ m) * INR (2 ^ m)) by (field; lra). rewrite <- TS. ring. }
    apply INR_eq in E. rewrite <- (bits_count m) in E. unfold M in E. assert (I : In x (all_bits m)) by (apply all_bits_in, L). revert E I. clear - F. intros E I. apply in_split in I as (l1 & l2 & EL). rewrite EL in E. rewrite filter_app, !app_length in E. cbn [filter length] in E. rewrite F in E.
    pose proof (count_le w l1). pose proof (count_le w l2). lia.
  - pose proof (pair_losers (INR M / INR (2 ^ m)) (exact_phi (2 ^ m) M k) beta k phase_sin) as P. rewrite BE, cos_PI2 in P. change (re 0) with c0 in P.
    assert (CB : 0 < cos beta). { apply cos_gt_0; [lra|]. assert (1 <= INR k) by (apply (le_INR 1); lia). rewrite plus_INR, mult_INR in BE. cbn [INR] in BE. nra. }
    set (b := snd (pair _ _ k)) in *. assert (b = c0) as ->; [|ring]. transitivity (cmul (re (/ cos beta)) (cmul (re (cos beta)) b)); [|rewrite P; ring].
    apply cplx_eq; cbn; field; lra.
Qed.
Lemma exact_winners x : length x = m -> w x = true -> norm2 (ideal_grover m w (exact_phi (2 ^ m) M k) k x) = / INR M.
Proof.
  intros L F. rewrite ideal_pair, F by exact L. fold M. set (S := INR M / INR (2 ^ m)). pose proof (pair_norm S (exact_phi (2 ^ m) M k) k) as PN. destruct (pair S (cis (exact_phi (2 ^ m) M k)) k) as [g b] eqn:EP. cbn [fst snd] in *.
  pose proof (inr_pos m) as NP. assert (MP : 0 < INR M) by (apply lt_0_INR, HM).
  assert (Z : (1 - S) * norm2 b = 0).
  { destruct (Req_dec S 1) as [->|NE]; [ring|]. assert (X : exists y, length y = m /\ w y = false).
    { destruct (existsb (fun y => negb (w y)) (all_bits m)) eqn:EX; [apply existsb_exists in EX as (y & I & Y); exists y; split; [apply all_bits_length, I|destruct (w y); [discriminate|reflexivity]]|].
      exfalso. apply NE. unfold S. assert (E : M = length (all_bits m)). { unfold M. clear - EX. induction (all_bits m) as [|y l IH]; [reflexivity|]. cbn in EX. cbn [filter length]. destruct (w y); [|discriminate]. cbn [length]. rewrite IH by exact EX. reflexivity. }
      rewrite E, bits_count. field. lra. }
    destruct X as (y & Ly & Fy). pose proof (exact_losers y Ly Fy) as E. rewrite ideal_pair, Fy in E by exact Ly. fold M in E. fold S in E. rewrite EP in E. cbn [snd] in E. unfold uniform_state in E.
    assert (QP : 0 < / sqrt (INR (2 ^ m))) by (apply Rinv_0_lt_compat, sqrt_lt_R0, NP). destruct b as [b1 b2]. unfold cmul, c0 in E. cbn in E. injection E as E1 E2. assert (b1 = 0) by nra. assert (b2 = 0) by nra. subst. unfold norm2. cbn. ring. }
  assert (G : norm2 g = INR (2 ^ m) / INR M). { assert (SG : S * norm2 g = 1) by lra. unfold S in SG. replace (norm2 g) with (INR (2 ^ m) / INR M * (INR M / INR (2 ^ m) * norm2 g)) by (field; lra). rewrite SG. ring. }
  unfold norm2, uniform_state, cmul. cbn [fst snd]. rewrite !Rmult_0_r. set (q := / sqrt (INR (2 ^ m))). assert (Q2 : q * q = / INR (2 ^ m)) by (unfold q; rewrite <- Rinv_mult, sqrt_sqrt by lra; reflexivity).
  transitivity ((q * q) * norm2 g); [unfold norm2; ring|]. rewrite Q2, G. field. lra.
Qed.
End exact.
