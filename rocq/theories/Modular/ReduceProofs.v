(** The Montgomery reduction of a register. *)
From Coq Require Import List ZArith Bool Arith Lia.
Import ListNotations.
From Verif.Inverse Require Import InvSpec InvProofs.
From Verif.CtrlOps Require Import CtrlSpec CtrlProofs.
From Verif.Fourier Require Import FourierSpec RegProofs.
From Verif.Modular Require Import ModModel ViewProofs ModAddProofs.
Local Open Scope Z_scope.

Definition b2 (b : bool) : Z := if b then 1 else 0.
Lemma testbit_div w j : 0 <= j -> b2 (Z.testbit w j) = (w / 2 ^ j) mod 2.
Proof. intros J. unfold b2. pose proof (Z.testbit_spec' w j J) as E. unfold Z.b2z in E. destruct (Z.testbit w j); rewrite <- E; reflexivity. Qed.

(** adding a number to a part of a register *)
Definition part_add (w : Z) (k l : nat) (z : Z) : Z := w mod two k + two k * ((w / two k + z) mod two l) + two (k + l) * (w / two (k + l)).
Lemma part_range w k l h z : 0 <= w < two (k + (l + h)) -> 0 <= part_add w k l z < two (k + (l + h)).
Proof.
  intros W. unfold part_add. rewrite !two_add in *. pose proof (two_pos k). pose proof (two_pos l). pose proof (two_pos h). apply mixed_range.
  - apply Z.mod_pos_bound; lia.
  - apply Z.mod_pos_bound; lia.
  - split; [apply Z.div_pos; [lia|nia]|]. apply Z.div_lt_upper_bound; [nia|]. lia.
Qed.
Lemma part_step x lo mid hi w c z : register (lo ++ mid ++ hi) x -> 0 <= w < two (length (lo ++ mid ++ hi)) -> let y := store x (lo ++ mid ++ hi) w in
  perform y (Add c (Cl z) mid) = if forallb (getbit y) c then store x (lo ++ mid ++ hi) (part_add w (length lo) (length mid) z) else y.
Proof.
  intros R W y. cbn [perform amount]. destruct (forallb (getbit y) c); [|reflexivity].
  assert (Ry : register (lo ++ mid ++ hi) y) by (apply (register_length _ x); [unfold y; rewrite store_length; reflexivity|exact R]).
  destruct (split_value w lo mid hi x R W) as (E1 & E2 & E3). fold y in E1, E2, E3.
  rewrite (store_part y lo mid hi) by exact Ry. rewrite E1, E2, E3. unfold y. rewrite store_store by apply (proj1 R). f_equal. unfold part_add.
  rewrite Zplus_mod_idemp_l. reflexivity.
Qed.
Lemma sub_as_add x c z t : perform x (Sub c (Cl z) t) = perform x (Add c (Cl (- z)) t).
Proof. cbn [perform amount]. reflexivity. Qed.

(** ** the swaps *)
Lemma bubble_run : forall ks q x, register (q :: ks) x -> execute (bubble (q :: ks)) x = write x (q :: ks) (read x ks ++ [getbit x q]).
Proof.
  induction ks as [|k ks IH]; intros q x R.
  - cbn. symmetry. apply setbit_get.
  - change (bubble (q :: k :: ks)) with (Swp [] q k :: bubble (k :: ks)). rewrite execute_cons. cbn [perform forallb].
    set (x1 := setbit (setbit x q (getbit x k)) k (getbit x q)).
    destruct R as [ND F]. inversion ND as [|? ? N1 N2]; subst. inversion N2 as [|? ? N3 N4]; subst. cbn [In] in N1.
    assert (Lq : (q < length x)%nat) by (apply F; left; auto). assert (Lk : (k < length x)%nat) by (apply F; right; left; auto).
    assert (L1 : length x1 = length x) by (unfold x1; rewrite !setbit_length; reflexivity).
    assert (R1 : register (k :: ks) x1) by (split; [exact N2|intros p I; rewrite L1; apply F; right; exact I]).
    rewrite IH by exact R1. assert (Ek : getbit x1 k = getbit x q) by (unfold x1; apply getbit_set_same; rewrite setbit_length; exact Lk).
    assert (Eks : read x1 ks = read x ks).
    { apply map_ext_in. intros p I. unfold x1. rewrite !getbit_set_other; auto; intros ->; [apply N1|apply N3]; auto. }
    rewrite Ek, Eks. symmetry. apply write_ext.
    + split; [exact ND|exact F].
    + rewrite app_length, read_length. cbn [length]. lia.
    + rewrite write_length, L1. reflexivity.
    + change (read (write x1 (k :: ks) (read x ks ++ [getbit x q])) (q :: k :: ks))
        with (getbit (write x1 (k :: ks) (read x ks ++ [getbit x q])) q :: read (write x1 (k :: ks) (read x ks ++ [getbit x q])) (k :: ks)).
      rewrite read_write by (auto; rewrite app_length, read_length; cbn; lia). rewrite write_other by (cbn [In]; tauto).
      cbn [read map app]. f_equal. unfold x1. rewrite getbit_set_other by (intros ->; apply N1; auto). apply getbit_set_same, Lq.
    + intros p Ip. cbn [In] in Ip. rewrite write_other by (cbn [In]; tauto). unfold x1. rewrite !getbit_set_other; auto.
Qed.
Lemma bubble_store x l q : register (l ++ [q]) x ->
  execute (bubble (rev (l ++ [q]))) x = store x (l ++ [q]) (b2 (getbit x q) + 2 * value x l).
Proof.
  intros R. rewrite rev_app_distr. cbn [rev app]. assert (R' : register (q :: rev l) x).
  { replace (q :: rev l) with (rev (l ++ [q])) by (rewrite rev_app_distr; reflexivity). apply register_rev, R. }
  rewrite bubble_run by exact R'. replace (q :: rev l) with (rev (l ++ [q])) by (rewrite rev_app_distr; reflexivity).
  rewrite read_rev. change (rev (read x l) ++ [getbit x q]) with (rev (read x l) ++ rev [getbit x q]). rewrite <- rev_app_distr.
  rewrite write_rev; [|exact R|cbn; rewrite app_length, read_length; cbn; lia]. unfold store. f_equal. cbn [app].
  apply number_inj; [rewrite bits_of_length; cbn; rewrite app_length, read_length; cbn; lia|]. rewrite number_bits. cbn [number].
  fold (value x l). unfold b2. symmetry. apply Z.mod_small. pose proof (value_range x l). rewrite app_length. cbn [length]. rewrite Nat.add_1_r, two_S. destruct (getbit x q); lia.
Qed.

Lemma div_low u j h : 0 <= u < two j -> (u + two j * h) / two j = h.
Proof. intros U. rewrite Z.mul_comm, Z.div_add, Z.div_small by lia. lia. Qed.
Lemma mod_low u j h : 0 <= u < two j -> (u + two j * h) mod two j = u.
Proof. intros U. rewrite Z.mul_comm, Z.mod_add, Z.mod_small by lia. lia. Qed.
Lemma div_low2 u j h : 0 <= u < two j -> (u + two j * h) / two (j + 1) = h / 2.
Proof. intros U. rewrite two_add. change (two 1) with 2. rewrite <- Z.div_div by (pose proof (two_pos j); lia). rewrite div_low by exact U. reflexivity. Qed.
Lemma mod_low2 u j h : 0 <= u < two j -> (u + two j * h) mod two (j + 1) = u + two j * (h mod 2).
Proof.
  intros U. rewrite two_add. change (two 1) with 2. rewrite Z.rem_mul_r by (pose proof (two_pos j); lia). rewrite mod_low, div_low by exact U. reflexivity.
Qed.
Lemma half_mod H k : (H mod two (S k)) / 2 = (H / 2) mod two k.
Proof.
  rewrite two_S. rewrite Z.rem_mul_r by (pose proof (two_pos k); lia). pose proof (Z.mod_pos_bound H 2 ltac:(lia)).
  rewrite (Z.mul_comm 2), Z.div_add, Z.div_small by lia. lia.
Qed.
Lemma even_mod H k : (H mod two (S k)) mod 2 = H mod 2.
Proof. rewrite two_S. rewrite Z.rem_mul_r by (pose proof (two_pos k); lia). rewrite (Z.mul_comm 2), Z.mod_add by lia. apply Z.mod_mod. lia. Qed.
Section reduction.
Context (x : list bool) (qf : list nat) (N : Z) (m n : nat) (t : Z).
Context (Rg : register qf x) (Len : length qf = (m + 1 + n)%nat) (Odd : Z.odd N = true) (HN : 0 < N) (Ht : 0 <= t < two (m + 1 + n)) (Hn : (0 < n)%nat).

Lemma half_N : Z.shiftr (N - 1) 1 = (N - 1) / 2.
Proof. apply Z.shiftr_div_pow2. lia. Qed.
Lemma half_N' : N = 2 * ((N - 1) / 2) + 1.
Proof. rewrite (Z.div_mod N 2) at 1 by lia. pose proof (Zodd_mod N). assert (N mod 2 = 1) by (rewrite Zmod_odd, Odd; reflexivity).
  replace ((N - 1) / 2) with (N / 2); [lia|]. rewrite (Z.div_mod N 2) at 2 by lia. rewrite H0. replace (2 * (N / 2) + 1 - 1) with (N / 2 * 2) by ring. rewrite Z.div_mul; lia.
Qed.
Lemma estimation_run : forall j, (j <= m)%nat -> exists H u,
  execute (estimation qf N j) (store x qf t) = store x qf (u + two j * (H mod two (m + 1 + n - j))) /\ 0 <= u < two j /\ two j * H + u * N = t.
Proof.
  induction j as [|j IH]; intros J.
  - exists t, 0. cbn [estimation seq flat_map execute fold_left]. rewrite Nat.sub_0_r. change (two 0) with 1. rewrite Z.mod_small by exact Ht.
    split; [f_equal; lia|lia].
  - destruct (IH ltac:(lia)) as (H & u & E & U & T). set (b := b2 (Z.odd H)).
    assert (HH : H = 2 * (H / 2) + b) by (unfold b, b2; rewrite (Z.div_mod H 2) at 1 by lia; rewrite Zmod_odd; reflexivity).
    exists (H / 2 - b * ((N - 1) / 2)), (u + b * two j).
    split; [|split].
    + unfold estimation. rewrite seq_S, flat_map_app, execute_app. cbn [flat_map Nat.add]. rewrite app_nil_r. fold (estimation qf N j). rewrite E.
      cbn [inverted map rev app undo_step execute fold_left]. rewrite sub_as_add, half_N.
      set (k := (m + n - j)%nat). replace (m + 1 + n - j)%nat with (S k) by (unfold k; lia). set (w := u + two j * (H mod two (S k))).
      assert (WK : (m + 1 + n = j + S k)%nat) by (unfold k; lia). clearbody k.
      assert (Hw : 0 <= H mod two (S k) < two (S k)) by (apply Z.mod_pos_bound, two_pos).
      assert (W : 0 <= w < two (length qf)).
      { rewrite Len, WK, two_add. unfold w. pose proof (two_pos j). nia. }
      assert (Tb : Z.testbit w (Z.of_nat j) = Z.odd H).
      { assert (B : b2 (Z.testbit w (Z.of_nat j)) = b2 (Z.odd H)); [|destruct (Z.testbit w (Z.of_nat j)), (Z.odd H); auto; discriminate].
        rewrite testbit_div by lia. unfold w. rewrite div_low by exact U. rewrite even_mod, Zmod_odd. reflexivity. }
      assert (Sp : qf = firstn (j + 1) qf ++ skipn (j + 1) qf ++ []) by (rewrite app_nil_r, firstn_skipn; reflexivity).
      assert (L1 : length (firstn (j + 1) qf) = (j + 1)%nat) by (rewrite firstn_length; lia).
      assert (L2 : length (skipn (j + 1) qf) = k) by (rewrite skipn_length; lia).
      pose proof (part_step x (firstn (j + 1) qf) (skipn (j + 1) qf) [] w [nth j qf 0%nat] (- ((N - 1) / 2))) as P. cbv zeta in P. rewrite <- Sp in P.
      rewrite P by auto. clear P. cbn [forallb]. rewrite andb_true_r, bit_store by (auto; lia). rewrite Tb, L1, L2.
      replace (m + 1 + n - S j)%nat with k by lia.
      assert (G : part_add w (j + 1) k (- (b * ((N - 1) / 2))) = u + b * two j + two (S j) * ((H / 2 - b * ((N - 1) / 2)) mod two k)).
      { unfold part_add. rewrite (Z.div_small w (two (j + 1 + k))) by (replace (j + 1 + k)%nat with (length qf) by lia; exact W). unfold w.
        rewrite mod_low2, div_low2, half_mod, even_mod by exact U. rewrite Zmod_odd. fold (b2 (Z.odd H)). fold b.
        rewrite Zplus_mod_idemp_l, Z.add_opp_r. rewrite Nat.add_1_r. ring. }
      rewrite <- G. unfold b, b2 in *. destruct (Z.odd H) eqn:OH.
      * f_equal. f_equal. lia.
      * rewrite G. f_equal. unfold w. rewrite (two_S j). rewrite (Z.div_mod (H mod two (S k)) 2) by lia. rewrite half_mod, even_mod, Zmod_odd, OH. 
        replace (H / 2 - 0 * ((N - 1) / 2)) with (H / 2) by lia. ring.
    + rewrite two_S. unfold b, b2. destruct (Z.odd H); lia.
    + rewrite two_S. rewrite <- T. set (h := (N - 1) / 2). assert (EN : N = 2 * h + 1) by apply half_N'. rewrite EN. clearbody h.
      rewrite HH at 2. clearbody b. ring.
Qed.

Lemma set_bit_store w j b : 0 <= w < two (length qf) -> (j < length qf)%nat ->
  setbit (store x qf w) (nth j qf 0%nat) b = store x qf (w mod two j + two j * b2 b + two (j + 1) * (w / two (j + 1))).
Proof.
  intros W J. assert (Sp : qf = firstn j qf ++ [nth j qf 0%nat] ++ skipn (j + 1) qf).
  { clear - J. revert j J. induction qf as [|a l IH]; intros [|j] J; cbn in *; try lia; auto. f_equal. apply (IH j). lia. }
  assert (L1 : length (firstn j qf) = j) by (rewrite firstn_length; lia).
  set (lo := firstn j qf) in *. set (q := nth j qf 0%nat) in *. set (hi := skipn (j + 1) qf) in *.
  assert (R' : register (lo ++ [q] ++ hi) x) by (rewrite <- Sp; exact Rg).
  assert (W' : 0 <= w < two (length (lo ++ [q] ++ hi))) by (rewrite <- Sp; exact W).
  destruct (split_value w lo [q] hi x R' W') as (E1 & _ & E3). rewrite <- Sp in E1, E3.
  replace (setbit (store x qf w) q b) with (store (store x qf w) [q] (b2 b)) by (unfold store; cbn; destruct b; reflexivity).
  rewrite (store_part _ lo [q] hi) by (rewrite <- Sp; apply (register_length _ x); [rewrite store_length; reflexivity|exact Rg]).
  rewrite <- Sp, store_store by apply (proj1 Rg). rewrite E1, E3, L1. cbn [length]. f_equal. f_equal. f_equal. change (two 1) with 2. rewrite Z.mod_small; [reflexivity|destruct b; cbn; lia].
Qed.
Definition overflow (h : Z) : bool := two n <=? h.
Definition reduced (h : Z) : Z := (h + if overflow h then N else 0) mod two n.
Lemma reduction_run : exists H u, two m * H + u * N = t /\ 0 <= u < two m /\
  let h := H mod two (n + 1) in
  execute (q_montgomery_reduction qf N m) (store x qf t) = store x qf (u + two m * b2 (xorb (overflow h) (Z.odd (reduced h))) + two (m + 1) * reduced h).
Proof.
  destruct (estimation_run m (le_n m)) as (H & u & E & U & T). exists H, u. split; [exact T|]. split; [exact U|]. cbv zeta.
  replace (m + 1 + n - m)%nat with (n + 1)%nat in E by lia. set (h := H mod two (n + 1)) in *.
  assert (Hh : 0 <= h < 2 * two n) by (unfold h; rewrite Nat.add_1_r, <- two_S; apply Z.mod_pos_bound, two_pos).
  unfold q_montgomery_reduction. rewrite !execute_app, E. clear E. set (s := overflow h). set (S := reduced h).
  assert (HS : 0 <= S < two n) by (apply Z.mod_pos_bound, two_pos).
  assert (Sp : exists lo mid q, qf = lo ++ mid ++ [q] /\ length lo = m /\ length mid = n).
  { exists (firstn m qf), (firstn n (skipn m qf)), (last qf 0%nat). rewrite !firstn_length, skipn_length. split; [|lia].
    destruct (exists_last (l := qf)) as (l & q & ->); [intros ->; cbn in Len; lia|]. rewrite app_length in Len. cbn in Len. rewrite last_last.
    rewrite firstn_app, skipn_app. replace (m - length l)%nat with 0%nat by lia. cbn [firstn skipn]. rewrite app_nil_r, firstn_app, skipn_length.
    replace (n - (length l - m))%nat with 0%nat by lia. cbn [firstn]. rewrite app_nil_r. rewrite (firstn_all2 (skipn m l)) by (rewrite skipn_length; lia).
    rewrite app_assoc, firstn_skipn. reflexivity. }
  destruct Sp as (lo & mid & q & Sp & L1 & L2).
  assert (R' : register (lo ++ mid ++ [q]) x) by (rewrite <- Sp; exact Rg).
  assert (Eq : last qf 0%nat = q) by (rewrite Sp, app_assoc; apply last_last).
  assert (Eq' : q = nth (m + n) qf 0%nat) by (rewrite Sp, app_assoc, <- L1, <- L2, <- app_length; symmetry; apply nth_snoc).
  assert (Esk : skipn m qf = mid ++ [q]) by (rewrite Sp, skipn_app, <- L1, skipn_all, Nat.sub_diag; reflexivity).
  rewrite Eq, Esk. replace (length qf - 1 - m)%nat with n by lia. replace (firstn n (mid ++ [q])) with mid
    by (rewrite firstn_app, <- L2, firstn_all, Nat.sub_diag; cbn [firstn]; rewrite app_nil_r; reflexivity).
  pose proof (two_pos m) as Pm. pose proof (two_pos n) as Pn.
  assert (TW : two (length qf) = two m * (2 * two n)) by (rewrite Len; replace (m + 1 + n)%nat with (m + Datatypes.S n)%nat by lia; rewrite two_add, two_S; reflexivity).
  (* correction *)
  set (w1 := u + two m * h). assert (W1 : 0 <= w1 < two (length qf)) by (rewrite TW; unfold w1; nia).
  assert (Dh : h / two n = b2 s).
  { unfold s, overflow, b2. destruct (Z.leb_spec (two n) h); [|apply Z.div_small; lia]. symmetry. apply (Z.div_unique h (two n) 1 (h - two n)); lia. }
  assert (Bs : Z.testbit w1 (Z.of_nat (m + n)) = s).
  { assert (B : b2 (Z.testbit w1 (Z.of_nat (m + n))) = b2 s); [|destruct (Z.testbit w1 (Z.of_nat (m + n))), s; auto; discriminate].
    rewrite testbit_div by lia. rewrite two_add, <- Z.div_div by lia. unfold w1. rewrite div_low by exact U. rewrite Dh. destruct s; reflexivity. }
  assert (E1 : execute [Add [q] (Cl N) mid] (store x qf w1) = store x qf (u + two m * (S + two n * b2 s))).
  { cbn [execute fold_left]. pose proof (part_step x lo mid [q] w1 [q] N) as P. cbv zeta in P. rewrite <- Sp in P. rewrite P by auto. clear P.
    cbn [forallb]. rewrite Eq' at 1. rewrite bit_store by (auto; lia). rewrite Bs, andb_true_r, L1, L2.
    assert (G : forall z, part_add w1 m n z = u + two m * ((h + z) mod two n + two n * b2 s)).
    { intros z. unfold part_add. rewrite two_add, <- Z.div_div by lia. unfold w1. rewrite mod_low, div_low by exact U. rewrite Dh. ring. }
    unfold S, reduced. fold s. destruct s eqn:Es; [rewrite G; reflexivity|]. f_equal. unfold w1. rewrite Z.add_0_r. rewrite (Z.div_mod h (two n)) at 1 by lia. rewrite Dh. ring. }
  rewrite E1. clear E1. set (w2 := u + two m * (S + two n * b2 s)). assert (W2 : 0 <= w2 < two (length qf)) by (rewrite TW; unfold w2; destruct s; unfold b2; nia).
  (* swaps *)
  assert (E2 : execute (bubble (rev (mid ++ [q]))) (store x qf w2) = store x qf (u + two m * (b2 s + 2 * S))).
  { set (y := store x qf w2). assert (Ry : register qf y) by (apply (register_length _ x); [unfold y; rewrite store_length; reflexivity|exact Rg]).
    rewrite bubble_store by (rewrite Sp in Ry; apply (register_app _ _ _ Ry)).
    destruct (split_value w2 lo mid [q] x R') as (V1 & V2 & V3); [rewrite <- Sp; exact W2|]. rewrite <- Sp in V1, V2, V3. fold y in V1, V2, V3.
    rewrite L1, L2 in *. unfold w2 in V1, V2, V3. rewrite mod_low in V1 by exact U. rewrite div_low in V2 by exact U. rewrite two_add, <- Z.div_div, div_low in V3 by (auto; lia).
    rewrite Z.mul_comm, Z.mod_add, Z.mod_small in V2 by lia. rewrite (Z.mul_comm (two n)), Z.div_add, Z.div_small in V3 by lia. rewrite value_one in V3.
    rewrite (store_part y lo (mid ++ [q]) []) by (rewrite app_nil_r, <- Sp; exact Ry). rewrite app_nil_r, <- Sp. unfold y at 1. rewrite store_store by apply (proj1 Rg).
    f_equal. rewrite V1, V2, value_nil, app_length, L2, L1. cbn [length]. unfold b2 at 1. rewrite V3, Z.add_0_l. rewrite Nat.add_1_r, two_S.
    rewrite (Z.mod_small (b2 s + 2 * S)) by (destruct s; unfold b2; lia). ring. }
  rewrite E2. clear E2. set (w3 := u + two m * (b2 s + 2 * S)). assert (W3 : 0 <= w3 < two (length qf)) by (rewrite TW; unfold w3; destruct s; unfold b2; nia).
  (* folding *)
  cbn [execute fold_left perform]. rewrite !bit_store by (auto; lia). rewrite set_bit_store by (auto; lia). f_equal.
  assert (B0 : Z.testbit w3 (Z.of_nat m) = s).
  { assert (B : b2 (Z.testbit w3 (Z.of_nat m)) = b2 s); [|destruct (Z.testbit w3 (Z.of_nat m)), s; auto; discriminate].
    rewrite testbit_div by lia. unfold w3. rewrite div_low by exact U. rewrite Z.mul_comm, Z.mod_add by lia. destruct s; reflexivity. }
  assert (B1 : Z.testbit w3 (Z.of_nat (m + 1)) = Z.odd S).
  { assert (B : b2 (Z.testbit w3 (Z.of_nat (m + 1))) = b2 (Z.odd S)); [|destruct (Z.testbit w3 (Z.of_nat (m + 1))), (Z.odd S); auto; discriminate].
    rewrite testbit_div by lia. unfold w3. rewrite div_low2 by exact U. replace ((b2 s + 2 * S) / 2) with S; [apply Zmod_odd|].
    rewrite (Z.mul_comm 2), Z.div_add, Z.div_small by (destruct s; unfold b2; lia). reflexivity. }
  rewrite B0, B1, (xorb_comm (Z.odd S)). unfold w3. rewrite mod_low, div_low2 by exact U. f_equal. f_equal. rewrite (Z.mul_comm 2), Z.div_add, Z.div_small by (destruct s; unfold b2; lia). reflexivity.
Qed.
End reduction.
