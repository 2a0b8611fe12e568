(** Products of two registers. *)
From Coq Require Import List ZArith Znumtheory Bool Arith Lia.
Import ListNotations.
From Verif.Inverse Require Import InvSpec InvProofs.
From Verif.CtrlOps Require Import CtrlSpec CtrlProofs.
From Verif.Fourier Require Import FourierSpec RegProofs.
From Verif.ModTools Require Import ModToolsModel ModToolsProofs.
From Verif.Modular Require Import ModModel ModSpec ViewProofs ModAddProofs ReduceProofs MontProofs MultiplyProofs InplaceProofs.
Local Open Scope Z_scope.

Lemma store_tail x t i z : register t x -> store x (skipn i t) (value x (skipn i t) + z) = store x t (value x t + two i * z).
Proof.
  intros R. destruct (le_dec i (length t)) as [L|L].
  - assert (E : t = firstn i t ++ skipn i t ++ []) by (rewrite app_nil_r, firstn_skipn; reflexivity).
    assert (Li : length (firstn i t) = i) by (apply firstn_length_le; exact L).
    assert (R' : register (firstn i t ++ skipn i t ++ []) x) by (rewrite <- E; exact R).
    rewrite (store_part x (firstn i t) (skipn i t) [] _ R'). rewrite <- E. rewrite value_nil, Z.mul_0_r, Z.add_0_r, Li.
    rewrite <- store_mod, <- (store_mod x t (_ + two i * z)). f_equal.
    set (a := value x (firstn i t)). set (b := value x (skipn i t)).
    assert (V : value x t = a + two i * b). { rewrite <- (firstn_skipn i t) at 1. rewrite value_app, Li. reflexivity. }
    rewrite V. set (k := length (skipn i t)). assert (Lk : length t = (i + k)%nat) by (unfold k; rewrite skipn_length; lia). rewrite Lk, two_add.
    pose proof (two_pos i). pose proof (two_pos k).
    replace (a + two i * b + two i * z) with (a + two i * (b + z)) by ring. rewrite (Z.div_mod (b + z) (two k)) at 2 by lia.
    replace (a + two i * (two k * ((b + z) / two k) + (b + z) mod two k)) with (a + two i * ((b + z) mod two k) + ((b + z) / two k) * (two i * two k)) by ring.
    rewrite Z_mod_plus_full. reflexivity.
  - rewrite skipn_all2 by lia. unfold store at 1. cbn [length bits_of seq map write]. rewrite <- store_mod. replace i with (length t + (i - length t))%nat by lia. rewrite two_add.
    replace (value x t + two (length t) * two (i - length t) * z) with (value x t + (two (i - length t) * z) * two (length t)) by ring. rewrite Z_mod_plus_full, store_mod. symmetry. apply store_value, (proj1 R).
Qed.
Lemma seq_snoc k : seq 0 (S k) = seq 0 k ++ [k]. Proof. apply seq_S. Qed.
Lemma low_step v k : v mod two (S k) = v mod two k + b2 (Z.testbit v (Z.of_nat k)) * two k.
Proof.
  rewrite testbit_div by lia. rewrite two_S. pose proof (two_pos k). rewrite (Z.mul_comm 2), Z.rem_mul_r by lia. ring.
Qed.
Section qq.
Context (x : list bool) (ox oy t : list nat) (Rt : register t x) (Ry : register oy x) (Ax : apart ox t) (Ay : apart oy t).
Lemma qq_prefix k : (k <= length oy)%nat ->
  execute (flat_map (fun i => [Add [nth i oy 0%nat] (Qu ox) (skipn i t)]) (seq 0 k)) x = store x t (value x t + value x ox * (value x oy mod two k)).
Proof.
  induction k as [|k IH]; intros L.
  - cbn. rewrite Z.mod_1_r, Z.mul_0_r, Z.add_0_r. symmetry. apply store_value, (proj1 Rt).
  - rewrite seq_snoc, flat_map_app, execute_app, IH by lia. cbn [plus flat_map app]. set (w := value x t + value x ox * (value x oy mod two k)).
    rewrite execute_cons. cbn [execute fold_left perform forallb]. rewrite andb_true_r.
    rewrite store_other by (apply Ay, nth_In; lia). rewrite value_bit by (auto; lia). cbn [amount]. rewrite (value_store_off x t w ox) by exact Ax.
    assert (Rs : register t (store x t w)) by (apply (register_length _ x); [rewrite store_length|]; auto).
    rewrite low_step. destruct (Z.testbit (value x oy) (Z.of_nat k)); cbn [b2].
    + rewrite store_tail by exact Rs. rewrite store_store by apply (proj1 Rt). rewrite (value_store x t w Rt). rewrite <- store_mod, Zplus_mod_idemp_l, store_mod. f_equal. unfold w. ring.
    + f_equal. unfold w. ring.
Qed.
Lemma qq_mul_run : execute (qq_mul ox oy t) x = store x t (value x t + value x ox * value x oy).
Proof. unfold qq_mul. rewrite qq_prefix by lia. rewrite Z.mod_small by apply value_range. reflexivity. Qed.
Lemma qq_mul_valid : valid (length x) (qq_mul ox oy t).
Proof.
  unfold qq_mul. apply valid_flat_map. intros i I. apply in_seq in I. apply valid_one. destruct Rt as (D & B). split; [apply nodup_skipn, D|]. split.
  - intros q J. apply B. apply in_skipn in J. exact J.
  - intros q J. apply in_skipn in J. split.
    + intros [E|[]]. apply (Ay q); [rewrite <- E; apply nth_In; lia|exact J].
    + intros K. apply (Ax q K J).
Qed.
End qq.

Lemma qc_mul_run x t N : register t x -> Z.odd N = true -> execute (qc_mul_inplace t N) x = store x t (value x t * N).
Proof.
  intros R Odd. set (u := value x t). set (L := length t).
  assert (HN2 : N / 2 * 2 = N - 1) by (rewrite (Zdiv_odd N) at 1 || idtac; pose proof (Z.div_mod N 2); rewrite Zmod_odd, Odd in H; lia).
  destruct L as [|l] eqn:EL.
  { destruct t; [|discriminate]. cbn. reflexivity. }
  assert (P : forall k, (k <= l)%nat -> execute (flat_map (fun i => [Add [nth (S l - 2 - i) t 0%nat] (Cl (N / 2)) (skipn (S l - 1 - i) t)]) (seq 0 k)) x
    = store x t (u + (N - 1) * (u - u mod two (l - k)))).
  { induction k as [|k IH]; intros Hk.
    - cbn [seq flat_map execute fold_left]. rewrite Nat.sub_0_r. symmetry. apply store_same_value; [apply (proj1 R)|]. fold u. fold L. rewrite EL, two_S. pose proof (two_pos l).
      rewrite <- HN2. assert (E : u - u mod two l = u / two l * two l) by (rewrite (Z.div_mod u (two l)) at 1 by lia; ring). rewrite E.
      replace (u + N / 2 * 2 * (u / two l * two l)) with (u + (N / 2 * (u / two l)) * (2 * two l)) by ring. rewrite Z_mod_plus_full. apply Z.mod_small. pose proof (value_range x t). fold u L in H0. rewrite EL, two_S in H0. exact H0.
    - rewrite seq_snoc, flat_map_app, execute_app, IH by lia. cbn [plus flat_map app].
      replace (S l - 2 - k)%nat with (l - S k)%nat by lia. replace (S l - 1 - k)%nat with (S (l - S k))%nat by lia. set (j := (l - S k)%nat). replace (l - k)%nat with (S j) by lia.
      set (w := u + (N - 1) * (u - u mod two (S j))).
      rewrite execute_cons. cbn [execute fold_left perform forallb]. rewrite andb_true_r.
      assert (Rs : register t (store x t w)) by (apply (register_length _ x); [rewrite store_length|]; auto).
      rewrite bit_store by (auto; fold L; lia). cbn [amount].
      assert (Eb : Z.testbit w (Z.of_nat j) = Z.testbit u (Z.of_nat j)).
      { rewrite <- (Z.mod_pow2_bits_low w (Z.of_nat (S j))) by lia. rewrite <- (Z.mod_pow2_bits_low u (Z.of_nat (S j))) by lia. f_equal. unfold w.
        pose proof (two_pos (S j)). assert (E : u - u mod two (S j) = u / two (S j) * two (S j)) by (rewrite (Z.div_mod u (two (S j))) at 1 by lia; ring). rewrite E.
        replace (u + (N - 1) * (u / two (S j) * two (S j))) with (u + ((N - 1) * (u / two (S j))) * two (S j)) by ring. apply Z_mod_plus_full. }
      rewrite Eb. pose proof (low_step u j) as LS. destruct (Z.testbit u (Z.of_nat j)); cbn [b2] in LS.
      + rewrite store_tail by exact Rs. rewrite store_store by apply (proj1 R). rewrite (value_store x t w R). rewrite <- store_mod, Zplus_mod_idemp_l, store_mod. f_equal. unfold w. rewrite LS, (two_S j).
        replace (2 * two j * (N / 2)) with (two j * (N / 2 * 2)) by ring. rewrite HN2. ring.
      + f_equal. unfold w. rewrite LS. ring. }
  unfold qc_mul_inplace. fold L. rewrite EL. cbv zeta. replace (S l - 1)%nat with l by lia. specialize (P l ltac:(lia)). rewrite Nat.sub_diag in P. change (two 0) with 1 in P. rewrite Z.mod_1_r in P.
  assert (P' := P). replace (S l - 1)%nat with l in P' by lia. rewrite P'. f_equal. ring.
Qed.
Section product.
Context (z : list bool) (x y res aux : list nat) (N : Z) (m : nat).
Let n := length res.
Let T := aux ++ res.
Context (RT : register T z) (Ry : register y z) (Ax : apart x T) (Ay : apart y T) (La : length aux = (m + 1)%nat) (Hn : (0 < n)%nat) (Odd : Z.odd N = true) (HN : 0 < N <= two n)
        (Za : value z aux = 0) (Zr : value z res = 0).
Let t := value z x * value z y.
Lemma qq_run : t < two (m + n) -> exists S, execute (qq_montgomery_multiply x y N m res aux) z = store z res S /\ 0 <= S < two n /\ (S * two m) mod N = t mod N /\ (t < N * two m -> S < N).
Proof.
  intros Ht. assert (T0 : 0 <= t) by (unfold t; apply Z.mul_nonneg_nonneg; apply value_range). pose proof (two_pos m) as Pm. pose proof (two_pos n) as Pn.
  assert (Ne : T <> []) by (unfold T; destruct res; [cbn in *; lia|destruct aux; discriminate]).
  assert (ET : T = removelast T ++ [last T 0%nat]) by (apply app_removelast_last; exact Ne). set (W := removelast T) in *. set (l := last T 0%nat) in *.
  assert (LT : length T = (m + 1 + n)%nat) by (unfold T; rewrite app_length, La; reflexivity).
  assert (LW : length W = (m + n)%nat) by (rewrite ET, app_length in LT; cbn in LT; lia).
  assert (R0 := RT). rewrite ET in R0. destruct (register_app _ _ _ R0) as (RW & Rl & _).
  assert (VT : value z T = 0) by (unfold T; rewrite value_app, Za, Zr; ring).
  assert (VW : value z W = 0 /\ value z [l] = 0). { rewrite ET, value_app in VT. pose proof (value_range z W). pose proof (value_range z [l]). pose proof (two_pos (length W)). split; nia. }
  destruct (register_app _ _ _ RT) as (Raux & Rres & Dar).
  assert (E1 : execute (qq_mul x y W) z = store z T t).
  { rewrite qq_mul_run; auto.
    - destruct VW as (VW & Vl). rewrite VW, Z.add_0_l. fold t. rewrite (store_part z [] W [l]) by exact R0. cbn [app length plus]. rewrite <- ET. f_equal. rewrite Vl, value_nil, LW, Z.mod_small by lia. change (two 0) with 1. ring.
    - intros q I J. apply (Ax q I). rewrite ET, in_app_iff. auto.
    - intros q I J. apply (Ay q I). rewrite ET, in_app_iff. auto. }
  destruct (reduction_fits z T N m n RT LT Odd HN Hn t) as (S & u & ER & HS & U & C1 & C2 & C3); [lia|].
  exists S. split; [|split; [exact HS|split; [exact C1|exact C3]]].
  unfold qq_montgomery_multiply. cbv zeta. fold T. fold W. rewrite !execute_app, E1, ER. set (w := u + two (m + 1) * S). set (s := store z T w).
  assert (Ls : length s = length z) by apply store_length.
  assert (Ra : register aux s) by (apply (register_length _ z); auto).
  assert (W0 : 0 <= w < two (length T)) by (rewrite LT, two_add; unfold w; pose proof (two_pos (m + 1)); nia).
  destruct (split_value w [] aux res z) as (_ & V2 & V3); [cbn [app]; exact RT|cbn [app]; exact W0|]. cbn [app length Nat.add] in V2, V3. change (two 0) with 1 in V2. fold T in V2, V3. fold s in V2, V3.
  rewrite Z.div_1_r, La in V2. rewrite La in V3. unfold w in V2, V3. rewrite mod_low in V2 by exact U. rewrite div_low in V3 by exact U.
  rewrite qc_mul_run by auto. rewrite V2.
  assert (Off : forall q, In q res -> ~ In q aux) by (intros q I J; apply (Dar q J I)).
  assert (Sub : forall q, In q aux -> In q T) by (intros q I; unfold T; rewrite in_app_iff; auto).
  set (g := store z res S). assert (Lg : length g = length z) by apply store_length.
  assert (Ga : value g aux = 0) by (unfold g; rewrite value_store_off by exact Dar; exact Za).
  assert (EF : store s aux (u * N) = execute (qq_mul x y aux) g).
  { rewrite qq_mul_run; [|apply (register_length _ z); auto|apply (register_length _ z); auto|intros q I J; apply (Ax q I); auto|intros q I J; apply (Ay q I); auto].
    unfold g at 2 3 4. rewrite !value_store_off; [|intros q I J; apply (Ay q I); unfold T; rewrite in_app_iff; auto|intros q I J; apply (Ax q I); unfold T; rewrite in_app_iff; auto|exact Dar].
    rewrite Za. fold t. rewrite Z.add_0_l. rewrite <- store_mod, La, C2, <- La, store_mod.
    rewrite (store_part s [] aux res) by (cbn [app]; apply (register_length _ z); auto). rewrite (store_part g [] aux res) by (cbn [app]; apply (register_length _ z); auto). cbn [app length plus]. fold T.
    rewrite V3. unfold g. rewrite value_store by exact Rres; fold n; rewrite (Z.mod_small S) by lia. unfold s. rewrite store_store by apply (proj1 RT).
    rewrite !value_nil. rewrite (store_part z aux res []) by (rewrite app_nil_r; exact RT). rewrite app_nil_r. fold T. rewrite store_store by apply (proj1 RT). reflexivity. }
  rewrite EF. apply inverted_undoes. rewrite Lg. rewrite <- Lg. apply qq_mul_valid; [apply (register_length _ z); auto| |].
  - intros q I J. apply (Ax q I). auto.
  - intros q I J. apply (Ay q I). auto.
Qed.
End product.
