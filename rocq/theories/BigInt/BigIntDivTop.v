(** Correctness of the whole division under the trial-quotient guard. *)
From Verif.Lib Require Import Arr.
From Verif.BigInt Require Import BigIntSpec BigIntModel BigIntLemmas BigIntArith BigIntBits BigIntDiv BigIntKnuth.
Local Open Scope Z_scope.

Lemma psum_zero_tail f a n : (a <= n)%nat -> (forall p, (a <= p < n)%nat -> f p = 0) -> psum f n = psum f a.
Proof.
  intros Han H. induction n as [|n IH]; [replace a with 0%nat by lia; reflexivity|].
  destruct (Nat.eq_dec a (S n)) as [->|]; [reflexivity|].
  cbn [psum]. rewrite IH by (lia || (intros; apply H; lia)). rewrite (H n) by lia. lia.
Qed.

Lemma psum_zero_low_tail l m : wf l -> value l < BASE ^ Z.of_nat m -> forall p, (m <= p)%nat -> aget l p = 0.
Proof.
  intros W H p Hp. destruct (Nat.lt_ge_cases p (length l)) as [Hl|]; [|apply aget_overflow; lia].
  rewrite value_psum in H. pose proof (wf_get l p W) as B.
  destruct (Z.eq_dec (aget l p) 0) as [|Hne]; [assumption|exfalso].
  assert (HS : psum (aget l) (length l) >= psum (aget l) (S p)).
  { clear - W Hl. induction (length l) as [|n IH]; [lia|]. destruct (Nat.eq_dec n p) as [->|]; [lia|].
    cbn [psum]. specialize (IH ltac:(lia)). pose proof (wf_get l n W). pose proof (Bpow_pos n). cbn [psum] in IH. nia. }
  cbn [psum] in HS. pose proof (psum_nonneg l p W) as HN. pose proof (Bpow_pos p) as HB.
  assert (BASE ^ Z.of_nat m <= BASE ^ Z.of_nat p) by (apply Z.pow_le_mono_r; [apply BASE_pos|lia]).
  nia.
Qed.

(** loop invariant after k steps *)
Record kinv (V U0 : Z) (N m T k : nat) (st : list Z * list Z) : Prop := {
  ki_wu : wf (fst st);
  ki_lu : length (fst st) = S N;
  ki_wq : wf (snd st);
  ki_lq : length (snd st) = N;
  ki_q0 : forall p, (p < S T - k)%nat -> aget (snd st) p = 0;
  ki_val : value (fst st) + V * value (snd st) = U0;
  ki_bound : value (fst st) < V * BASE ^ Z.of_nat (S T - k)
}.

Lemma kinv_step v V U0 N m T k st :
  wf v -> (2 <= m <= length v)%nat -> (T + m <= N)%nat -> (k <= T)%nat ->
  V = psum (aget v) m -> BASE <= 2 * aget v (m - 1) ->
  kinv V U0 N m T k st -> trial_ok (fst st) v m (T - k) = true ->
  kinv V U0 N m T (S k) (knuth_step v m (T - k) st).
Proof.
  intros Wv Hm HT Hk EV Hn [Wu Lu Wq Lq Q0 Val Bnd] Tok. destruct st as [u q]. cbn [fst snd] in *.
  set (j := (T - k)%nat) in *. replace (S T - k)%nat with (S j) in * by (unfold j; lia).
  pose proof BASE_pos as HB. pose proof (Bpow_pos j) as HPj. pose proof (Bpow_pos m) as HPm.
  assert (HV : 0 <= V < BASE ^ Z.of_nat m) by (rewrite EV; apply psum_nonneg, Wv).
  assert (Hhigh : forall p, (S j + m <= p)%nat -> aget u p = 0).
  { apply (psum_zero_low_tail u (S j + m)); [exact Wu|]. eapply Z.lt_le_trans; [exact Bnd|].
    replace (Z.of_nat (S j + m)) with (Z.of_nat (S j) + Z.of_nat m) by lia.
    rewrite Z.pow_add_r by lia. rewrite Z.mul_comm. apply Z.mul_le_mono_nonneg_l; [|lia].
    apply Z.lt_le_incl, Bpow_pos. }
  assert (Hdec : forall w, wf w -> length w = S N -> (forall p, (S j + m <= p)%nat -> aget w p = 0) ->
            value w = psum (aget w) j + BASE ^ Z.of_nat j * wsum w j (S m)).
  { intros w _ Lw Hw. rewrite value_psum, Lw. rewrite (psum_zero_tail _ (j + S m) (S N)); [|unfold j; lia|intros; apply Hw; lia].
    unfold wsum. rewrite psum_split. ring. }
  pose proof (Hdec u Wu Lu Hhigh) as EU. set (U := wsum u j (S m)) in *.
  pose proof (psum_nonneg u j Wu) as Hlow.
  assert (HU : U < V * BASE).
  { rewrite Bpow_S in Bnd. rewrite EU in Bnd.
    apply (Z.mul_lt_mono_pos_l (BASE ^ Z.of_nat j)); [exact HPj|]. lia. }
  pose proof (knuth_step_spec v m j u q Wu Wv Wq ltac:(lia) ltac:(unfold j; lia) ltac:(unfold j; lia) ltac:(lia) Hn) as HS.
  cbv zeta in HS. rewrite <- EV in HS. specialize (HS HU Tok).
  destruct (knuth_step v m j (u, q)) as [u' q'].
  destruct HS as (d & Wu' & Lu' & Eq' & Hd & Keep & Ew & Hr). fold U in Ew, Hr.
  assert (Hhigh' : forall p, (S j + m <= p)%nat -> aget u' p = 0) by (intros; rewrite Keep by lia; apply Hhigh; lia).
  assert (EU' : value u' = psum (aget u) j + BASE ^ Z.of_nat j * (U - d * V)).
  { rewrite (Hdec u' Wu') by (rewrite ?Lu'; auto). rewrite Ew.
    f_equal. apply psum_ext. intros; apply Keep; lia. }
  assert (Eq : value q' = value q + d * BASE ^ Z.of_nat j).
  { rewrite Eq', !value_psum, length_aset. rewrite psum_aset by (unfold j; lia).
    destruct (Nat.ltb_spec j (length q)); [|unfold j in *; lia]. rewrite (Q0 j) by lia. lia. }
  split; cbn [fst snd].
  - exact Wu'.
  - lia.
  - rewrite Eq'. apply wf_aset; assumption.
  - rewrite Eq', length_aset. exact Lq.
  - intros p Hp. rewrite Eq'. rewrite aget_aset_neq by lia. apply Q0; lia.
  - rewrite EU', Eq. rewrite <- Val, EU. ring.
  - replace (S T - S k)%nat with j by (unfold j; lia). rewrite EU'. clear - Hr Hlow HPj. set (R := U - d * V) in *.
    assert (BASE ^ Z.of_nat j * R <= BASE ^ Z.of_nat j * (V - 1)) by (apply Z.mul_le_mono_nonneg_l; lia). lia.
Qed.

(** The guard: at each of the [T+1] steps the 64-bit trial quotient is the unbounded one. *)
Definition trials_ok_from (v : list Z) (m T : nat) (st0 : list Z * list Z) : Prop :=
  forall k, (k <= T)%nat -> trial_ok (fst (fori k (knuth_body v m T) st0)) v m (T - k) = true.

Lemma knuth_loop v V U0 N m T st0 :
  wf v -> (2 <= m <= length v)%nat -> (T + m <= N)%nat ->
  V = psum (aget v) m -> BASE <= 2 * aget v (m - 1) ->
  kinv V U0 N m T 0 st0 -> trials_ok_from v m T st0 ->
  kinv V U0 N m T (S T) (fori N (knuth_body v m T) st0).
Proof.
  intros Wv Hm HT EV Hn H0 Hok.
  assert (HA : forall k, (k <= S T)%nat -> kinv V U0 N m T k (fori k (knuth_body v m T) st0)).
  { induction k as [|k IH]; intros Hk; cbn [fori]; [exact H0|].
    unfold knuth_body at 1. destruct (Nat.leb_spec k T); [|lia].
    apply (kinv_step v); auto with arith. }
  assert (HB : forall k, kinv V U0 N m T (S T) (fori (S T + k) (knuth_body v m T) st0)).
  { induction k as [|k IH].
    - rewrite Nat.add_0_r. apply HA; lia.
    - rewrite Nat.add_succ_r. cbn [fori]. unfold knuth_body at 1.
      destruct (Nat.leb_spec (S T + k) T); [lia|]. exact IH. }
  replace N with (S T + (N - S T))%nat at 2 by lia. apply HB.
Qed.

(** initial state of the loop in [multi_limb_path] *)
Definition knuth_init (u v : list Z) (s : Z) : list Z * (list Z * list Z) :=
  let '(v_norm, _) := shl_bits v s in
  let '(u_part, c) := shl_bits u s in
  (v_norm, (u_part ++ [c], repeat 0 (length u))).

(** The guard on inputs, as a decidable function of the two operands. *)
Definition trials_exact (u v : list Z) : bool :=
  let m := ms_length v in
  let T := (ms_length u - m)%nat in
  match clz32 (aget v (m - 1)) with
  | None => false
  | Some s => let '(vn, st0) := knuth_init u v s in
      forallb (fun k => trial_ok (fst (fori k (knuth_body vn m T) st0)) vn m (T - k)) (seq 0 (S T))
  end.

Lemma value_single c : value [c] = c.
Proof. cbn. lia. Qed.

Lemma copy_loop (u : list Z) (m N k : nat) : (k <= N)%nat ->
  let r := fori k (fun i r_acc => aset r_acc i (if (i <? m)%nat then aget u i else 0)) (repeat 0 N) in
  length r = N /\ forall p, aget r p = if ((p <? k) && (p <? m))%nat then aget u p else 0.
Proof.
  intros Hk. cbv zeta. revert Hk. induction k as [|k IH]; intros Hk; cbn [fori].
  - split; [apply repeat_length|]. intros; apply aget_repeat.
  - destruct (IH ltac:(lia)) as [L G]. split; [rewrite length_aset; exact L|].
    intros p. destruct (Nat.eq_dec p k) as [->|Hne].
    + rewrite aget_aset_eq by lia. replace (k <? S k)%nat with true by lia. reflexivity.
    + rewrite aget_aset_neq by lia. rewrite G. destruct (Nat.ltb_spec p k), (Nat.ltb_spec p (S k)); try lia; reflexivity.
Qed.

(** normalised divisor *)
Lemma norm_divisor v s : wf v -> (1 <= ms_length v)%nat -> 0 <= s < 32 ->
  aget v (ms_length v - 1) * 2 ^ s < BASE -> 2 ^ 31 <= aget v (ms_length v - 1) * 2 ^ s ->
  let m := ms_length v in
  let vn := fst (shl_bits v s) in
  wf vn /\ length vn = length v /\ (m <= length v)%nat /\ value vn = value v * 2 ^ s /\ psum (aget vn) m = value v * 2 ^ s /\
  BASE <= 2 * aget vn (m - 1).
Proof.
  intros Wv Hm Hs Hlt Hge. cbv zeta. set (m := ms_length v) in *.
  pose proof (shl_bits_spec v s Wv Hs) as H. destruct (shl_bits v s) as [vn c]. cbn [fst].
  destruct H as (Wn & Ln & Hc & Ev).
  destruct (ms_length_spec v) as (Hml & _). fold m in Hml.
  pose proof (value_ms v) as Evm. fold m in Evm.
  pose proof (Bpow_pos (m - 1)) as HP. pose proof BASE_pos as HB.
  assert (Em : BASE ^ Z.of_nat m = BASE * BASE ^ Z.of_nat (m - 1)) by (rewrite <- Bpow_S; f_equal; lia).
  assert (Hvb : value v * 2 ^ s < BASE ^ Z.of_nat m /\ 2 ^ 31 * BASE ^ Z.of_nat (m - 1) <= value v * 2 ^ s).
  { assert (Ed : value v = psum (aget v) (m - 1) + aget v (m - 1) * BASE ^ Z.of_nat (m - 1)).
    { rewrite Evm. replace m with (S (m - 1)) at 1 by lia. reflexivity. }
    pose proof (psum_nonneg v (m - 1) Wv) as HN. pose proof (pow_split s ltac:(lia)) as EB.
    pose proof (Z.pow_pos_nonneg 2 s ltac:(lia) ltac:(lia)). pose proof (Z.pow_pos_nonneg 2 (32 - s) ltac:(lia) ltac:(lia)).
    rewrite Em, Ed. split; [|nia].
    assert (aget v (m - 1) < 2 ^ (32 - s)) by nia.
    assert ((psum (aget v) (m - 1) + aget v (m - 1) * BASE ^ Z.of_nat (m - 1)) < 2 ^ (32 - s) * BASE ^ Z.of_nat (m - 1)) by nia.
    set (P := BASE ^ Z.of_nat (m - 1)) in *. rewrite <- EB.
    replace (2 ^ s * 2 ^ (32 - s) * P) with (2 ^ (32 - s) * P * 2 ^ s) by ring.
    apply Z.mul_lt_mono_pos_r; assumption. }
  destruct Hvb as [Hvb1 Hvb2].
  assert (Hle : BASE ^ Z.of_nat m <= BASE ^ Z.of_nat (length v)) by (apply Z.pow_le_mono_r; lia).
  assert (Hvn : 0 <= value vn) by (apply value_bound; exact Wn).
  assert (Hc0 : c = 0) by nia. rewrite Hc0, Z.mul_0_l, Z.add_0_r in Ev.
  assert (Hz : forall p, (m <= p)%nat -> aget vn p = 0) by (apply psum_zero_low_tail; [exact Wn|lia]).
  assert (Ep : psum (aget vn) m = value vn).
  { rewrite (value_psum vn). symmetry. apply psum_zero_tail; [lia|intros; apply Hz; lia]. }
  repeat split; auto; try lia.
  (* top limb *)
  assert (Ed : psum (aget vn) m = psum (aget vn) (m - 1) + aget vn (m - 1) * BASE ^ Z.of_nat (m - 1)).
  { replace m with (S (m - 1)) at 1 by lia. reflexivity. }
  pose proof (psum_nonneg vn (m - 1) Wn) as HN.
  destruct (Z.le_gt_cases BASE (2 * aget vn (m - 1))) as [|Hc2]; [assumption|exfalso].
  assert (aget vn (m - 1) <= 2 ^ 31 - 1) by (rewrite BASE_val in Hc2; lia).
  assert (psum (aget vn) m < 2 ^ 31 * BASE ^ Z.of_nat (m - 1)) by nia. lia.
Qed.

Lemma ms_length_top v : wf v -> (1 <= ms_length v)%nat -> 0 < aget v (ms_length v - 1) < BASE.
Proof.
  intros W H. destruct (ms_length_spec v) as (_ & _ & Hn).
  pose proof (wf_get v (ms_length v - 1) W). destruct Hn; lia.
Qed.

Lemma knuth_init_inv u v s un c vn :
  wf u -> length u = length v -> (2 <= ms_length v)%nat -> (ms_length v <= ms_length u)%nat -> 0 <= s < 32 ->
  wf un -> length un = length u -> 0 <= c < 2 ^ s ->
  value un + c * BASE ^ Z.of_nat (length u) = value u * 2 ^ s ->
  wf vn -> psum (aget vn) (ms_length v) = value v * 2 ^ s -> BASE <= 2 * aget vn (ms_length v - 1) ->
  kinv (value v * 2 ^ s) (value u * 2 ^ s) (length u) (ms_length v) (ms_length u - ms_length v) 0
       (un ++ [c], repeat 0 (length u)).
Proof.
  intros Wu HL Hm Hnm Hs Wun Lun Hc Eu Wn Ep Hnrm.
  destruct (ms_length_spec u) as (Hnl & _). set (m := ms_length v) in *. set (n := ms_length u) in *.
  pose proof BASE_pos as HB. pose proof (Z.pow_pos_nonneg 2 s ltac:(lia) ltac:(lia)) as Hps.
  assert (Hps31 : 2 ^ s <= 2 ^ 31) by (apply Z.pow_le_mono_r; lia).
  set (N := length u) in *. set (T := (n - m)%nat) in *.
  set (V := value v * 2 ^ s) in *. set (U0 := value u * 2 ^ s) in *.
  assert (EU0 : value (un ++ [c]) = U0) by (rewrite value_app, value_single, cap_pow, Lun; rewrite <- Eu; ring).
  assert (Hvu : value u < BASE ^ Z.of_nat n).
  { rewrite (value_ms u). fold n. apply psum_nonneg, Wu. }
  assert (HV31 : 2 ^ 31 * BASE ^ Z.of_nat (m - 1) <= V).
  { assert (Ed : psum (aget vn) m = psum (aget vn) (m - 1) + aget vn (m - 1) * BASE ^ Z.of_nat (m - 1)).
    { replace m with (S (m - 1)) at 1 by lia. reflexivity. }
    pose proof (psum_nonneg vn (m - 1) Wn). pose proof (Bpow_pos (m - 1)). rewrite BASE_val in Hnrm.
    rewrite <- Ep, Ed. assert (2 ^ 31 <= aget vn (m - 1)) by lia. nia. }
  split; cbn [fst snd].
  - apply wf_app; [exact Wun|]. constructor; [|constructor]. change BASE with (2 ^ 32). lia.
  - rewrite app_length. cbn. lia.
  - apply wf_repeat.
  - apply repeat_length.
  - intros; apply aget_repeat.
  - rewrite value_repeat, EU0. lia.
  - rewrite EU0, Nat.sub_0_r.
    pose proof (Bpow_pos n). pose proof (Bpow_pos (S T)). pose proof (Bpow_pos (m - 1)).
    assert (A1 : U0 < 2 ^ 31 * BASE ^ Z.of_nat n).
    { unfold U0. apply Z.lt_le_trans with (BASE ^ Z.of_nat n * 2 ^ s).
      - apply Z.mul_lt_mono_pos_r; lia.
      - rewrite Z.mul_comm. apply Z.mul_le_mono_nonneg_r; lia. }
    assert (E2 : BASE ^ Z.of_nat n = BASE ^ Z.of_nat (m - 1) * BASE ^ Z.of_nat (S T)).
    { rewrite <- Z.pow_add_r by lia. f_equal. unfold T. lia. }
    rewrite E2 in A1. eapply Z.lt_le_trans; [exact A1|]. rewrite Z.mul_assoc.
    apply Z.mul_le_mono_nonneg_r; lia.
Qed.

Lemma multi_limb_spec u v : wf u -> wf v -> length u = length v ->
  (2 <= ms_length v)%nat -> (ms_length v <= ms_length u)%nat -> trials_exact u v = true ->
  exists r q, multi_limb_path u v (ms_length v) (ms_length u) = Some (r, q) /\
    wf r /\ wf q /\ length r = length u /\ length q = length u /\
    value q = value u / value v /\ value r = value u mod value v.
Proof.
  intros Wu Wv HL Hm Hnm HT. unfold multi_limb_path, trials_exact in *.
  pose proof (ms_length_top v Wv ltac:(lia)) as Htop. set (m := ms_length v) in *. set (n := ms_length u) in *.
  destruct (clz32_spec _ Htop) as (s & Es & Hs & Hs2). rewrite Es in *.
  destruct (norm_divisor v s Wv ltac:(fold m; lia) ltac:(lia) ltac:(fold m; lia) ltac:(fold m; lia)) as (Wn & Ln & Hml & Ev & Ep & Hnrm).
  fold m in Hml, Ep, Hnrm. unfold knuth_init in HT. destruct (shl_bits v s) as [vn cv]. cbn [fst] in *.
  pose proof (shl_bits_spec u s Wu ltac:(lia)) as HU. destruct (shl_bits u s) as [un c].
  destruct HU as (Wun & Lun & Hc & Eu).
  destruct (ms_length_spec u) as (Hnl & _). fold n in Hnl.
  pose proof BASE_pos as HB. pose proof (Z.pow_pos_nonneg 2 s ltac:(lia) ltac:(lia)) as Hps.
  assert (Hps31 : 2 ^ s <= 2 ^ 31) by (apply Z.pow_le_mono_r; lia).
  set (N := length u) in *. set (T := (n - m)%nat) in *.
  set (V := value v * 2 ^ s) in *. set (U0 := value u * 2 ^ s) in *.
  assert (EU0 : value (un ++ [c]) = U0) by (rewrite value_app, value_single, cap_pow, Lun; rewrite <- Eu; ring).
  assert (Hvu : value u < BASE ^ Z.of_nat n).
  { rewrite (value_ms u). fold n. apply psum_nonneg, Wu. }
  assert (HV31 : 2 ^ 31 * BASE ^ Z.of_nat (m - 1) <= V).
  { assert (Ed : psum (aget vn) m = psum (aget vn) (m - 1) + aget vn (m - 1) * BASE ^ Z.of_nat (m - 1)).
    { replace m with (S (m - 1)) at 1 by lia. reflexivity. }
    pose proof (psum_nonneg vn (m - 1) Wn). pose proof (Bpow_pos (m - 1)). rewrite BASE_val in Hnrm.
    rewrite <- Ep, Ed. assert (2 ^ 31 <= aget vn (m - 1)) by lia. nia. }
  pose proof (knuth_init_inv u v s un c vn Wu HL Hm Hnm ltac:(lia) Wun Lun Hc Eu Wn Ep Hnrm) as I0.
  fold m n N T V U0 in I0.
  assert (Hok : trials_ok_from vn m T (un ++ [c], repeat 0 N)).
  { intros k Hk. rewrite forallb_forall in HT. apply HT. apply in_seq. lia. }
  pose proof (knuth_loop vn V U0 N m T _ Wn ltac:(lia) ltac:(unfold T; lia) (eq_sym Ep) Hnrm I0 Hok) as HF.
  destruct (fori N (knuth_body vn m T) (un ++ [c], repeat 0 N)) as [uf qf].
  destruct HF as [Wf Lf Wq Lq _ Val Bnd]. cbn [fst snd] in *.
  rewrite Nat.sub_diag in Bnd. change (Z.of_nat 0) with 0 in Bnd. rewrite Z.pow_0_r, Z.mul_1_r in Bnd.
  assert (HVm : V < BASE ^ Z.of_nat m) by (rewrite <- Ep; apply psum_nonneg, Wn).
  pose proof (psum_zero_low_tail uf m Wf ltac:(lia)) as Hz.
  pose proof (copy_loop uf m N N ltac:(lia)) as HC. cbv zeta in HC.
  set (rf := fori N _ (repeat 0 N)) in *. destruct HC as [Lr Gr].
  assert (Wr : wf rf).
  { apply wf_limb. intros p _. rewrite Gr. destruct (_ && _); [apply wf_get, Wf|lia]. }
  assert (Er : value rf = value uf).
  { rewrite !value_psum, Lr, Lf. cbn [psum]. rewrite (Hz N) by lia. rewrite Z.mul_0_l, Z.add_0_r.
    apply psum_ext. intros p Hp. rewrite Gr. replace (p <? N)%nat with true by lia. cbn [andb].
    destruct (Nat.ltb_spec p m); [reflexivity|]. symmetry. apply Hz. lia. }
  destruct (shr_bits_spec rf s Wr ltac:(lia)) as (Wsr & Lsr & Esr).
  exists (shr_bits rf s), qf. split; [reflexivity|].
  assert (Hvp : 0 < value v) by (unfold V in HV31; pose proof (Bpow_pos (m - 1)); nia).
  assert (Euf : value uf = (value u - value v * value qf) * 2 ^ s) by (unfold U0, V in Val; lia).
  assert (Hr0 : 0 <= value uf) by (apply value_bound; exact Wf).
  assert (Hrem : 0 <= value u - value v * value qf < value v).
  { unfold V in Bnd. rewrite Euf in Bnd, Hr0. split; nia. }
  repeat split; auto; try lia.
  - apply (Z.div_unique_pos _ _ _ (value u - value v * value qf)); lia.
  - rewrite Esr, Er, Euf, Z.div_mul by lia.
    apply (Z.mod_unique_pos _ _ (value qf)); lia.
Qed.

Lemma ms_length_one v : ms_length v = 1%nat -> value v = aget v 0.
Proof. intros E. rewrite (value_ms v), E. cbn [psum]. rewrite Z.mul_1_r. reflexivity. Qed.

(** Shape of every result, including the failing ones *)
Lemma div_zero u v : length u = length v -> wf v -> value v = 0 ->
  remainder_division u v = Some (repeat 0 (length u), repeat 0 (length u)).
Proof.
  intros HL Wv H0. unfold remainder_division, remainder_division_knuth. rewrite HL, Nat.eqb_refl.
  apply ms_length_zero in H0; [|exact Wv]. rewrite H0. reflexivity.
Qed.

Lemma ms_length_single v : wf v -> 0 < value v < BASE -> ms_length v = 1%nat.
Proof.
  intros W H. destruct (Nat.eq_dec (ms_length v) 0) as [E|Hne].
  { apply ms_length_zero in E; [lia|exact W]. }
  pose proof (value_ms_bounds v W ltac:(lia)) as [Hb _].
  destruct (Nat.eq_dec (ms_length v) 1); [assumption|exfalso].
  assert (BASE ^ 1 <= BASE ^ Z.of_nat (ms_length v - 1)) by (apply Z.pow_le_mono_r; [apply BASE_pos|lia]).
  rewrite Z.pow_1_r in *. lia.
Qed.

Definition exact_division (u v : list Z) : Prop :=
  exists r q, remainder_division u v = Some (r, q) /\ wf r /\ wf q /\
    length r = length u /\ length q = length u /\
    value q = value u / value v /\ value r = value u mod value v.

Lemma div_single u v : wf u -> wf v -> length u = length v -> 0 < value v < BASE -> exact_division u v.
Proof.
  intros Wu Wv HL Hv. unfold exact_division, remainder_division, remainder_division_knuth. rewrite HL, Nat.eqb_refl, <- HL.
  pose proof (ms_length_single v Wv Hv) as Hm. rewrite Hm. cbn [Nat.eqb].
  pose proof (ms_length_one v Hm) as Ev.
  destruct (Nat.ltb_spec (ms_length u) 1) as [Hlt|Hge].
  - assert (E0 : value u = 0) by (apply ms_length_zero; [exact Wu|lia]).
    exists u, (repeat 0 (length u)). rewrite value_repeat, E0, Z.div_0_l, Z.mod_0_l by lia.
    repeat split; auto; [apply wf_repeat|apply repeat_length].
  - pose proof (divmod_single_limb_spec u (aget v 0) Wu ltac:(lia)) as H.
    destruct (divmod_single_limb u (aget v 0)) as [q r]. destruct H as (W & L & Eq & Er). rewrite Ev.
    pose proof (Z.mod_pos_bound (value u) (aget v 0) ltac:(lia)).
    assert (Hl : (0 < length u)%nat) by (destruct (ms_length_spec u); lia).
    exists (aset (repeat 0 (length u)) 0 r), q. repeat split; auto.
    + apply wf_aset; [apply wf_repeat|lia].
    + rewrite length_aset. apply repeat_length.
    + rewrite value_psum, length_aset, repeat_length, psum_aset by (rewrite repeat_length; lia).
      rewrite psum_repeat, aget_repeat. destruct (Nat.ltb_spec 0 (length u)); [|lia].
      change (Z.of_nat 0) with 0. rewrite Z.pow_0_r. lia.
Qed.

Lemma div_less u v : wf u -> wf v -> length u = length v -> (ms_length u < ms_length v)%nat -> exact_division u v.
Proof.
  intros Wu Wv HL Hlt. unfold exact_division, remainder_division, remainder_division_knuth. rewrite HL, Nat.eqb_refl, <- HL.
  destruct (Nat.eqb_spec (ms_length v) 0); [lia|]. destruct (Nat.ltb_spec (ms_length u) (ms_length v)); [|lia].
  exists u, (repeat 0 (length u)). pose proof (value_ms_bounds v Wv ltac:(lia)) as [Hb _].
  pose proof (value_bound u Wu) as [H0 _].
  assert (value u < BASE ^ Z.of_nat (ms_length u)) by (rewrite value_ms; apply psum_nonneg, Wu).
  assert (BASE ^ Z.of_nat (ms_length u) <= BASE ^ Z.of_nat (ms_length v - 1)) by (apply Z.pow_le_mono_r; [apply BASE_pos|lia]).
  rewrite value_repeat, Z.div_small, Z.mod_small by lia.
  repeat split; auto; [apply wf_repeat|apply repeat_length].
Qed.

Lemma div_trials u v : wf u -> wf v -> length u = length v -> 0 < value v -> trials_exact u v = true -> exact_division u v.
Proof.
  intros Wu Wv HL Hv HT.
  destruct (Nat.le_gt_cases 2 (ms_length v)) as [Hm|Hm].
  - destruct (Nat.le_gt_cases (ms_length v) (ms_length u)) as [Hn|Hn]; [|apply div_less; auto].
    unfold exact_division, remainder_division, remainder_division_knuth. rewrite HL, Nat.eqb_refl, <- HL.
    destruct (Nat.eqb_spec (ms_length v) 0); [lia|]. destruct (Nat.ltb_spec (ms_length u) (ms_length v)); [lia|].
    destruct (Nat.eqb_spec (ms_length v) 1); [lia|]. apply multi_limb_spec; auto.
  - apply div_single; auto. split; [exact Hv|]. rewrite value_ms.
    assert (psum (aget v) (ms_length v) < BASE ^ Z.of_nat (ms_length v)) by apply psum_nonneg, Wv.
    assert (BASE ^ Z.of_nat (ms_length v) <= BASE ^ 1) by (apply Z.pow_le_mono_r; [apply BASE_pos|lia]).
    rewrite Z.pow_1_r in *. lia.
Qed.

(** ** input-level sufficient conditions for the guard *)
Lemma trial_vm2_zero u2 u1 u0 den :
  0 <= u2 < BASE -> 0 <= u1 < BASE -> 0 <= u0 < BASE -> 0 < den < BASE ->
  trial_quotient u2 u1 u0 den 0 = trial_ideal u2 u1 u0 den 0.
Proof.
  intros H2 H1 H0 Hd. unfold trial_quotient, trial_ideal. rewrite pow32, !shiftl32, !Z.mul_0_r.
  rewrite (w64_small (u2 * BASE)) by (rewrite BASE_val in *; lia).
  rewrite (w64_small (u2 * BASE + u1)) by (rewrite BASE_val in *; lia).
  set (num := u2 * BASE + u1) in *.
  assert (Hn : 0 <= num) by (unfold num; pose proof BASE_pos; nia).
  set (qh := Z.min (num / den) (BASE - 1)).
  assert (Hge : qh * den <= num).
  { assert (qh <= num / den) by (unfold qh; lia). pose proof (Z.mul_div_le num den ltac:(lia)). nia. }
  assert (E1 : forall x, (w64 0 >? w64 x) = false).
  { intros x. change (w64 0) with 0. pose proof (Z.mod_pos_bound x (BASE * BASE) ltac:(pose proof BASE_pos; lia)).
    unfold w64. lia. }
  cbv zeta. rewrite !E1, !andb_false_r. rewrite ?E1.
  replace (0 >? (num - qh * den) * BASE + u0) with false by (pose proof BASE_pos; nia).
  rewrite ?andb_false_r. replace (0 >? (num - qh * den) * BASE + u0) with false by (pose proof BASE_pos; nia). reflexivity.
Qed.

(** Reaching every step: if the invariant implies the guard at each step the whole run is guarded. *)
Lemma trials_from_inv v V U0 N m T st0 :
  wf v -> (2 <= m <= length v)%nat -> (T + m <= N)%nat ->
  V = psum (aget v) m -> BASE <= 2 * aget v (m - 1) ->
  kinv V U0 N m T 0 st0 ->
  (forall k st, (k <= T)%nat -> kinv V U0 N m T k st -> trial_ok (fst st) v m (T - k) = true) ->
  trials_ok_from v m T st0.
Proof.
  intros Wv Hm HT EV Hn H0 Hg.
  assert (HA : forall k, (k <= S T)%nat -> kinv V U0 N m T k (fori k (knuth_body v m T) st0)).
  { induction k as [|k IH]; intros Hk; cbn [fori]; [exact H0|].
    unfold knuth_body at 1. destruct (Nat.leb_spec k T); [|lia].
    apply (kinv_step v); auto with arith. }
  intros k Hk. apply Hg; [exact Hk|apply HA; lia].
Qed.

Lemma trial_ok_digits v V U0 N m T k st :
  wf v -> (2 <= m <= length v)%nat -> (T + m <= N)%nat ->
  V = psum (aget v) m -> BASE <= 2 * aget v (m - 1) -> (k <= T)%nat ->
  kinv V U0 N m T k st ->
  (U0 / V / BASE ^ Z.of_nat (T - k)) mod BASE <= BASE - 4 ->
  trial_ok (fst st) v m (T - k) = true.
Proof.
  intros Wv Hm HT EV Hn Hk [Wu Lu Wq Lq Q0 Val Bnd] Hdig. destruct st as [u q]. cbn [fst snd] in *.
  set (j := (T - k)%nat) in *. assert (Ej : (S T - k)%nat = S j) by (clear - Hk; unfold j; lia). rewrite Ej in *.
  pose proof BASE_pos as HB. pose proof (Bpow_pos j) as HPj. pose proof (Bpow_pos m) as HPm.
  apply Z.eqb_eq. apply trial_unsaturated; try (apply wf_get; assumption); [pose proof (wf_get v (m - 1) Wv); lia|].
  set (u2 := aget u (j + m)) in *. set (u1 := aget u (j + m - 1)) in *. set (u0 := aget u (j + m - 2)) in *.
  set (den := aget v (m - 1)) in *. set (vm2 := aget v (m - 2)) in *.
  pose proof (wf_get u (j + m) Wu) as B2. pose proof (wf_get u (j + m - 1) Wu) as B1.
  pose proof (wf_get u (j + m - 2) Wu) as B0. pose proof (wf_get v (m - 1) Wv) as Bd. pose proof (wf_get v (m - 2) Wv) as Bv.
  fold u2 in B2. fold u1 in B1. fold u0 in B0. fold den in Bd. fold vm2 in Bv.
  set (P := BASE ^ Z.of_nat (m - 2)).
  assert (HP : 0 < P) by apply Bpow_pos.
  assert (EM1 : BASE ^ Z.of_nat (m - 1) = BASE * P) by (unfold P; rewrite <- Bpow_S; f_equal; lia).
  assert (EM : BASE ^ Z.of_nat m = BASE * (BASE * P)) by (rewrite <- EM1, <- Bpow_S; f_equal; lia).
  assert (EV2 : V = (den * BASE + vm2) * P + psum (aget v) (m - 2)).
  { rewrite EV. replace m with (S (S (m - 2))) at 1 by lia. cbn [psum].
    replace (S (m - 2)) with (m - 1)%nat by lia. fold den vm2 P. rewrite EM1. ring. }
  pose proof (psum_nonneg v (m - 2) Wv) as Hlv. fold P in Hlv.
  set (U := wsum u j (S m)).
  assert (EU : U = ((u2 * BASE + u1) * BASE + u0) * P + wsum u j (m - 2)).
  { unfold U. rewrite wsum_S. replace m with (S (S (m - 2))) at 1 by lia. rewrite !wsum_S.
    replace (j + S (m - 2))%nat with (j + m - 1)%nat by lia. replace (j + (m - 2))%nat with (j + m - 2)%nat by lia.
    replace (S (m - 2)) with (m - 1)%nat by lia. fold u2 u1 u0 P. rewrite EM, EM1. ring. }
  pose proof (wsum_bound u j (m - 2) Wu) as Hlu. fold P in Hlu.
  assert (HVpos : 0 < V) by (rewrite EV2; assert (Hx : 0 < den * BASE + vm2) by (clear - Bv Hn HB; nia); clear - HP Hlv Hx; nia).
  assert (HVm : V < BASE ^ Z.of_nat m) by (rewrite EV; apply psum_nonneg, Wv).
  (* window *)
  assert (Hhigh : forall p, (S j + m <= p)%nat -> aget u p = 0).
  { apply (psum_zero_low_tail u (S j + m)); [exact Wu|]. eapply Z.lt_le_trans; [exact Bnd|].
    replace (Z.of_nat (S j + m)) with (Z.of_nat (S j) + Z.of_nat m) by lia.
    rewrite Z.pow_add_r by lia. rewrite Z.mul_comm. apply Z.mul_le_mono_nonneg_l; [|lia].
    apply Z.lt_le_incl, Bpow_pos. }
  assert (Ewin : value u = psum (aget u) j + BASE ^ Z.of_nat j * U).
  { rewrite value_psum, Lu. rewrite (psum_zero_tail _ (j + S m) (S N)); [|unfold j; lia|intros; apply Hhigh; lia].
    unfold U, wsum. rewrite psum_split. ring. }
  pose proof (psum_nonneg u j Wu) as Hlow.
  assert (HU : 0 <= U < V * BASE).
  { split; [apply wsum_bound; exact Wu|]. rewrite Bpow_S in Bnd. rewrite Ewin in Bnd.
    apply (Z.mul_lt_mono_pos_l (BASE ^ Z.of_nat j)); [exact HPj|]. lia. }
  set (d := U / V).
  assert (Hd : d * V <= U < (d + 1) * V).
  { unfold d. pose proof (Z.div_mod U V ltac:(lia)). pose proof (Z.mod_pos_bound U V ltac:(lia)). lia. }
  assert (Hdr : 0 <= d < BASE).
  { unfold d. split; [apply Z.div_pos; lia|]. apply Z.div_lt_upper_bound; lia. }
  (* d is digit j of the quotient *)
  assert (Hqm : exists h, value q = h * BASE ^ Z.of_nat (S j)).
  { exists (psum (fun i => aget q (S j + i)) (N - S j)). rewrite value_psum, Lq.
    replace N with (S j + (N - S j))%nat at 1 by (unfold j; lia). rewrite psum_split.
    rewrite (psum_zero_tail (aget q) 0 (S j)) by (lia || (intros; apply Q0; lia)). cbn [psum]. ring. }
  destruct Hqm as [h Eh].
  assert (Edig : (U0 / V / BASE ^ Z.of_nat j) mod BASE = d).
  { rewrite Z.div_div by lia.
    assert (E : U0 / (V * BASE ^ Z.of_nat j) = h * BASE + d).
    { symmetry. apply (Z.div_unique_pos _ _ _ (psum (aget u) j + BASE ^ Z.of_nat j * (U - d * V))).
      - clear - Hd Hlow HPj. split; [assert (0 <= BASE ^ Z.of_nat j * (U - d * V)) by (apply Z.mul_nonneg_nonneg; lia); lia|].
        assert (BASE ^ Z.of_nat j * (U - d * V) <= BASE ^ Z.of_nat j * (V - 1)) by (apply Z.mul_le_mono_nonneg_l; lia). lia.
      - rewrite <- Val, Ewin, Eh, Bpow_S. ring. }
    rewrite E, Z.add_comm, Z.mod_add by lia. apply Z.mod_small; lia. }
  rewrite Edig in Hdig.
  destruct (Z.lt_ge_cases ((u2 * BASE + u1) / den) (BASE - 1)) as [|Hge]; [assumption|exfalso].
  assert (BASE - 1 <= d + 2); [|lia].
  apply (est_two U V (wsum u j (m - 2)) (psum (aget v) (m - 2)) u2 u1 u0 den vm2 P d); auto; try lia.
  apply Z.le_trans with ((u2 * BASE + u1) / den * den).
  - apply Z.mul_le_mono_nonneg_r; lia.
  - rewrite Z.mul_comm. apply Z.mul_div_le; lia.
Qed.

(** the shared set-up of [multi_limb_spec], used to discharge the guard *)
Lemma trials_exact_intro u v : wf u -> wf v -> length u = length v ->
  (2 <= ms_length v)%nat -> (ms_length v <= ms_length u)%nat ->
  (forall s vn N m T k st, 0 <= s < 32 -> vn = fst (shl_bits v s) -> N = length u -> m = ms_length v -> T = (ms_length u - m)%nat ->
     wf vn -> (2 <= m <= length vn)%nat -> (T + m <= N)%nat -> value v * 2 ^ s = psum (aget vn) m -> BASE <= 2 * aget vn (m - 1) ->
     (k <= T)%nat -> kinv (value v * 2 ^ s) (value u * 2 ^ s) N m T k st -> trial_ok (fst st) vn m (T - k) = true) ->
  trials_exact u v = true.
Proof.
  intros Wu Wv HL Hm Hnm Hg. unfold trials_exact.
  pose proof (ms_length_top v Wv ltac:(lia)) as Htop. set (m := ms_length v) in *. set (n := ms_length u) in *.
  destruct (clz32_spec _ Htop) as (s & Es & Hs & Hs2). rewrite Es in *.
  destruct (norm_divisor v s Wv ltac:(fold m; lia) ltac:(lia) ltac:(fold m; lia) ltac:(fold m; lia)) as (Wn & Ln & Hml & Ev & Ep & Hnrm).
  fold m in Hml, Ep, Hnrm. specialize (Hg s (fst (shl_bits v s))). unfold knuth_init. destruct (shl_bits v s) as [vn cv]. cbn [fst] in *.
  pose proof (shl_bits_spec u s Wu ltac:(lia)) as HU. destruct (shl_bits u s) as [un c].
  destruct HU as (Wun & Lun & Hc & Eu).
  destruct (ms_length_spec u) as (Hnl & _). fold n in Hnl.
  pose proof BASE_pos as HB. pose proof (Z.pow_pos_nonneg 2 s ltac:(lia) ltac:(lia)) as Hps.
  assert (Hps31 : 2 ^ s <= 2 ^ 31) by (apply Z.pow_le_mono_r; lia).
  set (N := length u) in *. set (T := (n - m)%nat) in *.
  pose proof (knuth_init_inv u v s un c vn) as I0.
  rewrite forallb_forall. intros k Hk. apply in_seq in Hk.
  assert (HT : trials_ok_from vn m T (un ++ [c], repeat 0 N)); [|apply HT; lia].
  apply (trials_from_inv vn (value v * 2 ^ s) (value u * 2 ^ s) N m T (un ++ [c], repeat 0 N)).
  - exact Wn.
  - lia.
  - unfold T; lia.
  - auto.
  - exact Hnrm.
  - apply I0; auto; lia.
  - intros k' st' Hk' HI. apply (Hg N m T k' st'); auto; unfold T in *; lia.
Qed.

Lemma div_digits u v : wf u -> wf v -> length u = length v -> 0 < value v ->
  (forall i, (value u / value v / BASE ^ Z.of_nat i) mod BASE <= BASE - 4) -> exact_division u v.
Proof.
  intros Wu Wv HL Hv Hd.
  destruct (Nat.le_gt_cases 2 (ms_length v)) as [Hm|Hm].
  - destruct (Nat.le_gt_cases (ms_length v) (ms_length u)) as [Hn|Hn]; [|apply div_less; auto].
    apply div_trials; auto. apply trials_exact_intro; auto.
    intros s vn N m T k st Hs Evn EN Em ET Wn Hmm HTm EV Hnr Hk HI.
    pose proof (Z.pow_pos_nonneg 2 s ltac:(lia) ltac:(lia)).
    apply (trial_ok_digits vn (value v * 2 ^ s) (value u * 2 ^ s) N m T k st); auto.
    rewrite Z.div_mul_cancel_r by lia. apply Hd.
  - apply div_single; auto. split; [exact Hv|]. rewrite value_ms.
    assert (psum (aget v) (ms_length v) < BASE ^ Z.of_nat (ms_length v)) by apply psum_nonneg, Wv.
    assert (BASE ^ Z.of_nat (ms_length v) <= BASE ^ 1) by (apply Z.pow_le_mono_r; [apply BASE_pos|lia]).
    rewrite Z.pow_1_r in *. lia.
Qed.

(** every quotient below 2^32 - 3 satisfies the digit condition *)
Lemma div_small_quotient u v : wf u -> wf v -> length u = length v -> 0 < value v ->
  value u / value v <= BASE - 4 -> exact_division u v.
Proof.
  intros Wu Wv HL Hv Hq. apply div_digits; auto. intros i.
  pose proof (value_bound u Wu) as [H0 _]. assert (Hp : 0 <= value u / value v) by (apply Z.div_pos; lia).
  pose proof BASE_pos. pose proof (Bpow_pos i).
  pose proof (Z.div_pos (value u / value v) (BASE ^ Z.of_nat i) Hp ltac:(lia)) as H2.
  assert (value u / value v / BASE ^ Z.of_nat i <= value u / value v).
  { apply Z.div_le_upper_bound; [lia|]. nia. }
  rewrite Z.mod_small by lia. lia.
Qed.

(** divisors c * 2^(32 k), 0 < c < 2^32 *)
Lemma div_limb_shift u v k c : wf u -> wf v -> length u = length v -> 0 < c < BASE ->
  value v = c * BASE ^ Z.of_nat k -> exact_division u v.
Proof.
  intros Wu Wv HL Hc Ev. pose proof (Bpow_pos k) as HPk. assert (Hv : 0 < value v) by nia. pose proof BASE_pos as HB.
  destruct (Nat.le_gt_cases 2 (ms_length v)) as [Hm|Hm].
  - destruct (Nat.le_gt_cases (ms_length v) (ms_length u)) as [Hn|Hn]; [|apply div_less; auto].
    apply div_trials; auto. apply trials_exact_intro; auto.
    intros s vn N m T t st Hs Evn EN Em ET Wn Hmm HTm EV Hnr Hk HI.
    assert (Ek : k = (m - 1)%nat).
    { pose proof (value_ms_bounds v Wv ltac:(lia)) as [L1 L2]. rewrite <- Em in L1, L2. rewrite Ev in L1, L2.
      destruct (Nat.lt_trichotomy k (m - 1)) as [H|[H|H]]; [exfalso|exact H|exfalso].
      - assert (BASE ^ Z.of_nat (S k) <= BASE ^ Z.of_nat (m - 1)) by (apply Z.pow_le_mono_r; lia).
        rewrite Bpow_S in *. nia.
      - assert (BASE ^ Z.of_nat m <= BASE ^ Z.of_nat k) by (apply Z.pow_le_mono_r; lia). nia. }
    assert (Hz : aget vn (m - 2) = 0).
    { (* value = (c 2^s) B^(m-1) so all lower limbs vanish *)
      assert (Ed : psum (aget vn) m = psum (aget vn) (m - 1) + aget vn (m - 1) * BASE ^ Z.of_nat (m - 1)).
      { replace m with (S (m - 1)) at 1 by lia. reflexivity. }
      rewrite <- EV, Ev, Ek in Ed. pose proof (psum_nonneg vn (m - 1) Wn) as HN.
      assert (E0 : psum (aget vn) (m - 1) = 0).
      { rewrite <- (Z.mod_small _ _ HN).
        replace (psum (aget vn) (m - 1)) with ((c * 2 ^ s - aget vn (m - 1)) * BASE ^ Z.of_nat (m - 1)) by lia.
        apply Z.mod_mul. lia. }
      assert (Ed2 : psum (aget vn) (m - 1) = psum (aget vn) (m - 2) + aget vn (m - 2) * BASE ^ Z.of_nat (m - 2)).
      { replace (m - 1)%nat with (S (m - 2)) by lia. reflexivity. }
      pose proof (psum_nonneg vn (m - 2) Wn). pose proof (wf_get vn (m - 2) Wn). pose proof (Bpow_pos (m - 2)). nia. }
    destruct HI as [WU _ _ _ _ _ _]. unfold trial_ok. rewrite Hz. apply Z.eqb_eq, trial_vm2_zero; try (apply wf_get; assumption).
    pose proof (wf_get vn (m - 1) Wn). lia.
  - apply div_single; auto. split; [exact Hv|]. rewrite value_ms.
    assert (psum (aget v) (ms_length v) < BASE ^ Z.of_nat (ms_length v)) by apply psum_nonneg, Wv.
    assert (BASE ^ Z.of_nat (ms_length v) <= BASE ^ 1) by (apply Z.pow_le_mono_r; [apply BASE_pos|lia]).
    rewrite Z.pow_1_r in *. lia.
Qed.

Lemma div_zero_value u v : length u = length v -> wf v -> value v = 0 ->
  exists r q, remainder_division u v = Some (r, q) /\ length r = length u /\ length q = length u /\ value q = 0 /\ value r = 0.
Proof.
  intros HL Wv H0. rewrite (div_zero u v HL Wv H0). do 2 eexists. split; [reflexivity|].
  rewrite repeat_length, value_repeat. auto.
Qed.
