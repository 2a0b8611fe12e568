(** Correctness of the Cuccaro adder for every width. *)
From Verif.Adders Require Import CuccaroModel.

Ltac regs := let r := fresh "r" in let i := fresh "i" in intros [r i];
  destruct r as [|[|[|[|[|[|[|r]]]]]]]; unfold upd, qeq; cbn [fst snd Nat.eqb andb orb all_set forallb].
Ltac simp := cbn [fst snd Nat.eqb andb orb all_set forallb].

Local Notation A := (fun i => (0, i)).
Local Notation B := (fun i => (1, i)).
Local Notation ANC := (fun i => (3, i)).

Section Core.
Variables (n : nat) (s0 : bstate) (a b : nat -> bool) (c g : bool) (p : Z).

(** state once the MAJ chain has processed indices below k (1 <= k) *)
Definition Fwd (co : bool) (k : nat) : bstate := fun q => let '(r, i) := q in
  match r with
  | 0 => if S i <? k then xorb (carry a b c (S i)) (a (S i)) else if S i =? k then carry a b c k else a i
  | 1 => if i <? k then xorb (a i) (b i) else b i
  | 3 => if i =? 0 then xorb c (a 0) else s0 (3, i)
  | 5 => if i =? 0 then co else s0 (5, i)
  | 6 => if i =? 0 then g else s0 (6, i)
  | _ => s0 (r, i)
  end.
Definition Start (co : bool) : bstate := fun q => let '(r, i) := q in
  match r with
  | 0 => a i
  | 1 => b i
  | 3 => if i =? 0 then c else s0 (3, i)
  | 5 => if i =? 0 then co else s0 (5, i)
  | 6 => if i =? 0 then g else s0 (6, i)
  | _ => s0 (r, i)
  end.
(** state once the UMA chain has processed the indices k..n-1 (1 <= k); [t] tells whether the sum is written *)
Definition Bwd (t co : bool) (k : nat) : bstate := fun q => let '(r, i) := q in
  match r with
  | 0 => if S i <? k then xorb (carry a b c (S i)) (a (S i)) else if S i =? k then carry a b c k else a i
  | 1 => if i <? k then xorb (a i) (b i) else if i <? n then (if t then sumbit a b c i else b i) else b i
  | 3 => if i =? 0 then xorb c (a 0) else s0 (3, i)
  | 5 => if i =? 0 then co else s0 (5, i)
  | 6 => if i =? 0 then g else s0 (6, i)
  | _ => s0 (r, i)
  end.
Definition Done (t co : bool) : bstate := fun q => let '(r, i) := q in
  match r with
  | 0 => a i
  | 1 => if i <? n then (if t then sumbit a b c i else b i) else b i
  | 3 => if i =? 0 then c else s0 (3, i)
  | 5 => if i =? 0 then co else s0 (5, i)
  | 6 => if i =? 0 then g else s0 (6, i)
  | _ => s0 (r, i)
  end.

Lemma fwd_first co : exec (cu_maj0 A B ANC) (p, Start co) (p, Fwd co 1).
Proof.
  eexists. split; [cbn [run step cu_maj0]; reflexivity|]. cbn [snd].
  regs; unfold Fwd, Start; simp; bcase; try reflexivity; bsolve.
Qed.

Lemma fwd_step co k : 1 <= k -> exec (cu_maj A B k) (p, Fwd co k) (p, Fwd co (S k)).
Proof.
  intros Hk. destruct k as [|j]; [lia|]. eexists. split; [cbn [run step cu_maj]; reflexivity|]. cbn [snd].
  replace (S j - 1) with j by lia.
  regs; unfold Fwd; simp; bcase; try reflexivity; bsolve.
Qed.

Lemma bwd_step co k : 1 <= k < n -> exec (cu_uma A B k) (p, Bwd true co (S k)) (p, Bwd true co k).
Proof.
  intros Hk. destruct k as [|j]; [lia|]. eexists. split; [cbn [run step cu_uma]; reflexivity|]. cbn [snd].
  replace (S j - 1) with j by lia.
  regs; unfold Bwd; simp; bcase; try reflexivity; bsolve.
Qed.
Lemma bwd_last co : 1 <= n -> exec (cu_uma0 A B ANC) (p, Bwd true co 1) (p, Done true co).
Proof.
  intros Hn. eexists. split; [cbn [run step cu_uma0]; reflexivity|]. cbn [snd].
  regs; unfold Bwd, Done; simp; bcase; try reflexivity; bsolve.
Qed.
Lemma bwd_ctrl_step co k : 1 <= k < n -> exec (cu_uma_ctrl A B (6, 0) k) (p, Bwd g co (S k)) (p, Bwd g co k).
Proof.
  intros Hk. destruct k as [|j]; [lia|]. eexists. split; [cbn [run step cu_uma_ctrl]; reflexivity|]. cbn [snd].
  replace (S j - 1) with j by lia.
  regs; unfold Bwd; simp; bcase; try reflexivity; bsolve.
Qed.
Lemma bwd_ctrl_last co : 1 <= n -> exec (cu_uma0_ctrl A B ANC (6, 0)) (p, Bwd g co 1) (p, Done g co).
Proof.
  intros Hn. eexists. split; [cbn [run step cu_uma0_ctrl]; reflexivity|]. cbn [snd].
  regs; unfold Bwd, Done; simp; bcase; try reflexivity; bsolve.
Qed.
End Core.

Definition cu_result (n : nat) (cin cout ctrl : bool) (s : bstate) : bstate := fun q =>
  let a i := s (0, i) in let b i := s (1, i) in
  let c := if cin then s (4, 0) else false in
  let t := if ctrl then s (6, 0) else true in
  let '(r, i) := q in
  match r with
  | 1 => if i <? n then (if t then sumbit a b c i else b i) else b i
  | 5 => if i =? 0 then (if cout then xorb (s (5, 0)) (carry a b c n) else s (5, 0)) else s (5, i)
  | _ => s (r, i)
  end.

Lemma cuccaro_exec n cin cout ctrl p s : 1 <= n -> s (3, 0) = false ->
  exec (cuccaro n A B ANC (opt cin (4, 0)) (opt cout (5, 0)) (opt ctrl (6, 0))) (p, s) (p, cu_result n cin cout ctrl s).
Proof.
  intros Hn H3. unfold cuccaro.
  set (a := fun i => s (0, i)). set (b := fun i => s (1, i)). set (c := if cin then s (4, 0) else false).
  set (t := if ctrl then s (6, 0) else true).
  set (co := s (5, 0)). set (co' := if cout then xorb co (carry a b c n) else co).
  eapply exec_app with (st2 := (p, Start s a b c (s (6, 0)) co)).
  { destruct cin; cbn [opt].
    - eexists. split; [cbn [run step]; reflexivity|]. cbn [snd].
      regs; unfold Start, a, b, c, co; simp; rewrite ?H3; bcase; try reflexivity. apply xorb_false_r.
    - apply exec_nil. regs; unfold Start, a, b, c, co; simp; bcase; auto. }
  eapply exec_app; [apply fwd_first|].
  eapply exec_app.
  { apply (exec_loop_to 1 (n - 1) n (cu_maj A B) (fun k => (p, Fwd s a b c (s (6, 0)) co k))); [lia|].
    intros k Hk. apply fwd_step. lia. }
  eapply exec_app with (st2 := (p, Bwd n s a b c (s (6, 0)) t co' n)).
  { destruct cout; cbn [opt].
    - eexists. split; [cbn [run step]; reflexivity|]. cbn [snd].
      regs; unfold Fwd, Bwd, co', co; simp; bcase; try reflexivity.
      replace (S (n - 1)) with n by lia. bcase; bsolve.
    - apply exec_nil. regs; unfold Fwd, Bwd; simp; bcase; auto. }
  eapply exec_app with (st2 := (p, Done n s a b c (s (6, 0)) t co')).
  { destruct ctrl; cbn [opt]; eapply exec_app.
    - apply (exec_loop_rev_to 1 (n - 1) n (cu_uma_ctrl A B (6, 0)) (fun k => (p, Bwd n s a b c (s (6, 0)) t co' k))); [lia|].
      intros k Hk. apply bwd_ctrl_step. lia.
    - apply bwd_ctrl_last. exact Hn.
    - apply (exec_loop_rev_to 1 (n - 1) n (cu_uma A B) (fun k => (p, Bwd n s a b c (s (6, 0)) t co' k))); [lia|].
      intros k Hk. apply bwd_step. lia.
    - apply bwd_last. exact Hn. }
  destruct cin; cbn [opt].
  - eexists. split; [cbn [run step]; reflexivity|]. cbn [snd].
    regs; unfold Done, cu_result; simp; fold a b c t co co'; bcase; try reflexivity.
    unfold c. rewrite H3, xorb_nilpotent. reflexivity.
  - apply exec_nil. regs; unfold Done, cu_result; simp; fold a b c t co co'; bcase; auto.
Qed.

(** ** unequal sizes: qubit renaming *)
Definition swap_ext (m : nat) (q : qubit) : qubit :=
  let '(r, i) := q in
  match r with
  | 0 => if i <? m then (0, i) else (2, i - m)
  | 2 => (0, i + m)
  | _ => (r, i)
  end.
Lemma swap_ext_inv m q : swap_ext m (swap_ext m q) = q.
Proof.
  destruct q as [[|[|[|r]]] i]; cbn [swap_ext]; auto.
  - destruct (Nat.ltb_spec i m); cbn [swap_ext]; [|f_equal; lia]. destruct (Nat.ltb_spec i m); [reflexivity|lia].
  - destruct (Nat.ltb_spec (i + m) m); [lia|]. f_equal. lia.
Qed.
Lemma swap_ext_inj m x y : swap_ext m x = swap_ext m y -> x = y.
Proof. intros H. rewrite <- (swap_ext_inv m x), H. apply swap_ext_inv. Qed.

Lemma cuccaro_renamed n m cin cout ctrl :
  cuccaro n (fun i => if i <? m then (0, i) else (2, i - m)) B ANC (opt cin (4, 0)) (opt cout (5, 0)) (opt ctrl (6, 0)) =
  map (ren (swap_ext m)) (cuccaro n A B ANC (opt cin (4, 0)) (opt cout (5, 0)) (opt ctrl (6, 0))).
Proof.
  unfold cuccaro. rewrite !map_app, map_loop.
  destruct cin, cout, ctrl; cbn [opt]; rewrite ?map_app, ?map_loop_rev; reflexivity.
Qed.

Section Full.
Variables (da db : nat) (cin cout ctrl : bool) (p : Z) (s : bstate).
Hypothesis Hdb : 1 <= db.
Hypothesis Hanc : forall i, i < max da db -> s (3, i) = false.
Hypothesis Hext : forall i, i < db - da -> s (2, i) = false.

Local Notation m := (min da db).
Local Notation ps := (pullback (swap_ext m) s).

Lemma full_run : exists s', run (cuccaro_adder da db cin cout ctrl) (p, s) = Some (p, s') /\
  forall q, s' q = cu_result db cin cout ctrl ps (swap_ext m q).
Proof.
  assert (H3 : ps (3, 0) = false) by (cbn; apply Hanc; lia).
  pose proof (cuccaro_exec db cin cout ctrl p ps Hdb H3) as E.
  destruct (exec_ren (swap_ext m) _ p s p _ (swap_ext_inj m) E) as (s1 & R1 & E1 & _).
  assert (E2 : forall q, s1 q = cu_result db cin cout ctrl ps (swap_ext m q)).
  { intros q. rewrite <- E1, swap_ext_inv. reflexivity. }
  unfold cuccaro_adder, ext_a. rewrite run_app, cuccaro_renamed, R1, run_app.
  destruct (exec_del_reg 3 (max da db) p s1) as (s2 & R2 & E3).
  { intros i Hi. rewrite E2. cbn. apply Hanc; exact Hi. }
  rewrite R2. cbn [fst snd] in E3.
  destruct (exec_del_reg 2 (db - da) p s2) as (s3 & R3 & E4).
  { intros i Hi. rewrite E3, E2. cbn. unfold pullback. cbn [swap_ext]. destruct (Nat.ltb_spec (i + m) m); [lia|].
    rewrite Nat.add_sub. apply Hext; exact Hi. }
  exists s3. split; [exact R3|]. intros q. rewrite E4. cbn [snd]. rewrite E3. apply E2.
Qed.

Lemma a_value : val db (fun i => ps (0, i)) = (regval s 0 da mod 2 ^ Z.of_nat db)%Z.
Proof.
  unfold regval. rewrite (val_zero_ext db m).
  2: lia.
  2:{ intros i Hi. unfold pullback. cbn [swap_ext]. destruct (Nat.ltb_spec i m); [lia|]. apply Hext; lia. }
  rewrite (val_ext m _ (fun i => s (0, i))) by (intros i Hi; unfold pullback; cbn [swap_ext]; destruct (Nat.ltb_spec i m); [reflexivity|lia]).
  destruct (Nat.le_gt_cases da db).
  - rewrite Nat.min_l by lia. symmetry. apply Z.mod_small. pose proof (val_bounds da (fun i => s (0, i))).
    pose proof (Z.pow_le_mono_r 2 (Z.of_nat da) (Z.of_nat db)). lia.
  - rewrite Nat.min_r by lia. symmetry. apply val_mod. lia.
Qed.
End Full.

Lemma cuccaro_adder_spec da db (cin cout ctrl : bool) p (s : bstate) :
  1 <= db -> (forall i, i < max da db -> s (3, i) = false) -> (forall i, i < db - da -> s (2, i) = false) ->
  let c := if cin then b2z (s (4, 0)) else 0%Z in
  let x := (regval s 0 da mod 2 ^ Z.of_nat db)%Z in
  exists s', run (cuccaro_adder da db cin cout ctrl) (p, s) = Some (p, s') /\
    regval s' 1 db = (if (if ctrl then s (6, 0) else true)
                      then ((regval s 0 da + regval s 1 db + c) mod 2 ^ Z.of_nat db)%Z else regval s 1 db) /\
    s' (5, 0) = (if cout then xorb (s (5, 0)) (2 ^ Z.of_nat db <=? x + regval s 1 db + c)%Z else s (5, 0)) /\
    (forall q, (fst q = 1 -> db <= snd q) -> q <> (5, 0) -> s' q = s q).
Proof.
  intros Hdb Hanc Hext c x. destruct (full_run da db cin cout ctrl p s Hdb Hanc Hext) as (s' & R & E).
  exists s'. split; [exact R|].
  set (ps := pullback (swap_ext (min da db)) s) in *.
  set (cb := if cin then ps (4, 0) else false).
  assert (Ec : b2z cb = c) by (unfold cb, c; destruct cin; reflexivity).
  assert (Ea : val db (fun i => ps (0, i)) = x) by (apply a_value; assumption).
  assert (Eb : val db (fun i => ps (1, i)) = regval s 1 db) by reflexivity.
  split; [|split].
  - unfold regval at 1. destruct (if ctrl then s (6, 0) else true) eqn:Ht.
    + rewrite (val_ext db _ (sumbit (fun i => ps (0, i)) (fun i => ps (1, i)) cb)).
      * rewrite adder_mod, Ea, Eb, Ec. unfold x. rewrite <- Z.add_assoc, Z.add_mod_idemp_l, Z.add_assoc by lia. reflexivity.
      * intros i Hi. rewrite E. cbn [swap_ext cu_result]. replace (i <? db) with true by (symmetry; apply Nat.ltb_lt; lia).
        change (ps (6, 0)) with (s (6, 0)). rewrite Ht. reflexivity.
    + apply val_ext. intros i Hi. rewrite E. cbn [swap_ext cu_result]. replace (i <? db) with true by (symmetry; apply Nat.ltb_lt; lia).
      change (ps (6, 0)) with (s (6, 0)). rewrite Ht. reflexivity.
  - rewrite E. cbn [swap_ext cu_result Nat.eqb]. destruct cout; [|reflexivity]. rewrite adder_carry. fold cb. rewrite Ea, Eb, Ec. reflexivity.
  - intros q Hq Hq5. rewrite E.
    assert (Hid : forall y, fst y <> 1 -> y <> (5, 0) -> cu_result db cin cout ctrl ps y = ps y).
    { intros [r i] H1 H5. cbn [fst] in H1. destruct r as [|[|[|[|[|[|r]]]]]]; cbn [cu_result]; try reflexivity; try lia.
      destruct (Nat.eqb_spec i 0); [subst; congruence|reflexivity]. }
    destruct q as [r i]. destruct (Nat.eq_dec r 1) as [->|Hr].
    + cbn [swap_ext cu_result]. cbn in Hq. destruct (Nat.ltb_spec i db); [lia|]. reflexivity.
    + rewrite Hid.
      * unfold ps, pullback. rewrite swap_ext_inv. reflexivity.
      * destruct r as [|[|[|r]]]; cbn [swap_ext fst]; try lia. destruct (i <? min da db); cbn [fst]; lia.
      * destruct r as [|[|[|r]]]; cbn [swap_ext]; try congruence. destruct (i <? min da db); congruence.
Qed.

(** ** classical addend *)
Definition enc_state (r n : nat) (v : Z) (s : bstate) : bstate := fun q =>
  if (fst q =? r) && (snd q <? n) then xorb (Z.testbit v (Z.of_nat (snd q))) (s q) else s q.
Lemma int_encode_exec r n v p (s : bstate) : exec (int_encode r n v) (p, s) (p, enc_state r n v s).
Proof.
  unfold int_encode. apply (exec_pre _ _ _ (enc_state r 0 v s)).
  { intros q. unfold enc_state. rewrite andb_comm. reflexivity. }
  apply (exec_loop_to 0 n n _ (fun k => (p, enc_state r k v s))); [lia|]. intros k Hk.
  destruct (Z.testbit v (Z.of_nat k)) eqn:Hb.
  - eexists. split; [cbn [run step]; reflexivity|]. cbn [snd]. intros [r' i]. unfold upd, enc_state, qeq. cbn [fst snd].
    destruct (Nat.eqb_spec r' r); subst; rewrite ?Nat.eqb_refl; cbn [andb]; [|reflexivity].
    bcase; rewrite ?Hb; auto; destruct (s (r, k)); auto.
  - apply exec_nil. intros [r' i]. unfold enc_state. cbn [fst snd].
    destruct (Nat.eqb_spec r' r); subst; cbn [andb]; [|reflexivity]. destruct (Nat.eq_dec i k) as [->|].
    + rewrite Hb. bcase; auto; destruct (s (r, k)); auto.
    + bcase; auto.
Qed.

Lemma cuccaro_classical_spec v db (cin cout ctrl : bool) p (s : bstate) :
  1 <= db -> (0 <= v < 2 ^ Z.of_nat db)%Z -> (forall i, i < db -> s (0, i) = false) -> (forall i, i < db -> s (3, i) = false) ->
  let c := if cin then b2z (s (4, 0)) else 0%Z in
  exists s', run (cuccaro_adder_classical v db cin cout ctrl) (p, s) = Some (p, s') /\
    regval s' 1 db = (if (if ctrl then s (6, 0) else true)
                      then ((v + regval s 1 db + c) mod 2 ^ Z.of_nat db)%Z else regval s 1 db) /\
    s' (5, 0) = (if cout then xorb (s (5, 0)) (2 ^ Z.of_nat db <=? v + regval s 1 db + c)%Z else s (5, 0)) /\
    (forall q, (fst q = 1 -> db <= snd q) -> q <> (5, 0) -> s' q = s q).
Proof.
  intros Hdb Hv H0 H3 c. set (s1 := enc_state 0 db v s).
  destruct (cuccaro_adder_spec db db cin cout ctrl p s1 Hdb) as (s2 & R2 & Eb & Ec & Eo).
  { intros i Hi. rewrite Nat.max_id in Hi. unfold s1, enc_state. cbn. auto. }
  { intros i Hi. lia. }
  change (s1 (4, 0)) with (s (4, 0)) in *. change (s1 (5, 0)) with (s (5, 0)) in *. change (s1 (6, 0)) with (s (6, 0)) in *.
  change (regval s1 1 db) with (regval s 1 db) in *. fold c in Eb, Ec.
  assert (Ea : regval s1 0 db = v).
  { unfold regval. rewrite (val_ext db _ (fun i => Z.testbit v (Z.of_nat i))).
    - rewrite val_of_bits by lia. apply Z.mod_small; lia.
    - intros i Hi. unfold s1, enc_state. cbn [fst snd]. replace (i <? db) with true by (symmetry; apply Nat.ltb_lt; lia).
      cbn. rewrite H0 by lia. apply xorb_false_r. }
  rewrite Ea in *. rewrite (Z.mod_small v) in Ec by lia.
  set (s3 := enc_state 0 db v s2).
  assert (E3 : forall q, (fst q = 1 -> db <= snd q) -> q <> (5, 0) -> s3 q = s q).
  { intros q Hq Hq5. unfold s3, enc_state. rewrite Eo by assumption. unfold s1, enc_state.
    destruct ((fst q =? 0) && (snd q <? db)); [|reflexivity]. destruct (Z.testbit v (Z.of_nat (snd q))), (s q); reflexivity. }
  assert (Hex : exec (cuccaro_adder_classical v db cin cout ctrl) (p, s) (p, s3)).
  { unfold cuccaro_adder_classical. eapply exec_app; [apply int_encode_exec|]. fold s1.
    eapply exec_app with (st2 := (p, s2)); [exists s2; auto|].
    eapply exec_app; [apply int_encode_exec|]. fold s3. apply exec_del_reg.
    intros i Hi. rewrite E3; [apply H0; lia|cbn; lia|discriminate]. }
  destruct Hex as (s4 & R4 & E4). cbn [fst snd] in *. exists s4. split; [exact R4|]. split; [|split].
  - rewrite <- Eb. apply val_ext. intros i Hi. rewrite E4. reflexivity.
  - rewrite E4. exact Ec.
  - intros q Hq Hq5. rewrite E4. apply E3; assumption.
Qed.
