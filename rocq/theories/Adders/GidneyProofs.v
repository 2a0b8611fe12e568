(** Correctness of the Gidney adder for every width. *)
From Verif.Adders Require Import CuccaroModel CuccaroProofs GidneyModel.

Local Notation A := (fun i => (0, i)).
Local Notation B := (fun i => (1, i)).
Local Notation ANC := (fun i => (3, i)).

(** ** quantum-quantum *)
Section Core.
Variables (n : nat) (s0 : bstate) (a b : nat -> bool) (c g : bool).
Variables (cin ctrl cout : bool).

(** carries; [c] is the effective carry-in *)
Local Notation ca := (carry a b c).
(** states: indices below k are "open", the register b is given by [bf] above *)
Definition Gst (k : nat) (bf : nat -> bool) : bstate := fun q => let '(r, i) := q in
  match r with
  | 0 => if i <? k then xorb (a i) (ca i) else a i
  | 1 => if i <? k then xorb (b i) (ca i) else bf i
  | 3 => if i <? k then ca (S i) else if i <? n - 1 then false else s0 (3, i)
  | 4 => if i =? 0 then (if cin then c else s0 (4, 0)) else s0 (4, i)
  | 6 => if i =? 0 then (if ctrl then g else s0 (6, 0)) else s0 (6, i)
  | _ => s0 (r, i)
  end.
(** what is finally written to b: position n-1 is the carry-out qubit if [cout] *)
Definition tt' : bool := if ctrl then g else true.
Definition bfin (i : nat) : bool :=
  if i <? n - 1 then (if tt' then sumbit a b c i else b i)
  else if i =? n - 1 then (if tt' then (if cout then xorb (b i) (ca i) else sumbit a b c i) else b i) else b i.
(** before the last gate, bit 0 lacks the contribution of a *)
Definition blast (i : nat) : bool := if i =? 0 then (if tt' then xorb (b 0) c else b 0) else bfin i.

Hypothesis Hc : cin = false -> c = false.
Hypothesis Hn : 2 <= n.

Definition phase_ok (l : list gate) (s s' : bstate) : Prop := forall p, exists p', exec l (p, s) (p', s') /\ (ctrl = false -> p' = p).
Lemma phase_ok_app l1 l2 s1 s2 s3 : phase_ok l1 s1 s2 -> phase_ok l2 s2 s3 -> phase_ok (l1 ++ l2) s1 s3.
Proof.
  intros H1 H2 p. destruct (H1 p) as (p1 & E1 & Q1). destruct (H2 p1) as (p2 & E2 & Q2). exists p2.
  split; [eapply exec_app; eauto|]. intros Hf. rewrite Q2, Q1; auto.
Qed.
Lemma phase_ok_ext l s1 s1' s2 s2' : (forall q, s1' q = s1 q) -> (forall q, s2 q = s2' q) -> phase_ok l s1 s2 -> phase_ok l s1' s2'.
Proof. intros H1 H2 H p. destruct (H p) as (p' & E & Q). exists p'. split; [|exact Q]. eapply exec_pre; [exact H1|]. eapply exec_post; [exact H2|exact E]. Qed.
Lemma phase_ok_loop lo m hi body (F : nat -> bstate) : hi = lo + m ->
  (forall k, lo <= k < hi -> phase_ok (body k) (F k) (F (S k))) -> phase_ok (loop lo m body) (F lo) (F hi).
Proof.
  revert hi. induction m as [|m IH]; intros hi -> H.
  - rewrite Nat.add_0_r. intros p. exists p. split; [apply exec_nil; auto|auto].
  - rewrite loop_S. eapply phase_ok_app; [apply IH; [reflexivity|intros; apply H; lia]|].
    replace (lo + S m) with (S (lo + m)) by lia. apply H. lia.
Qed.
Lemma phase_ok_loop_rev lo m hi body (F : nat -> bstate) : hi = lo + m ->
  (forall k, lo <= k < hi -> phase_ok (body k) (F (S k)) (F k)) -> phase_ok (loop_rev lo m body) (F hi) (F lo).
Proof.
  revert hi. induction m as [|m IH]; intros hi -> H.
  - rewrite Nat.add_0_r. intros p. exists p. split; [apply exec_nil; auto|auto].
  - rewrite loop_rev_S. eapply phase_ok_app; [|apply IH; [reflexivity|intros; apply H; lia]].
    replace (lo + S m) with (S (lo + m)) by lia. apply H. lia.
Qed.

Ltac flags := repeat match goal with H : ?v = true |- context[?v] => is_var v; rewrite !H | H : ?v = false |- context[?v] => is_var v; rewrite !H end.
Ltac sx := cbn [fst snd Nat.eqb andb orb all_set forallb gand_phase].
Ltac side := unfold upd, qeq, Gst, blast, bfin, tt'; flags; sx; bcase; pin; try reflexivity; try bsolve.
Ltac fin := regs; unfold Gst, blast, bfin, tt'; flags; sx; bcase; pin; try reflexivity; try bsolve.

Lemma gq_init_ok : phase_ok (gq_init A B ANC (opt cin (4, 0))) (Gst 0 b) (Gst 1 b).
Proof.
  intros p. unfold gq_init. exists p. split; [|auto]. destruct cin eqn:Hcin; cbn [opt].
  - gsteps side. apply exec_nil. fin.
  - specialize (Hc eq_refl). gsteps side. apply exec_nil. fin.
Qed.
Lemma gq_fwd_ok k : 1 <= k < n - 1 -> phase_ok (gq_fwd A B ANC k) (Gst k b) (Gst (S k) b).
Proof.
  intros Hk p. exists p. split; [|auto]. unfold gq_fwd. destruct k as [|j]; [lia|]. replace (S j - 1) with j by lia.
  gsteps side. apply exec_nil. fin.
Qed.
Lemma gq_msb_ok : phase_ok (gq_msb n A B ANC cout (opt ctrl (6, 0))) (Gst (n - 1) b) (Gst (n - 1) bfin).
Proof.
  intros p. unfold gq_msb. assert (Hca : ca (n - 1) = carry a b c (S (n - 2))) by (f_equal; lia).
  destruct ctrl eqn:Hctrl, cout eqn:Hcout; cbn [opt].
  all: eexists; split; [gsteps idtac; apply exec_nil; fin|auto; try discriminate].
  all: try replace (n - 1) with (S (n - 2)) by lia; try bsolve.
Qed.
Lemma gq_bwd_ok k : 1 <= k < n - 1 -> phase_ok (gq_bwd A B ANC (opt ctrl (6, 0)) k) (Gst (S k) bfin) (Gst k bfin).
Proof.
  intros Hk p. unfold gq_bwd. destruct k as [|j]; [lia|]. replace (S j - 1) with j by lia.
  destruct ctrl eqn:Hctrl; cbn [opt app].
  all: eexists; split; [gsteps side; apply exec_nil; fin|auto; try discriminate].
Qed.
Lemma gq_final_ok : phase_ok (gq_final A B ANC (opt cin (4, 0)) (opt ctrl (6, 0))) (Gst 1 bfin) (Gst 0 blast).
Proof.
  intros p. unfold gq_final. destruct cin eqn:Hcin; [|specialize (Hc eq_refl)]; destruct ctrl eqn:Hctrl; cbn [opt app].
  all: eexists; split; [gsteps side; apply exec_nil; fin|auto; try discriminate].
Qed.
Lemma gq_lsb_ok : phase_ok (gq_lsb A B (opt ctrl (6, 0))) (Gst 0 blast) (Gst 0 bfin).
Proof.
  intros p. unfold gq_lsb. destruct ctrl eqn:Hctrl; cbn [opt app].
  all: eexists; split; [gsteps side; apply exec_nil; fin|auto; try discriminate].
Qed.

Lemma gidney_core2 : phase_ok (gidney_q n A B ANC (opt cin (4, 0)) cout (opt ctrl (6, 0))) (Gst 0 b) (Gst 0 bfin).
Proof.
  unfold gidney_q. replace (n <=? 1) with false by (symmetry; apply Nat.leb_gt; lia).
  replace (1 <? n) with true by (symmetry; apply Nat.ltb_lt; lia).
  apply phase_ok_app with (s2 := Gst 0 b).
  { intros p. exists p. split; [|auto]. destruct cin; cbn [opt]; apply exec_nil; auto. }
  apply phase_ok_app with (s2 := Gst 0 blast).
  - apply phase_ok_app with (s2 := Gst 0 blast).
    + unfold gq_chain. eapply phase_ok_app; [apply gq_init_ok|].
      eapply phase_ok_app; [apply (phase_ok_loop 1 (n - 2) (n - 1) _ (fun k => Gst k b)); [lia|]; intros; apply gq_fwd_ok; lia|].
      eapply phase_ok_app; [apply gq_msb_ok|].
      eapply phase_ok_app; [apply (phase_ok_loop_rev 1 (n - 2) (n - 1) _ (fun k => Gst k bfin)); [lia|]; intros; apply gq_bwd_ok; lia|].
      apply gq_final_ok.
    + intros p. exists p. split; [|auto]. apply (exec_del_reg 3 (n - 1)).
      intros i Hi. unfold Gst. bcase; reflexivity.
  - apply gq_lsb_ok.
Qed.
End Core.

(** final state of the equal-size circuit *)
Definition gd_result (n : nat) (cin ctrl cout : bool) (s : bstate) : bstate := fun q =>
  let c := if cin then s (4, 0) else false in
  let '(r, i) := q in
  match r with
  | 1 => bfin n (fun i => s (0, i)) (fun i => s (1, i)) c (s (6, 0)) ctrl cout i
  | _ => s (r, i)
  end.

Lemma gidney_core n cin ctrl cout p (s : bstate) : 1 <= n -> (n = 1 -> cout = false) -> (forall i, i < n - 1 -> s (3, i) = false) ->
  exists p', exec (gidney_q n A B ANC (opt cin (4, 0)) cout (opt ctrl (6, 0))) (p, s) (p', gd_result n cin ctrl cout s) /\ (ctrl = false -> p' = p).
Proof.
  intros Hn Hco H3. destruct (Nat.eq_dec n 1) as [->|].
  - rewrite (Hco eq_refl). unfold gidney_q, gq_lsb. cbn [Nat.leb Nat.ltb app].
    destruct cin, ctrl; cbn [opt app].
    all: eexists; split; [gsteps idtac; apply exec_nil; regs; unfold gd_result, bfin, tt'; cbn [fst snd Nat.eqb andb orb all_set forallb Nat.sub]; bcase; pin; try reflexivity|auto; try discriminate].
    all: unfold sumbit; cbn [carry]; destruct (s (0, 0)), (s (1, 0)), (s (4, 0)), (s (6, 0)); reflexivity.
  - set (c := if cin then s (4, 0) else false).
    destruct (gidney_core2 n s (fun i => s (0, i)) (fun i => s (1, i)) c (s (6, 0)) cin ctrl cout) with (p := p) as (p' & E & Q).
    + intros ->. reflexivity.
    + lia.
    + exists p'. split; [|exact Q]. eapply exec_pre; [|eapply exec_post; [|exact E]].
      * regs; unfold Gst; cbn [fst snd Nat.eqb andb orb]; bcase; pin; auto.
        -- unfold c. destruct cin; reflexivity.
        -- destruct ctrl; reflexivity.
      * regs; unfold Gst, gd_result; cbn [fst snd Nat.eqb andb orb]; bcase; pin; auto.
        -- symmetry; auto.
        -- unfold c. destruct cin; reflexivity.
        -- destruct ctrl; reflexivity.
Qed.

(** ** qubit renaming for size matching and the carry-out *)
Definition gren (m db : nat) (cout : bool) (q : qubit) : qubit :=
  let '(r, i) := q in
  match r with
  | 0 => if i <? m then (0, i) else (2, i - m)
  | 2 => (0, i + m)
  | 1 => out_b db cout i
  | 5 => if cout then (5, S i) else (5, i)
  | _ => (r, i)
  end.
Definition gren_inv (m db : nat) (cout : bool) (q : qubit) : qubit :=
  let '(r, i) := q in
  match r with
  | 0 => if i <? m then (0, i) else (2, i - m)
  | 2 => (0, i + m)
  | 1 => if cout then (if i <? db then (1, i) else (1, S i)) else (1, i)
  | 5 => if cout then (match i with 0 => (1, db) | S j => (5, j) end) else (5, i)
  | _ => (r, i)
  end.
Ltac ren_solve := repeat (bcase; cbn [fst snd]); try reflexivity; try (f_equal; lia).
Lemma gren_1 m db cout x : gren_inv m db cout (gren m db cout x) = x.
Proof.
  destruct x as [[|[|[|[|[|[|r]]]]]] i]; cbn [gren gren_inv]; auto; unfold out_b.
  - destruct (Nat.ltb_spec i m); cbn [gren_inv]; ren_solve.
  - destruct cout; cbn [gren_inv]; [|reflexivity]. destruct (Nat.ltb_spec i db); [|destruct (Nat.eqb_spec i db)]; cbn [gren_inv]; ren_solve.
  - ren_solve.
  - destruct cout; reflexivity.
Qed.
Lemma gren_2 m db cout x : gren m db cout (gren_inv m db cout x) = x.
Proof.
  destruct x as [[|[|[|[|[|[|r]]]]]] i]; cbn [gren gren_inv]; auto; unfold out_b.
  - destruct (Nat.ltb_spec i m); cbn [gren]; ren_solve.
  - destruct cout; cbn [gren]; [|reflexivity]. destruct (Nat.ltb_spec i db); cbn [gren]; unfold out_b; ren_solve.
  - ren_solve.
  - destruct cout; [|reflexivity]. destruct i; cbn [gren]; unfold out_b; ren_solve.
Qed.

Lemma gidney_renamed m db n cin cout ctrl :
  gidney_q n (fun i => if i <? m then (0, i) else (2, i - m)) (out_b db cout) ANC (opt cin (4, 0)) cout (opt ctrl (6, 0)) =
  map (ren (gren m db cout)) (gidney_q n A B ANC (opt cin (4, 0)) cout (opt ctrl (6, 0))).
Proof.
  unfold gidney_q, gq_chain, gq_msb, gq_lsb, gq_final, gq_init. rewrite !map_app.
  destruct (n <=? 1), (1 <? n), cin, cout, ctrl; cbn [opt]; rewrite ?map_app, ?map_loop_rev, ?map_loop; reflexivity.
Qed.

Lemma gidney_adder_spec da db (cin cout ctrl : bool) p (s : bstate) :
  1 <= db -> (forall i, i < db - 1 + bit1 cout -> s (3, i) = false) -> (forall i, i < db - da -> s (2, i) = false) ->
  let c := if cin then b2z (s (4, 0)) else 0%Z in
  let x := (regval s 0 da mod 2 ^ Z.of_nat db)%Z in
  let t := if ctrl then s (6, 0) else true in
  exists p' s', run (gidney_adder da db cin cout ctrl) (p, s) = Some (p', s') /\ (ctrl = false -> p' = p) /\
    regval s' 1 db = (if t then ((regval s 0 da + regval s 1 db + c) mod 2 ^ Z.of_nat db)%Z else regval s 1 db) /\
    s' (5, 0) = (if cout && t then xorb (s (5, 0)) (2 ^ Z.of_nat db <=? x + regval s 1 db + c)%Z else s (5, 0)) /\
    (forall q, (fst q = 1 -> db <= snd q) -> q <> (5, 0) -> s' q = s q).
Proof.
  intros Hdb H3 H2 c x t.
  set (m := min da db). set (f := gren m db cout). set (ps := pullback f s). set (n := db + bit1 cout).
  destruct (gidney_core n cin ctrl cout p ps) as (p' & E & Q).
  { unfold n. lia. } { unfold n. destruct cout; cbn; [lia|auto]. }
  { intros i Hi. apply H3. unfold n in Hi. lia. }
  destruct (exec_ren_inv f (gren_inv m db cout) _ p s p' _ (gren_1 m db cout) (gren_2 m db cout) E) as (s1 & R1 & E1).
  destruct (exec_del_reg 2 (db - da) p' s1) as (s2 & R2 & E2).
  { intros i Hi. rewrite E1. cbn [gren_inv gd_result]. unfold ps, pullback, f. cbn [gren].
    destruct (Nat.ltb_spec (i + m) m); [lia|]. rewrite Nat.add_sub. apply H2; exact Hi. }
  cbn [fst snd] in E2.
  exists p', s2. split.
  { unfold gidney_adder, ext_a. fold m n. rewrite run_app, gidney_renamed. fold f. rewrite R1. exact R2. }
  split; [exact Q|].
  assert (Es : forall q, s2 q = gd_result n cin ctrl cout ps (gren_inv m db cout q)) by (intros q; rewrite E2; apply E1).
  set (cb := if cin then s (4, 0) else false).
  assert (Ec : b2z cb = c) by (unfold cb, c; destruct cin; reflexivity).
  assert (Ea : val db (fun i => ps (0, i)) = x) by (apply (a_value da db s); assumption).
  assert (Eb : val db (fun i => ps (1, i)) = regval s 1 db).
  { apply val_ext. intros i Hi. unfold ps, pullback, f. cbn [gren]. unfold out_b. destruct cout; [|reflexivity]. bcase. reflexivity. }
  assert (Hbf : forall i, i < db -> s2 (1, i) = if t then sumbit (fun i => ps (0, i)) (fun i => ps (1, i)) cb i else ps (1, i)).
  { intros i Hi. rewrite Es.
    assert (Ex : gren_inv m db cout (1, i) = (1, i)) by (cbn [gren_inv]; destruct cout; [bcase|]; reflexivity).
    rewrite Ex. cbn [gd_result]. unfold bfin, tt'. change (ps (6, 0)) with (s (6, 0)). change (ps (4, 0)) with (s (4, 0)). fold cb t.
    unfold n. destruct cout; cbn [bit1]; bcase; try reflexivity. }
  split; [|split].
  - unfold regval at 1. destruct t.
    + rewrite (val_ext db _ (sumbit (fun i => ps (0, i)) (fun i => ps (1, i)) cb)) by (intros i Hi; apply Hbf; exact Hi).
      rewrite adder_mod, Ea, Eb, Ec. unfold x. rewrite <- Z.add_assoc, Z.add_mod_idemp_l, Z.add_assoc by lia. reflexivity.
    + rewrite <- Eb. apply val_ext. exact Hbf.
  - rewrite Es. cbn [gren_inv]. destruct cout; cbn [andb].
    + cbn [gd_result]. unfold bfin, tt'. change (ps (6, 0)) with (s (6, 0)). change (ps (4, 0)) with (s (4, 0)). fold cb t.
      unfold n, bit1. bcase. rewrite adder_carry, Ea, Eb, Ec.
      assert (E5 : ps (1, db) = s (5, 0)) by (unfold ps, pullback, f; cbn [gren]; unfold out_b; bcase; reflexivity).
      rewrite E5. reflexivity.
    + reflexivity.
  - intros q Hq Hq5. rewrite Es.
    assert (Hps : ps (gren_inv m db cout q) = s q) by (unfold ps, pullback, f; rewrite gren_2; reflexivity).
    rewrite <- Hps. destruct (gren_inv m db cout q) as [r i] eqn:Eq.
    destruct (Nat.eq_dec r 1) as [->|Hr]; [|destruct r as [|[|r]]; try reflexivity; lia].
    cbn [gd_result]. unfold bfin.
    assert (n <= i).
    { destruct q as [r' j]. destruct r' as [|[|[|[|[|[|r']]]]]]; cbn [gren_inv] in Eq; try (inversion Eq; lia).
      - destruct (j <? m); inversion Eq.
      - cbn in Hq. unfold n. destruct cout; [destruct (Nat.ltb_spec j db); [lia|]|]; inversion Eq; cbn [bit1]; lia.
      - destruct cout; [|inversion Eq]. destruct j; [congruence|inversion Eq]. }
    bcase. reflexivity.
Qed.

Ltac feed H := match type of H with ?A -> _ => let h := fresh in assert (h : A); [|specialize (H h); clear h] end.

(** ** classical addend *)
Section Classical.
Variables (n : nat) (s0 : bstate) (b v : nat -> bool) (ctrl : bool) (g : bool).
Definition e' (i : nat) : bool := v i && (if ctrl then g else true).
Local Notation ca := (carry e' b false).

Definition Cst (k : nat) (bf : nat -> bool) : bstate := fun q => let '(r, i) := q in
  match r with
  | 1 => if i <? k then xorb (b i) (ca i) else bf i
  | 3 => if i <? k then ca (S i) else if i <? n - 1 then false else s0 (3, i)
  | 6 => if i =? 0 then (if ctrl then g else s0 (6, 0)) else s0 (6, i)
  | _ => s0 (r, i)
  end.
Definition bop (i : nat) : bool := if i <? n then xorb (b i) (ca i) else b i.
(** after the final loop has processed indices below k (from start) *)
Definition Cfin (start k : nat) : bstate := fun q => let '(r, i) := q in
  match r with
  | 1 => if i <? n then (if (start <=? i) && (i <? k) then sumbit e' b false i else xorb (b i) (ca i)) else b i
  | 3 => if i <? n - 1 then false else s0 (3, i)
  | 6 => if i =? 0 then (if ctrl then g else s0 (6, 0)) else s0 (6, i)
  | _ => s0 (r, i)
  end.

Ltac sxc := cbn [fst snd Nat.eqb andb orb all_set forallb gand_phase].
Ltac flg := repeat match goal with H : ?v = true |- context[?v] => rewrite !H | H : ?v = false |- context[?v] => rewrite !H end.
Ltac bs2 := unfold sumbit; cbn [carry]; unfold maj, e'; flg; cbn [andb orb xorb negb]; rewrite ?andb_true_r, ?andb_false_r; bdestruct_atoms; try reflexivity.
Ltac sidec := unfold upd, qeq, Cst, bop; sxc; bcase; pin; try reflexivity; bs2.
Ltac finc := regs; unfold Cst, bop; sxc; bcase; pin; try reflexivity; bs2.

Hypothesis Hn : 2 <= n.
Lemma gc_init_ok p : exec (gc_init B ANC v (opt ctrl (6, 0))) (p, Cst 0 b) (p, Cst 1 b).
Proof.
  unfold gc_init, when. destruct (v 0) eqn:Hv; destruct ctrl eqn:Hctrl; cbn [opt].
  - gsteps sidec. apply exec_nil. finc.
  - gsteps sidec. apply exec_nil. finc.
  - apply exec_nil. finc.
  - apply exec_nil. finc.
Qed.
Lemma gc_fwd_ok p k : 1 <= k < n - 1 -> exec (gc_fwd B ANC v (opt ctrl (6, 0)) k) (p, Cst k b) (p, Cst (S k) b).
Proof.
  intros Hk. destruct k as [|j]; [lia|]. unfold gc_fwd, when, x_bit. replace (S j - 1) with j by lia.
  destruct (v (S j)) eqn:Hv; destruct ctrl eqn:Hctrl; cbn [opt app]; gsteps sidec; apply exec_nil; finc.
Qed.
Lemma gc_msb_ok p : exec [CX (3, n - 2) (1, n - 1)] (p, Cst (n - 1) b) (p, Cst (n - 1) bop).
Proof.
  assert (Hca : ca (n - 1) = carry e' b false (S (n - 2))) by (f_equal; lia).
  gsteps idtac. apply exec_nil. regs; unfold Cst, bop; sxc; bcase; pin; try reflexivity.
  rewrite Hca. apply xorb_comm.
Qed.
Lemma gc_bwd_ok p k : 1 <= k < n - 1 -> exec (gc_bwd B ANC v (opt ctrl (6, 0)) k) (p, Cst (S k) bop) (p, Cst k bop).
Proof.
  intros Hk. destruct k as [|j]; [lia|]. unfold gc_bwd, when, x_bit. replace (S j - 1) with j by lia.
  destruct (v (S j)) eqn:Hv; destruct ctrl eqn:Hctrl; cbn [opt app]; gsteps sidec; apply exec_nil; finc.
Qed.
Lemma gc_final_ok p : exec (gc_final B ANC v (opt ctrl (6, 0))) (p, Cst 1 bop) (p, Cst 0 bop).
Proof.
  unfold gc_final, when. destruct (v 0) eqn:Hv; destruct ctrl eqn:Hctrl; cbn [opt]; gsteps sidec; apply exec_nil; finc.
Qed.
Lemma gc_chain_ok p : exec (gc_chain n B ANC v (opt ctrl (6, 0)) ++ loop 0 (n - 1) (fun i => [DEL (ANC i)])) (p, Cst 0 b) (p, Cst 0 bop).
Proof.
  apply exec_app with (st2 := (p, Cst 0 bop)).
  - unfold gc_chain. eapply exec_app; [apply gc_init_ok|].
    eapply exec_app; [apply (exec_loop_to 1 (n - 2) (n - 1) _ (fun k => (p, Cst k b))); [lia|]; intros; apply gc_fwd_ok; lia|].
    eapply exec_app; [apply gc_msb_ok|].
    eapply exec_app; [apply (exec_loop_rev_to 1 (n - 2) (n - 1) _ (fun k => (p, Cst k bop))); [lia|]; intros; apply gc_bwd_ok; lia|].
    apply gc_final_ok.
  - apply (exec_del_reg 3 (n - 1)). intros i Hi. unfold Cst. bcase; reflexivity.
Qed.
End Classical.

Definition gc_result (n start : nat) (v : nat -> bool) (ctrl : bool) (s : bstate) : bstate := fun q =>
  let '(r, i) := q in
  match r with
  | 1 => if i <? n then (if start <=? i then sumbit (e' v ctrl (s (6, 0))) (fun i => s (1, i)) false i
                         else xorb (s (1, i)) (carry (e' v ctrl (s (6, 0))) (fun i => s (1, i)) false i)) else s (1, i)
  | _ => s (r, i)
  end.

Lemma gidney_c_core n v ctrl start p (s : bstate) : 1 <= n -> start <= n -> (forall i, i < n - 1 -> s (3, i) = false) ->
  exec (gidney_c n B ANC v (opt ctrl (6, 0)) start) (p, s) (p, gc_result n start v ctrl s).
Proof.
  intros Hn Hst H3. unfold gidney_c. set (b := fun i => s (1, i)). set (g := s (6, 0)).
  apply exec_app with (st2 := (p, Cfin n s b v ctrl g start start)).
  - destruct (Nat.ltb_spec 1 n).
    + eapply exec_pre; [|eapply exec_post; [|apply (gc_chain_ok n s b v ctrl g)]]; [| |lia].
      * regs; unfold Cst, g, b; cbn [fst snd Nat.eqb andb orb]; bcase; auto. destruct ctrl; reflexivity.
      * regs; unfold Cst, Cfin, bop; cbn [fst snd Nat.eqb andb orb]; bcase; auto.
    + apply exec_nil. assert (n = 1) by lia. subst n.
      regs; unfold Cfin, b, g; cbn [fst snd Nat.eqb andb orb]; bcase; pin; auto.
      all: cbn [carry]; rewrite ?xorb_false_r; destruct ctrl; reflexivity.
  - eapply exec_post; [|apply (exec_loop_to start (n - start) n _ (fun k => (p, Cfin n s b v ctrl g start k))); [lia|]].
    + regs; unfold Cfin, gc_result; cbn [fst snd Nat.eqb andb orb]; bcase; auto.
      * symmetry; auto.
      * unfold g. destruct ctrl; reflexivity.
    + intros k Hk. unfold when, x_bit. destruct (v k) eqn:Hv.
      * destruct ctrl eqn:Hctrl; cbn [opt]; gsteps idtac; apply exec_nil; regs; unfold Cfin;
          cbn [fst snd Nat.eqb andb orb]; bcase; pin; try reflexivity.
        all: unfold sumbit, e' at 2; rewrite Hv; cbn [andb]; destruct (b k), (carry (e' v _ g) b false k); try reflexivity; destruct g; reflexivity.
      * apply exec_nil. regs; unfold Cfin; cbn [fst snd Nat.eqb andb orb]; bcase; pin; try reflexivity.
        all: unfold sumbit, e' at 2; rewrite Hv; cbn [andb]; rewrite xorb_false_l; reflexivity.
Qed.

Definition cren (db : nat) (cin cout : bool) (q : qubit) : qubit :=
  let '(r, i) := q in
  match r with
  | 1 => io_b db cin cout i
  | 4 => if cin then (4, S i) else (4, i)
  | 5 => if cout then (5, S i) else (5, i)
  | _ => (r, i)
  end.
Definition cren_inv (db : nat) (cin cout : bool) (q : qubit) : qubit :=
  let '(r, i) := q in
  let sh := fun j => if cin then (1, S j) else (1, j) in
  match r with
  | 1 => if cout then (if i <? db then sh i else sh (S i)) else sh i
  | 4 => if cin then (match i with 0 => (1, 0) | S j => (4, j) end) else (4, i)
  | 5 => if cout then (match i with 0 => sh db | S j => (5, j) end) else (5, i)
  | _ => (r, i)
  end.
Lemma cren_1 db cin cout x : cren_inv db cin cout (cren db cin cout x) = x.
Proof.
  destruct x as [[|[|[|[|[|[|r]]]]]] i]; cbn [cren cren_inv]; auto; unfold io_b, out_b.
  - destruct cin, cout; try destruct i; try reflexivity.
    + destruct (Nat.ltb_spec i db); [|destruct (Nat.eqb_spec i db)]; cbn [cren_inv]; ren_solve.
    + destruct (Nat.ltb_spec 0 db); [|destruct (Nat.eqb_spec 0 db)]; cbn [cren_inv]; ren_solve.
    + destruct (Nat.ltb_spec (S i) db); [|destruct (Nat.eqb_spec (S i) db)]; cbn [cren_inv]; ren_solve.
  - destruct cin; reflexivity.
  - destruct cout; reflexivity.
Qed.
Lemma cren_2 db cin cout x : cren db cin cout (cren_inv db cin cout x) = x.
Proof.
  destruct x as [[|[|[|[|[|[|r]]]]]] i]; cbn [cren cren_inv]; auto.
  - destruct cin, cout; try destruct (Nat.ltb_spec i db); cbn [cren]; unfold io_b, out_b; ren_solve.
  - destruct cin; [destruct i|]; reflexivity.
  - destruct cin, cout; try destruct i; cbn [cren]; unfold io_b, out_b; ren_solve.
Qed.
Lemma gidney_c_renamed db n v cin cout ctrl start :
  gidney_c n (io_b db cin cout) ANC v (opt ctrl (6, 0)) start =
  map (ren (cren db cin cout)) (gidney_c n B ANC v (opt ctrl (6, 0)) start).
Proof.
  unfold gidney_c, gc_chain, gc_init, gc_final, gc_fwd, gc_bwd, when, x_bit. rewrite !map_app.
  f_equal.
  - destruct (1 <? n); [|reflexivity]. rewrite !map_app, !map_loop_rev, !map_loop. f_equal.
    assert (Hl : forall x x' y y' z z' w w' : list gate, x = x' -> y = y' -> z = z' -> w = w' -> forall u u' : list gate, u = u' ->
      x ++ y ++ z ++ w ++ u = x' ++ y' ++ z' ++ w' ++ u') by (intros; subst; reflexivity).
    apply Hl.
    + destruct (v 0), ctrl; reflexivity.
    + apply loop_ext. intros k _. destruct (v k), ctrl; reflexivity.
    + reflexivity.
    + apply loop_rev_ext. intros k _. destruct (v k), ctrl; reflexivity.
    + destruct (v 0), ctrl; reflexivity.
  - rewrite map_loop. apply loop_ext. intros k _. destruct (v k), ctrl; reflexivity.
Qed.

(** For every width, addend, flag combination and input: [v] is added to b (modulo 2^len b), and
    the carry-out qubit is flipped by the true carry (plus, for an unreduced [v], by bit
    [len b] of [v]). *)
Lemma gidney_int_spec v db (cin cout ctrl : bool) p (s : bstate) :
  1 <= db -> (0 <= v)%Z -> (forall i, i < db - 1 + bit1 cin + bit1 cout -> s (3, i) = false) ->
  let c := if cin then b2z (s (4, 0)) else 0%Z in
  let t := if ctrl then s (6, 0) else true in
  exists s', run (gidney_int v db cin cout ctrl) (p, s) = Some (p, s') /\
    regval s' 1 db = (if t then ((v + regval s 1 db + c) mod 2 ^ Z.of_nat db)%Z else regval s 1 db) /\
    s' (5, 0) = (if cout && t then xorb (s (5, 0)) (xorb (Z.testbit v (Z.of_nat db))
                    (2 ^ Z.of_nat db <=? v mod 2 ^ Z.of_nat db + regval s 1 db + c)%Z) else s (5, 0)) /\
    (forall q, (fst q = 1 -> db <= snd q) -> q <> (5, 0) -> s' q = s q).
Proof.
  intros Hdb Hv H3 c t.
  set (f := cren db cin cout). set (ps := pullback f s). set (n := db + bit1 cin + bit1 cout).
  unfold gidney_int. fold n. set (v1 := if cin then (Z.shiftl v 1 + 1)%Z else v).
  set (vb := fun i => Z.testbit v1 (Z.of_nat i)).
  set (w := fun i => Z.testbit v (Z.of_nat i)).
  assert (Hvb : forall i, vb (if cin then S i else i) = w i).
  { intros i. unfold vb, w, v1. destruct cin; [|reflexivity]. rewrite Z.shiftl_mul_pow2 by lia. replace (v * 2 ^ 1)%Z with (2 * v)%Z by lia.
    rewrite Nat2Z.inj_succ. apply Z.testbit_odd_succ. lia. }
  assert (Hv0 : cin = true -> vb 0 = true).
  { intros Hc. unfold vb, v1. rewrite Hc, Z.shiftl_mul_pow2 by lia. replace (v * 2 ^ 1)%Z with (2 * v)%Z by lia. apply Z.testbit_odd_0. }
  assert (E := gidney_c_core n vb ctrl (bit1 cin) p ps). feed E.
  { unfold n. lia. } feed E. { unfold n. lia. }
  feed E. { intros i Hi. apply H3. unfold n in Hi. lia. }
  destruct (exec_ren_inv f (cren_inv db cin cout) _ p s p _ (cren_1 db cin cout) (cren_2 db cin cout) E) as (s2 & R1 & Es).
  exists s2. split. { rewrite <- R1. f_equal. apply (gidney_c_renamed db n vb cin cout ctrl). }
  set (cb := if cin then s (4, 0) else false).
  assert (Ec : b2z cb = c) by (unfold cb, c; destruct cin; reflexivity).
  set (bb := fun i => ps (1, i)).
  set (ob := fun i => s (out_b db cout i)).
  assert (Hbb : forall i, bb (if cin then S i else i) = ob i).
  { intros i. unfold bb, ps, pullback, f. cbn [cren]. unfold io_b. destruct cin; reflexivity. }
  assert (Hb0 : cin = true -> bb 0 = s (4, 0)).
  { intros Hc. unfold bb, ps, pullback, f. cbn [cren]. unfold io_b. rewrite Hc. reflexivity. }
  assert (Hob : forall i, i < db -> ob i = s (1, i)).
  { intros i Hi. unfold ob, out_b. destruct cout; [bcase|]; reflexivity. }
  set (ee := e' vb ctrl (ps (6, 0))).
  assert (Hee : forall i, ee i = vb i && t).
  { intros i. unfold ee, e', t. destruct ctrl; reflexivity. }
  assert (Hca : forall i, carry ee bb false (if cin then S i else i) = t && carry w ob cb i).
  { intros i. unfold cb. destruct cin.
    - induction i as [|i IH].
      + cbn [carry]. unfold maj. rewrite Hee, Hv0, Hb0 by reflexivity. destruct t, (s (4, 0)); reflexivity.
      + change (carry ee bb false (S (S i))) with (maj (ee (S i)) (bb (S i)) (carry ee bb false (S i))).
        change (carry w ob (s (4, 0)) (S i)) with (maj (w i) (ob i) (carry w ob (s (4, 0)) i)).
        rewrite IH, Hee, Hvb, Hbb. unfold maj. destruct t, (w i), (ob i), (carry w ob (s (4, 0)) i); reflexivity.
    - induction i as [|i IH]; [cbn [carry]; rewrite andb_false_r; reflexivity|].
      cbn [carry]. rewrite IH, Hee, Hvb, Hbb. unfold maj. destruct t, (w i), (ob i), (carry w ob false i); reflexivity. }
  assert (Hsum : forall i, sumbit ee bb false (if cin then S i else i) = if t then sumbit w ob cb i else ob i).
  { intros i. unfold sumbit. rewrite Hca, Hee, Hvb, Hbb. destruct t; cbn [andb]; rewrite ?andb_true_r, ?andb_false_r, ?xorb_false_r, ?xorb_false_l; reflexivity. }
  assert (Hfin : forall i, i < db + bit1 cout -> s2 (out_b db cout i) = if t then sumbit w ob cb i else ob i).
  { intros i Hi. rewrite Es.
    assert (Ex : cren_inv db cin cout (out_b db cout i) = (1, if cin then S i else i)).
    { transitivity (cren_inv db cin cout (cren db cin cout (1, if cin then S i else i))); [|apply cren_1].
      f_equal. cbn [cren]. unfold io_b. destruct cin; reflexivity. }
    rewrite Ex, <- Hsum. cbn [gc_result]. fold bb ee. unfold n. destruct cin; cbn [bit1]; bcase; try reflexivity; lia. }
  assert (Ew : val db w = (v mod 2 ^ Z.of_nat db)%Z) by (apply val_of_bits; exact Hv).
  assert (Eb : val db ob = regval s 1 db) by (apply val_ext; exact Hob).
  assert (Hob' : forall i, i < db -> out_b db cout i = (1, i)) by (intros i Hi; unfold out_b; destruct cout; [bcase|]; reflexivity).
  split; [|split].
  - unfold regval at 1.
    rewrite (val_ext db _ (fun i => if t then sumbit w ob cb i else ob i)) by (intros i Hi; rewrite <- Hfin, Hob' by lia; reflexivity).
    destruct t; [|exact Eb].
    change (val db (sumbit w ob cb) = ((v + regval s 1 db + c) mod 2 ^ Z.of_nat db)%Z).
    rewrite adder_mod, Ew, Eb, Ec. rewrite <- Z.add_assoc, Z.add_mod_idemp_l, Z.add_assoc by lia. reflexivity.
  - destruct cout; cbn [andb].
    + assert (Eo : out_b db true db = (5, 0)) by (unfold out_b; bcase; reflexivity).
      rewrite <- Eo, Hfin by (cbn [bit1]; lia).
      destruct t; [|unfold ob; reflexivity]. unfold sumbit. rewrite adder_carry, Ew, Eb, Ec.
      unfold ob. unfold w. destruct (s (out_b db true db)), (Z.testbit v (Z.of_nat db)); cbn; try reflexivity;
        destruct (_ <=? _)%Z; reflexivity.
    + rewrite Es. reflexivity.
  - intros q Hq Hq5. rewrite Es.
    assert (Hps : ps (cren_inv db cin cout q) = s q) by (unfold ps, pullback, f; rewrite cren_2; reflexivity).
    rewrite <- Hps. destruct (cren_inv db cin cout q) as [r i] eqn:Eq.
    destruct (Nat.eq_dec r 1) as [->|Hr]; [|destruct r as [|[|r]]; try reflexivity; lia].
    cbn [gc_result].
    assert (n <= i \/ i < bit1 cin).
    { destruct q as [r' j]. destruct r' as [|[|[|[|[|[|r']]]]]]; cbn [cren_inv] in Eq; try (inversion Eq; lia).
      - cbn in Hq. unfold n. destruct cout; [destruct (Nat.ltb_spec j db); [lia|]|]; destruct cin; inversion Eq; cbn [bit1]; lia.
      - destruct cin; [|inversion Eq]. destruct j; inversion Eq. cbn. lia.
      - destruct cout; [|inversion Eq]. destruct j; [congruence|inversion Eq]. }
    destruct H as [H|H].
    + destruct (Nat.ltb_spec i n); [lia|]. reflexivity.
    + assert (i = 0 /\ cin = true) as [-> ->] by (destruct cin; cbn in H; split; (lia || reflexivity)).
      cbn [bit1 Nat.leb carry]. rewrite xorb_false_r. destruct (0 <? n); reflexivity.
Qed.
