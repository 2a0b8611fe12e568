From Verif.Synth Require Import SynthModel.
Local Open Scope Z_scope.

Ltac circ := intros; repeat match goal with b : bool |- _ => destruct b end; wcbn; wsolve.

Lemma toffoli_ok f a b c : run toffoli_qc f [a; b; c] = wscale 2 (f [a; b; xorb c (a && b)]).
Proof. unfold toffoli_qc, toffoli_raw. circ. Qed.
Lemma gray_toffoli_ok f a b c : run gray_toffoli_qc f [a; b; c] = wscale 2 (f [a; b; xorb c (a && b)]).
Proof. unfold gray_toffoli_qc. circ. Qed.
(** the action assumed for the adders: [Rev.gand_phase] *)
Lemma gidney_qc_action f a b c :
  run gidney_qc f [a; b; c] = wscale 2 (wphase (if xorb c (a && b) then (if a || b then 6 else 2) else 0) (f [a; b; xorb c (a && b)])).
Proof. unfold gidney_qc. circ. Qed.
(** measurement-based AND uncomputation: both outcomes (amplitude 1/sqrt 2 each) erase a target holding a AND b *)
Lemma gidney_inv_ok f m a b c : (forall a b c, c <> a && b -> f [a; b; c] = w0) ->
  run (gidney_inv_branch m) f [a; b; c] = if c then w0 else f [a; b; a && b].
Proof.
  intros Hf. assert (H1 : f [true; true; false] = w0) by (apply Hf; discriminate).
  assert (H2 : f [true; false; true] = w0) by (apply Hf; discriminate).
  assert (H3 : f [false; true; true] = w0) by (apply Hf; discriminate).
  assert (H4 : f [false; false; true] = w0) by (apply Hf; discriminate).
  unfold gidney_inv_branch. destruct m; repeat match goal with b : bool |- _ => destruct b end; wcbn; rewrite ?H1, ?H2, ?H3, ?H4; wsolve.
Qed.
(** relative phase Toffoli: a Toffoli up to the sign of |1 0 1> *)
Lemma margolus_ok f a b c : run margolus_qc f [a; b; c] = wscale 4 (wphase (if a && negb b && c then 4 else 0) (f [a; b; xorb c (a && b)])).
Proof. unfold margolus_qc, reduced_margolus_pre. circ. Qed.
Lemma maslov_ok f a b c d : exists k, run maslov_qc f [a; b; c; d] = wscale 4 (wphase k (f [a; b; c; xorb d (a && b && c)])).
Proof.
  unfold maslov_qc, reduced_maslov_qc. destruct a, b, c, d.
  all: (exists 0%nat; wcbn; wsolve; fail) || (exists 4%nat; wcbn; wsolve; fail) || (exists 2%nat; wcbn; wsolve; fail) || (exists 6%nat; wcbn; wsolve; fail).
Qed.
Ltac kill0 Hf := repeat match goal with |- context[?f ?l] => match type of (f l) with W => is_var f;
   let e := fresh in assert (e : f l = w0) by (apply Hf; reflexivity); rewrite !e; clear e end end.
Lemma amy_ok f : (forall a b c, f [a; b; c; true] = w0) -> forall a b c d,
  run amy_toffoli_qc f [a; b; c; d] = if d then w0 else wscale 2 (f [a; b; xorb c (a && b); false]).
Proof. intros Hf a b c d. unfold amy_toffoli_qc. destruct a, b, c, d; wcbn; rewrite ?Hf; wsolve. Qed.
(** T-depth one Toffoli: both measurement outcomes (amplitude 1/sqrt 2 each) give the Toffoli gate
    followed by a CZ of the two controls *)
Lemma jones_ok f m : (forall a b c d e, d || e = true -> f [a; b; c; d; e] = w0) -> forall a b c d e,
  run (jones_branch m) f [a; b; c; d; e] = if d || e then w0 else wscale 2 (wphase (if a && b then 4 else 0) (f [a; b; xorb c (a && b); false; false])).
Proof.
  intros Hf a b c d e. unfold jones_branch, selinger_toffoli_qc.
  assert (H1 : forall a b c d, f [a; b; c; d; true] = w0) by (intros; apply Hf; apply orb_true_r).
  assert (H2 : forall a b c d, f [a; b; c; true; d] = w0) by (intros; apply Hf; reflexivity).
  destruct m, a, b, c, d, e; wcbn; rewrite ?H1, ?H2; wsolve.
Qed.

(** ** maslov_mcx *)
Definition maslov_phase (a b c d : bool) : nat :=
  if a && b then (if c then (if d then 4 else 0) else (if d then 6 else 2)) else 0.
Lemma wphase_inv k x : (k <= 8)%nat -> wphase (8 - k) (wphase k x) = x.
Proof. intros Hk. do 9 (destruct k as [|k]; [destruct x as [[[? ?] ?] ?]; cbn [wphase Nat.sub womega]; apply W_eq; lia|]). lia. Qed.
Lemma maslov_6 f a b c e d t : run (on [0; 1; 2; 4]%nat maslov_qc) f [a; b; c; e; d; t] =
  wscale 4 (wphase (maslov_phase a b c d) (f [a; b; c; e; xorb d (a && b && c); t])).
Proof. unfold maslov_qc, reduced_maslov_qc, maslov_phase. circ. Qed.
Lemma maslov_inv_6 f a b c e d t : run (on [0; 1; 2; 4]%nat (inv maslov_qc)) f [a; b; c; e; d; t] =
  wscale 4 (wphase (8 - maslov_phase a b c (xorb d (a && b && c))) (f [a; b; c; e; xorb d (a && b && c); t])).
Proof. unfold maslov_qc, reduced_maslov_qc, maslov_phase. circ. Qed.
Lemma toffoli_6 f a b c e d t : run (on [3; 4; 5]%nat toffoli_qc) f [a; b; c; e; d; t] = wscale 2 (f [a; b; c; e; d; xorb t (e && d)]).
Proof. unfold toffoli_qc, toffoli_raw. circ. Qed.
Definition margolus_phase (a b c : bool) : nat := if a && negb b && c then 4 else 0.
Lemma margolus_5 f a b c d t : run (on [0; 1; 3]%nat margolus_qc) f [a; b; c; d; t] =
  wscale 4 (wphase (margolus_phase a b d) (f [a; b; c; xorb d (a && b); t])).
Proof. unfold margolus_qc, reduced_margolus_pre, margolus_phase. circ. Qed.
Lemma margolus_inv_5 f a b c d t : run (on [0; 1; 3]%nat (inv margolus_qc)) f [a; b; c; d; t] =
  wscale 4 (wphase (8 - margolus_phase a b (xorb d (a && b))) (f [a; b; c; xorb d (a && b); t])).
Proof. unfold margolus_qc, reduced_margolus_pre, margolus_phase. circ. Qed.
Lemma toffoli_5 f a b c d t : run (on [2; 3; 4]%nat toffoli_qc) f [a; b; c; d; t] = wscale 2 (f [a; b; c; d; xorb t (c && d)]).
Proof. unfold toffoli_qc, toffoli_raw. circ. Qed.

Lemma wscale_scale k l x : wscale k (wscale l x) = wscale (k * l) x.
Proof. destruct x as [[[? ?] ?] ?]; cbn [wscale]. apply W_eq; ring. Qed.
Lemma womega_scale l x : womega (wscale l x) = wscale l (womega x).
Proof. destruct x as [[[? ?] ?] ?]; cbn [wscale womega]. apply W_eq; ring. Qed.
Lemma wphase_scale k l x : wphase k (wscale l x) = wscale l (wphase k x).
Proof. induction k as [|k IH]; cbn [wphase]; [reflexivity|]. rewrite IH. apply womega_scale. Qed.
Lemma maslov_phase_le a b c d : (maslov_phase a b c d <= 8)%nat.
Proof. unfold maslov_phase. destruct a, b, c, d; cbn; lia. Qed.
Lemma margolus_phase_le a b c : (margolus_phase a b c <= 8)%nat.
Proof. unfold margolus_phase. destruct a, b, c; cbn; lia. Qed.

Lemma maslov_mcx3_ok l f a b c t : maslov_mcx 3 = Some l ->
  (forall a b c t, f [a; b; c; true; t] = w0) -> forall d,
  run l f [a; b; c; d; t] = if d then w0 else wscale 32 (f [a; b; c; false; xorb t (a && b && c)]).
Proof.
  intros E Hf d. replace l with maslov3 by (cbv beta iota delta [maslov_mcx] in E; congruence). unfold maslov3. rewrite !run_app, margolus_inv_5, toffoli_5, margolus_5.
  replace (xorb (xorb d (a && b)) (a && b)) with d by (destruct d, a, b; reflexivity).
  rewrite !wphase_scale, !wscale_scale, wphase_inv by apply margolus_phase_le.
  destruct d; [rewrite Hf; reflexivity|]. f_equal. f_equal. destruct a, b, c, t; reflexivity.
Qed.
Lemma maslov_mcx4_ok l f a b c e t : maslov_mcx 4 = Some l ->
  (forall a b c e t, f [a; b; c; e; true; t] = w0) -> forall d,
  run l f [a; b; c; e; d; t] = if d then w0 else wscale 32 (f [a; b; c; e; false; xorb t (a && b && c && e)]).
Proof.
  intros E Hf d. replace l with maslov4 by (cbv beta iota delta [maslov_mcx] in E; congruence). unfold maslov4. rewrite !run_app, maslov_inv_6, toffoli_6, maslov_6.
  replace (xorb (xorb d (a && b && c)) (a && b && c)) with d by (destruct d, a, b, c; reflexivity).
  rewrite !wphase_scale, !wscale_scale, wphase_inv by apply maslov_phase_le.
  destruct d; [rewrite Hf; reflexivity|]. f_equal. f_equal. destruct a, b, c, e, t; reflexivity.
Qed.

(** ** control states *)
Lemma wrap_toffoli f s0 s1 a b c : run (ctrl_state_wrap toffoli_qc [s0; s1]) f [a; b; c] =
  wscale 2 (f [a; b; xorb c (eqb a s0 && eqb b s1)]).
Proof. unfold ctrl_state_wrap, toffoli_qc, toffoli_raw. destruct s0, s1; cbn [flat_map seq length app nth]; circ. Qed.
Lemma wrap_gray_toffoli f s0 s1 a b c : run (ctrl_state_wrap gray_toffoli_qc [s0; s1]) f [a; b; c] =
  wscale 2 (f [a; b; xorb c (eqb a s0 && eqb b s1)]).
Proof. unfold ctrl_state_wrap, gray_toffoli_qc. destruct s0, s1; cbn [flat_map seq length app nth]; circ. Qed.

(** ** yong_mcx *)
Lemma set_length b q v : length (set b q v) = length b.
Proof. revert q. induction b as [|h b IH]; intros [|q]; cbn [set length]; auto. Qed.
Lemma bit_set_same b q v : (q < length b)%nat -> bit (set b q v) q = v.
Proof. unfold bit. revert q. induction b as [|h b IH]; intros [|q] Hq; cbn [set nth length] in *; try lia; auto. apply IH. lia. Qed.
Lemma bit_set_other b q r v : r <> q -> bit (set b q v) r = bit b r.
Proof. unfold bit. revert q r. induction b as [|h b IH]; intros [|q] [|r] Hq; cbn [set nth]; auto; try congruence. Qed.
Lemma set_set b q v v' : set (set b q v) q v' = set b q v'.
Proof. revert q. induction b as [|h b IH]; intros [|q]; cbn [set]; auto. f_equal; auto. Qed.
Lemma set_bit b q : set b q (bit b q) = b.
Proof. unfold bit. revert q. induction b as [|h b IH]; intros [|q]; cbn [set nth]; auto. f_equal; auto. Qed.
Lemma set_comm b q r v v' : q <> r -> set (set b q v) r v' = set (set b r v') q v.
Proof. revert q r. induction b as [|h b IH]; intros [|q] [|r] Hq; cbn [set]; auto; try congruence. f_equal. apply IH. congruence. Qed.
Lemma flip_flip b q : (q < length b)%nat -> flip (flip b q) q = b.
Proof. intros Hq. unfold flip. rewrite bit_set_same, set_set, negb_involutive by exact Hq. apply set_bit. Qed.
Lemma allset_flip b q cs : ~ In q cs -> allset (flip b q) cs = allset b cs.
Proof.
  intros Hq. unfold allset, flip. induction cs as [|c cs IH]; [reflexivity|]. cbn [forallb].
  rewrite IH by (intros Hi; apply Hq; right; exact Hi). rewrite bit_set_other; [reflexivity|]. intros ->. apply Hq; left; reflexivity.
Qed.
Lemma allset_set b q v cs : ~ In q cs -> allset (set b q v) cs = allset b cs.
Proof.
  intros Hq. unfold allset. induction cs as [|c cs IH]; [reflexivity|]. cbn [forallb].
  rewrite IH by (intros Hi; apply Hq; right; exact Hi). rewrite bit_set_other; [reflexivity|]. intros ->. apply Hq; left; reflexivity.
Qed.
Lemma flip_length b q : length (flip b q) = length b.
Proof. apply set_length. Qed.

Definition good (g : cgate) : Prop := match g with MCP k _ | PXOR k _ _ => (k <= 8)%nat | _ => True end.
Lemma inv_inv l : Forall good l -> inv (inv l) = l.
Proof.
  intros Hl. unfold inv. rewrite map_rev, rev_involutive, map_map. rewrite <- (map_id l) at 2. apply map_ext_in.
  intros g Hg. rewrite Forall_forall in Hl. specialize (Hl g Hg). destruct g; cbn [good ginv] in *; try reflexivity; f_equal; lia.
Qed.
Lemma inv_app l1 l2 : inv (l1 ++ l2) = inv l2 ++ inv l1.
Proof. unfold inv. rewrite map_app, rev_app_distr. reflexivity. Qed.
Lemma inv_good l : Forall good l -> Forall good (inv l).
Proof.
  unfold inv. intros Hl. apply Forall_rev. apply Forall_map. rewrite Forall_forall in *. intros g Hg. specialize (Hl g Hg).
  destruct g; cbn [good ginv] in *; auto; lia.
Qed.

(** [l] acts as the exact multi-controlled X on all states over [n] qubits, up to the normalisation 2^k *)
Definition acts_mcx (n : nat) (l : list cgate) (cs : list nat) (t : nat) : Prop :=
  exists k, 0 < k /\ forall f b, length b = n -> run l f b = wscale k (f (if allset b cs then flip b t else b)).

Definition wsign (s : bool) (x : W) : W := if s then wneg x else x.
Lemma wphase_add j k x : wphase j (wphase k x) = wphase (j + k) x.
Proof. induction j as [|j IH]; cbn [wphase Nat.add]; [reflexivity|]. rewrite IH. reflexivity. Qed.
Lemma wphase4 x : wphase 4 x = wneg x.
Proof. destruct x as [[[? ?] ?] ?]. reflexivity. Qed.
Lemma wphase8 k x : wphase (8 + k) x = wphase k x.
Proof. rewrite <- wphase_add. destruct (wphase k x) as [[[? ?] ?] ?]. cbn [wphase womega]. apply W_eq; lia. Qed.
Lemma wphase12 x : wphase 12 x = wneg x.
Proof. change 12%nat with (8 + 4)%nat. rewrite wphase8. apply wphase4. Qed.
Lemma wphase16 x : wphase 16 x = x.
Proof. change 16%nat with (8 + 8)%nat. rewrite wphase8. exact (wphase8 0 x). Qed.

Lemma step_S q f b : step (S_ q) f b = if bit b q then wphase 2 (f b) else f b.
Proof. cbn [step S_ allset forallb]. rewrite andb_true_r. reflexivity. Qed.
Lemma step_SDG q f b : step (SDG q) f b = if bit b q then wphase 6 (f b) else f b.
Proof. cbn [step SDG allset forallb]. rewrite andb_true_r. reflexivity. Qed.

Section Step.
Variables (n : nat) (k1 k2 : list nat) (t anc : nat) (c1 c2 c3 c4 : list cgate).
Hypothesis Ht1 : ~ In t k1. Hypothesis Ht2 : ~ In t k2. Hypothesis Ha1 : ~ In anc k1. Hypothesis Ha2 : ~ In anc k2.
Hypothesis Hta : t <> anc. Hypothesis Htn : (t < n)%nat. Hypothesis Han : (anc < n)%nat.

Definition mid (d1 d2 d3 d4 : list cgate) : list cgate := d1 ++ [S_ anc] ++ d2 ++ [SDG anc] ++ d3 ++ [S_ anc] ++ d4 ++ [SDG anc].
Lemma mid_ok d1 d2 d3 d4 : acts_mcx n d1 k1 anc -> acts_mcx n d2 (k2 ++ [t]) anc -> acts_mcx n d3 k1 anc -> acts_mcx n d4 (k2 ++ [t]) anc ->
  exists k, 0 < k /\ forall f b, length b = n -> run (mid d1 d2 d3 d4) f b = wscale k (wsign (allset b k1 && allset b k2 && bit b t) (f b)).
Proof.
  intros (m1 & P1 & E1) (m2 & P2 & E2) (m3 & P3 & E3) (m4 & P4 & E4).
  exists (m4 * (m3 * (m2 * m1))). split; [nia|]. intros f b Hb.
  assert (Hat : ~ In anc (k2 ++ [t])). { rewrite in_app_iff. cbn. intros [?|[?|[]]]; auto. }
  assert (Hk2t : allset b (k2 ++ [t]) = allset b k2 && bit b t). { unfold allset. rewrite forallb_app. cbn. rewrite andb_true_r. reflexivity. }
  assert (L : forall b, length b = n -> length (flip b anc) = n) by (intros b' <-; apply flip_length).
  assert (Hfl : bit (flip b anc) anc = negb (bit b anc)) by (unfold flip; apply bit_set_same; lia).
  assert (Hff : flip (flip b anc) anc = b) by (apply flip_flip; lia).
  unfold mid. rewrite !run_app. cbn [run].
  rewrite step_SDG, E4, Hk2t, step_S by exact Hb.
  destruct (allset b k2 && bit b t) eqn:EB; destruct (allset b k1) eqn:EA.
  all: rewrite ?E3, ?allset_flip, ?EA, ?Hff by auto.
  all: rewrite ?step_SDG, ?E2 by auto; rewrite ?allset_flip, ?Hk2t by exact Hat.
  all: rewrite ?step_S, ?E1, ?Hff, ?allset_flip, ?EA, ?Hff by auto.
  all: rewrite ?Hfl; rewrite <- ?andb_assoc, ?EB; cbn [andb wsign].
  all: destruct (bit b anc); cbn [negb]; rewrite ?wphase_scale, ?wscale_scale, ?wphase_add; cbn [Nat.add].
  all: rewrite ?wphase4, ?wphase12, ?wphase16, ?(wphase8 0); rewrite ?Z.mul_assoc; reflexivity.
Qed.
Definition midi (d1 d2 d3 d4 : list cgate) : list cgate := [S_ anc] ++ d1 ++ [SDG anc] ++ d2 ++ [S_ anc] ++ d3 ++ [SDG anc] ++ d4.
Lemma mid_inv_ok d1 d2 d3 d4 : acts_mcx n d1 (k2 ++ [t]) anc -> acts_mcx n d2 k1 anc -> acts_mcx n d3 (k2 ++ [t]) anc -> acts_mcx n d4 k1 anc ->
  exists k, 0 < k /\ forall f b, length b = n -> run (midi d1 d2 d3 d4) f b = wscale k (wsign (allset b k1 && allset b k2 && bit b t) (f b)).
Proof.
  intros (m1 & P1 & E1) (m2 & P2 & E2) (m3 & P3 & E3) (m4 & P4 & E4).
  exists (m4 * (m3 * (m2 * m1))). split; [nia|]. intros f b Hb.
  assert (Hat : ~ In anc (k2 ++ [t])). { rewrite in_app_iff. cbn. intros [?|[?|[]]]; auto. }
  assert (Hk2t : allset b (k2 ++ [t]) = allset b k2 && bit b t). { unfold allset. rewrite forallb_app. cbn. rewrite andb_true_r. reflexivity. }
  assert (L : forall b, length b = n -> length (flip b anc) = n) by (intros b' <-; apply flip_length).
  assert (Hfl : bit (flip b anc) anc = negb (bit b anc)) by (unfold flip; apply bit_set_same; lia).
  assert (Hff : flip (flip b anc) anc = b) by (apply flip_flip; lia).
  unfold midi. rewrite !run_app. cbn [run].
  rewrite E4 by exact Hb.
  destruct (allset b k2 && bit b t) eqn:EB; destruct (allset b k1) eqn:EA.
  all: rewrite ?step_SDG, ?E3 by auto; rewrite ?allset_flip, ?Hk2t by exact Hat; rewrite ?Hff.
  all: rewrite ?step_S, ?E2 by auto; rewrite ?allset_flip, ?EA, ?Hff by auto.
  all: rewrite ?step_SDG, ?E1 by auto; rewrite ?allset_flip, ?Hk2t by exact Hat; rewrite ?Hff, ?step_S.
  all: rewrite ?Hfl; rewrite <- ?andb_assoc, ?EB; cbn [andb wsign].
  all: destruct (bit b anc); cbn [negb]; rewrite ?wphase_scale, ?wscale_scale, ?wphase_add; cbn [Nat.add].
  all: rewrite ?wphase4, ?wphase12, ?wphase16, ?(wphase8 0); rewrite ?Z.mul_assoc; reflexivity.
Qed.
End Step.
Lemma hconj_ok n k1 k2 t l k : ~ In t k1 -> ~ In t k2 -> (t < n)%nat -> 0 < k ->
  (forall f b, length b = n -> run l f b = wscale k (wsign (allset b k1 && allset b k2 && bit b t) (f b))) ->
  acts_mcx n ([H t] ++ l ++ [H t]) (k2 ++ k1) t.
Proof.
  intros H1 H2 Hn Hk E. exists (2 * k). split; [lia|]. intros f b Hb.
  rewrite !run_app. cbn [run]. change (step (H t) (run l (step (H t) f)) b) with
    (if bit b t then wadd (run l (step (H t) f) (set b t false)) (wneg (run l (step (H t) f) (set b t true)))
     else wadd (run l (step (H t) f) (set b t false)) (run l (step (H t) f) (set b t true))).
  rewrite !E by (rewrite set_length; exact Hb). rewrite !allset_set by assumption.
  rewrite !bit_set_same by lia. cbn [step]. rewrite !bit_set_same by lia. rewrite !set_set.
  replace (allset b (k2 ++ k1)) with (allset b k1 && allset b k2) by (unfold allset; rewrite forallb_app; apply andb_comm).
  rewrite andb_true_r, andb_false_r. unfold flip.
  assert (Hfb : f b = f (set b t (bit b t))) by (rewrite set_bit; reflexivity).
  destruct (allset b k1 && allset b k2), (bit b t); cbn [wsign negb]; rewrite ?Hfb;
    destruct (f (set b t true)) as [[[? ?] ?] ?], (f (set b t false)) as [[[? ?] ?] ?]; cbn [wadd wneg wscale]; apply W_eq; ring.
Qed.

Lemma acts_perm n l cs cs' t : (forall b, allset b cs = allset b cs') -> acts_mcx n l cs t -> acts_mcx n l cs' t.
Proof. intros Hc (k & P & E). exists k. split; [exact P|]. intros f b Hb. rewrite <- Hc. apply E; exact Hb. Qed.

Lemma yong_ok n : forall fuel cs t anc l, yong fuel cs t anc = Some l ->
  NoDup (t :: anc :: cs) -> (forall q, In q (t :: anc :: cs) -> (q < n)%nat) ->
  Forall good l /\ acts_mcx n l cs t /\ acts_mcx n (inv l) cs t.
Proof.
  induction fuel as [|fuel IH]; intros cs t anc l Hl Hnd Hlt; [discriminate|].
  assert (base : forall c1 c2, l = [MCX [c1; c2] t] -> cs = [c1; c2] -> Forall good l /\ acts_mcx n l cs t /\ acts_mcx n (inv l) cs t).
  { intros c1 c2 -> ->. split; [repeat constructor|]. split; exists 1; (split; [lia|]); intros f b Hb; cbn;
      rewrite andb_true_r; destruct (bit b c1 && bit b c2); match goal with |- context[f ?x] => destruct (f x) as [[[? ?] ?] ?] end; cbn [wscale]; apply W_eq; ring. }
  assert (main : let m := length cs in let k1 := skipn (m / 2) cs in let k2 := firstn (m / 2) cs in
    forall a1 r1 a2 r2 c1 c2 c3 c4, k1 = a1 :: r1 -> k2 = a2 :: r2 ->
    yong fuel k1 anc (last k2 0%nat) = Some c1 -> yong fuel (k2 ++ [t]) anc (last k1 0%nat) = Some c2 ->
    yong fuel (k2 ++ [t]) anc a1 = Some c3 -> yong fuel k1 anc a2 = Some c4 ->
    l = [H t] ++ c1 ++ [S_ anc] ++ c2 ++ [SDG anc] ++ inv ([S_ anc] ++ c3 ++ [SDG anc] ++ c4) ++ [H t] ->
    Forall good l /\ acts_mcx n l cs t /\ acts_mcx n (inv l) cs t).
  { intros m k1 k2 a1 r1 a2 r2 c1 c2 c3 c4 Ek1 Ek2 E1 E2 E3 E4 El.
    assert (Ecs : cs = k2 ++ k1) by (symmetry; apply firstn_skipn).
    assert (Hall : NoDup (t :: anc :: k2 ++ k1)) by (rewrite <- Ecs; exact Hnd).
    apply NoDup_cons_iff in Hall. destruct Hall as [Ht Hall]. apply NoDup_cons_iff in Hall. destruct Hall as [Ha Hall].
    assert (Hta : t <> anc) by (intros ->; apply Ht; left; reflexivity).
    assert (Ht1 : ~ In t k1) by (intros Hi; apply Ht; right; apply in_or_app; right; exact Hi).
    assert (Ht2 : ~ In t k2) by (intros Hi; apply Ht; right; apply in_or_app; left; exact Hi).
    assert (Ha1 : ~ In anc k1) by (intros Hi; apply Ha; apply in_or_app; right; exact Hi).
    assert (Ha2 : ~ In anc k2) by (intros Hi; apply Ha; apply in_or_app; left; exact Hi).
    assert (Hd : forall x, In x k1 -> In x k2 -> False).
    { clear -Hall. intros x Hx1 Hx2. induction k2 as [|y k2 IHk]; [destruct Hx2|]. cbn in Hall. apply NoDup_cons_iff in Hall.
      destruct Hall as [Hy Hall]. destruct Hx2 as [->|Hx2]; [apply Hy; apply in_or_app; right; exact Hx1|exact (IHk Hall Hx2)]. }
    assert (Hn1 : NoDup k1) by (clear -Hall; induction k2; [exact Hall|apply IHk2; cbn in Hall; apply NoDup_cons_iff in Hall; tauto]).
    assert (Hn2 : NoDup k2) by (clear -Hall; induction k2; constructor; cbn in Hall; apply NoDup_cons_iff in Hall; [intros Hi; apply Hall; apply in_or_app; tauto|tauto]).
    assert (L1 : In (last k1 0%nat) k1) by (rewrite Ek1; destruct (@exists_last _ (a1 :: r1)) as (u & v & Ev); [discriminate|rewrite Ev, last_last; apply in_or_app; right; left; reflexivity]).
    assert (L2 : In (last k2 0%nat) k2) by (rewrite Ek2; destruct (@exists_last _ (a2 :: r2)) as (u & v & Ev); [discriminate|rewrite Ev, last_last; apply in_or_app; right; left; reflexivity]).
    assert (M1 : In a1 k1) by (rewrite Ek1; left; reflexivity). assert (M2 : In a2 k2) by (rewrite Ek2; left; reflexivity).
    assert (Q : forall x, In x k2 -> NoDup (anc :: x :: k1) /\ forall q, In q (anc :: x :: k1) -> (q < n)%nat).
    { intros x Hx. split.
      - constructor; [|constructor; [|exact Hn1]]. + intros [->|Hi]; [exact (Ha2 Hx)|exact (Ha1 Hi)]. + intros Hi. exact (Hd x Hi Hx).
      - intros q Hq. apply Hlt. rewrite Ecs. cbn in Hq |- *. rewrite in_app_iff. destruct Hq as [<-|[<-|Hq]]; auto. }
    assert (R : forall x, In x k1 -> NoDup (anc :: x :: k2 ++ [t]) /\ forall q, In q (anc :: x :: k2 ++ [t]) -> (q < n)%nat).
    { intros x Hx. split.
      - constructor; [|constructor].
        + cbn. rewrite in_app_iff. cbn. intros [->|[Hi|[Hi|[]]]]; auto.
        + rewrite in_app_iff. cbn. intros [Hi|[->|[]]]; [exact (Hd x Hx Hi)|exact (Ht1 Hx)].
        + clear -Hn2 Ht2. induction k2 as [|y k2 IHk]; cbn; [repeat constructor; intros []|].
          apply NoDup_cons_iff in Hn2. constructor; [rewrite in_app_iff; cbn; intros [Hi|[->|[]]]; [tauto|apply Ht2; left; reflexivity]|].
          apply IHk; [intros Hi; apply Ht2; right; exact Hi|tauto].
      - intros q Hq. apply Hlt. rewrite Ecs. cbn in Hq |- *. rewrite !in_app_iff in *. cbn in Hq. destruct Hq as [<-|[<-|[Hq|[<-|[]]]]]; auto. }
    destruct (IH _ _ _ _ E1 (proj1 (Q _ L2)) (proj2 (Q _ L2))) as (G1 & A1 & B1).
    destruct (IH _ _ _ _ E4 (proj1 (Q _ M2)) (proj2 (Q _ M2))) as (G4 & A4 & B4).
    destruct (IH _ _ _ _ E2 (proj1 (R _ L1)) (proj2 (R _ L1))) as (G2 & A2 & B2).
    destruct (IH _ _ _ _ E3 (proj1 (R _ M1)) (proj2 (R _ M1))) as (G3 & A3 & B3).
    assert (Htn : (t < n)%nat) by (apply Hlt; left; reflexivity).
    assert (Han : (anc < n)%nat) by (apply Hlt; right; left; reflexivity).
    assert (El' : l = [H t] ++ mid anc c1 c2 (inv c4) (inv c3) ++ [H t]).
    { rewrite El. unfold mid. rewrite !inv_app. change (inv [SDG anc]) with [S_ anc]. change (inv [S_ anc]) with [SDG anc].
      rewrite <- !app_assoc. reflexivity. }
    split; [|split].
    - rewrite El'. unfold mid. repeat (apply Forall_app; split); repeat constructor; auto using inv_good; cbn; lia.
    - rewrite El', Ecs. destruct (mid_ok n k1 k2 t anc Ha1 Ha2 Hta Htn Han c1 c2 (inv c4) (inv c3) A1 A2 B4 B3) as (k & P & E).
      apply (hconj_ok n k1 k2 t _ k); assumption.
    - rewrite El', Ecs. unfold mid. rewrite !inv_app, !inv_inv by assumption.
      change (inv [SDG anc]) with [S_ anc]. change (inv [S_ anc]) with [SDG anc]. change (inv [H t]) with [H t].
      destruct (mid_inv_ok n k1 k2 t anc Ha1 Ha2 Hta Htn Han c3 c4 (inv c2) (inv c1) A3 A4 B2 B1) as (k & P & E).
      apply (hconj_ok n k1 k2 t _ k) in E; [|assumption..]. unfold midi in E. rewrite <- !app_assoc in E |- *. exact E. }
  cbn [yong] in Hl.
  assert (Hm : forall (P : Prop), (forall c1 c2, cs = [c1; c2] -> Some [MCX [c1; c2] t] = Some l -> P) -> (let m := length cs in let k1 := skipn (m / 2) cs in let k2 := firstn (m / 2) cs in
     match k1, k2 with
      | a1 :: _, a2 :: _ =>
        match yong fuel k1 anc (last k2 0%nat), yong fuel (k2 ++ [t]) anc (last k1 0%nat),
              yong fuel (k2 ++ [t]) anc a1, yong fuel k1 anc a2 with
        | Some c1, Some c2, Some c3, Some c4 =>
          Some ([H t] ++ c1 ++ [S_ anc] ++ c2 ++ [SDG anc] ++
                inv ([S_ anc] ++ c3 ++ [SDG anc] ++ c4) ++ [H t])
        | _, _, _, _ => None
        end
      | _, _ => None
      end = Some l -> P) -> P).
  { intros P P1 P2. destruct cs as [|x [|y [|z cs']]]; [exact (P2 Hl)|exact (P2 Hl)|exact (P1 x y eq_refl Hl)|exact (P2 Hl)]. }
  apply Hm; clear Hm Hl.
  - intros c1 c2 Ec El. apply (base c1 c2); [congruence|exact Ec].
  - cbv zeta in main |- *. intros El. destruct (skipn (length cs / 2) cs) as [|a1 r1] eqn:E1; [discriminate|].
    destruct (firstn (length cs / 2) cs) as [|a2 r2] eqn:E2; [discriminate|].
    destruct (yong fuel (a1 :: r1) anc (last (a2 :: r2) 0%nat)) as [c1|] eqn:Y1; [|discriminate].
    destruct (yong fuel ((a2 :: r2) ++ [t]) anc (last (a1 :: r1) 0%nat)) as [c2|] eqn:Y2; [|discriminate].
    destruct (yong fuel ((a2 :: r2) ++ [t]) anc a1) as [c3|] eqn:Y3; [|discriminate].
    destruct (yong fuel (a1 :: r1) anc a2) as [c4|] eqn:Y4; [|discriminate].
    apply (main a1 r1 a2 r2 c1 c2 c3 c4); auto. injection El as <-. reflexivity.
Qed.

Lemma yong_total : forall fuel cs t anc, (2 <= length cs <= fuel)%nat -> exists l, yong fuel cs t anc = Some l.
Proof.
  induction fuel as [|fuel IH]; intros cs t anc Hc; [lia|].
  destruct (le_lt_dec (length cs) 2) as [H2|H3].
  { destruct cs as [|x [|y [|z cs]]]; cbn [length] in *; try lia. eexists. reflexivity. }
  assert (D : (length cs / 2 <= length cs - 2 /\ 1 <= length cs / 2)%nat).
  { assert (E := Nat.div_mod_eq (length cs) 2). assert (M := Nat.mod_upper_bound (length cs) 2 ltac:(lia)). lia. }
  assert (Lk1 : length (skipn (length cs / 2) cs) = (length cs - length cs / 2)%nat) by apply skipn_length.
  assert (Lk2 : length (firstn (length cs / 2) cs) = (length cs / 2)%nat) by (apply firstn_length_le; lia).
  assert (E : yong (S fuel) cs t anc = let m := length cs in let k1 := skipn (m / 2) cs in let k2 := firstn (m / 2) cs in
     match k1, k2 with
      | a1 :: _, a2 :: _ =>
        match yong fuel k1 anc (last k2 0%nat), yong fuel (k2 ++ [t]) anc (last k1 0%nat),
              yong fuel (k2 ++ [t]) anc a1, yong fuel k1 anc a2 with
        | Some c1, Some c2, Some c3, Some c4 =>
          Some ([H t] ++ c1 ++ [S_ anc] ++ c2 ++ [SDG anc] ++ inv ([S_ anc] ++ c3 ++ [SDG anc] ++ c4) ++ [H t])
        | _, _, _, _ => None
        end
      | _, _ => None
      end).
  { destruct cs as [|x [|y [|z cs']]]; cbn [length] in H3; try lia. reflexivity. }
  rewrite E. clear E. cbv zeta.
  assert (E1 := Nat.div_mod_eq (length cs) 2). assert (M := Nat.mod_upper_bound (length cs) 2 ltac:(lia)).
  set (k1 := skipn (length cs / 2) cs) in *. set (k2 := firstn (length cs / 2) cs) in *.
  assert (Y1 : forall a b, exists l, yong fuel k1 a b = Some l) by (intros; apply IH; lia).
  assert (Y2 : forall a b, exists l, yong fuel (k2 ++ [t]) a b = Some l) by (intros; apply IH; rewrite app_length; cbn [length]; lia).
  clearbody k1 k2. destruct k1 as [|a1 r1]; cbn [length] in Lk1; [lia|]. destruct k2 as [|a2 r2]; cbn [length] in Lk2; [lia|].
  destruct (Y1 anc (last (a2 :: r2) 0%nat)) as (x1 & ->). destruct (Y2 anc (last (a1 :: r1) 0%nat)) as (x2 & ->).
  destruct (Y2 anc a1) as (x3 & ->). destruct (Y1 anc a2) as (x4 & ->). eexists. reflexivity.
Qed.

Definition tog (zs : list nat) (b : list bool) : list bool := fold_right (fun q b => flip b q) b zs.
Lemma tog_length zs b : length (tog zs b) = length b.
Proof. induction zs as [|q zs IH]; cbn; [reflexivity|]. rewrite flip_length. exact IH. Qed.
Lemma run_xs zs : forall f b, run (map X zs) f b = f (tog zs b).
Proof.
  induction zs as [|q zs IH]; intros f b; [reflexivity|]. cbn [map run]. rewrite IH. reflexivity.
Qed.
Lemma bit_flip b q r : (q < length b)%nat -> bit (flip b q) r = xorb (bit b r) (r =? q)%nat.
Proof.
  intros Hq. unfold flip. destruct (Nat.eqb_spec r q) as [->|Hr].
  - rewrite bit_set_same by exact Hq. destruct (bit b q); reflexivity.
  - rewrite bit_set_other by exact Hr. rewrite xorb_false_r. reflexivity.
Qed.
Lemma bit_tog zs : NoDup zs -> forall b r, (forall q, In q zs -> (q < length b)%nat) -> bit (tog zs b) r = xorb (bit b r) (existsb (Nat.eqb r) zs).
Proof.
  induction 1 as [|q zs Hq Hnd IH]; intros b r Hl; cbn [tog fold_right existsb]; [rewrite xorb_false_r; reflexivity|].
  fold (tog zs b). rewrite bit_flip by (rewrite tog_length; apply Hl; left; reflexivity).
  rewrite IH by (intros; apply Hl; right; assumption). destruct (Nat.eqb_spec r q) as [->|Hr]; cbn [orb]; [|rewrite xorb_false_r; reflexivity].
  assert (existsb (Nat.eqb q) zs = false) as ->.
  { apply not_true_is_false. rewrite existsb_exists. intros (x & Hx & Ex). apply Nat.eqb_eq in Ex. subst. contradiction. }
  rewrite xorb_false_r. reflexivity.
Qed.
Lemma bits_ext b b' : length b = length b' -> (forall r, bit b r = bit b' r) -> b = b'.
Proof. intros Hl Hb. apply (nth_ext _ _ false false Hl). intros r _. apply Hb. Qed.
Lemma tog_tog zs b : NoDup zs -> (forall q, In q zs -> (q < length b)%nat) -> tog zs (tog zs b) = b.
Proof.
  intros Hn Hl. apply bits_ext; [rewrite !tog_length; reflexivity|]. intros r.
  rewrite !bit_tog by (try rewrite tog_length; assumption). destruct (bit b r), (existsb (Nat.eqb r) zs); reflexivity.
Qed.
Lemma tog_flip_tog zs b t : NoDup zs -> (forall q, In q zs -> (q < length b)%nat) -> (t < length b)%nat -> tog zs (flip (tog zs b) t) = flip b t.
Proof.
  intros Hn Hl Ht. apply bits_ext; [rewrite tog_length, !flip_length, tog_length; reflexivity|]. intros r.
  rewrite bit_tog by (try (intros q Hq; rewrite flip_length, tog_length; auto); assumption).
  rewrite !bit_flip by (rewrite ?tog_length; assumption). rewrite bit_tog by assumption.
  destruct (bit b r), (existsb (Nat.eqb r) zs), (r =? t)%nat; reflexivity.
Qed.
Lemma zeros_in cs st q : In q (zeros cs st) -> In q cs.
Proof.
  unfold zeros. rewrite in_map_iff. intros ([x y] & <- & Hi). apply filter_In in Hi. destruct Hi as [Hi _]. apply in_combine_l in Hi. exact Hi.
Qed.
Lemma zeros_nodup cs st : NoDup cs -> NoDup (zeros cs st).
Proof.
  revert st. induction cs as [|c cs IH]; intros st Hn; [constructor|]. destruct st as [|[] st]; unfold zeros; cbn; [constructor| |];
    apply NoDup_cons_iff in Hn; destruct Hn as [Hc Hn]; [exact (IH st Hn)|]. constructor; [|exact (IH st Hn)].
  intros Hi. apply zeros_in in Hi. contradiction.
Qed.
Lemma existsb_zeros cs st i c s : NoDup cs -> length st = length cs -> nth_error cs i = Some c -> nth_error st i = Some s ->
  existsb (Nat.eqb c) (zeros cs st) = negb s.
Proof.
  revert st i. induction cs as [|x cs IH]; intros [|y st] [|i] Hn Hl Hc Hs; cbn in *; try discriminate; apply NoDup_cons_iff in Hn; destruct Hn as [Hx Hn].
  - injection Hc as ->. injection Hs as ->. unfold zeros. cbn. destruct s; cbn.
    + apply not_true_is_false. rewrite existsb_exists. intros (z & Hz & Ez). apply Nat.eqb_eq in Ez. subst z. apply Hx. apply (zeros_in cs st). exact Hz.
    + rewrite Nat.eqb_refl. reflexivity.
  - assert (Hin : In c cs) by (eapply nth_error_In; exact Hc).
    unfold zeros. cbn. destruct y; cbn; [apply (IH st i); auto; lia|].
    destruct (Nat.eqb_spec c x) as [->|]; [contradiction|]. apply (IH st i); auto; lia.
Qed.
(** the controls are in the control state *)
Definition in_state (b : list bool) (cs : list nat) (st : list bool) : bool := forallb (fun p => eqb (bit b (fst p)) (snd p)) (combine cs st).
Lemma allset_tog b cs st : NoDup cs -> length st = length cs -> (forall q, In q cs -> (q < length b)%nat) ->
  allset (tog (zeros cs st) b) cs = in_state b cs st.
Proof.
  intros Hn Hl Hb. apply eq_true_iff_eq. unfold allset, in_state. rewrite !forallb_forall. split.
  - intros Ha [c s] Hi. cbn [fst snd]. destruct (In_nth_error _ _ Hi) as (i & Ei).
    assert (Ec : nth_error cs i = Some c /\ nth_error st i = Some s).
    { clear -Ei. revert st i Ei. induction cs as [|x cs IH]; intros [|y st] [|i] Ei; cbn in *; try discriminate; [injection Ei as -> ->; auto|]. apply IH. exact Ei. }
    destruct Ec as [Ec Es]. specialize (Ha c (nth_error_In _ _ Ec)).
    rewrite bit_tog, (existsb_zeros cs st i c s) in Ha by (auto using zeros_nodup; intros q Hq; apply Hb; eapply zeros_in; exact Hq).
    destruct (bit b c), s; cbn in *; congruence.
  - intros Ha c Hc. destruct (In_nth_error _ _ Hc) as (i & Ec).
    destruct (nth_error st i) as [s|] eqn:Es; [|apply nth_error_None in Es; apply nth_error_Some in Ec || idtac; assert (i < length cs)%nat by (apply nth_error_Some; congruence); lia].
    rewrite bit_tog, (existsb_zeros cs st i c s) by (auto using zeros_nodup; intros q Hq; apply Hb; eapply zeros_in; exact Hq).
    assert (Hi : In (c, s) (combine cs st)).
    { clear -Ec Es. revert st i Ec Es. induction cs as [|x cs IH]; intros [|y st] [|i] Ec Es; cbn in *; try discriminate; [left; congruence|right; eapply IH; eassumption]. }
    specialize (Ha _ Hi). cbn [fst snd] in Ha. destruct (bit b c), s; cbn in *; congruence.
Qed.

Lemma yong_ctrl_ok n cs st t anc : (2 <= length cs)%nat -> length st = length cs ->
  NoDup (t :: anc :: cs) -> (forall q, In q (t :: anc :: cs) -> (q < n)%nat) ->
  exists l k, yong_ctrl cs st t anc = Some l /\ 0 < k /\
    forall f b, length b = n -> run l f b = wscale k (f (if in_state b cs st then flip b t else b)).
Proof.
  intros H2 Hst Hnd Hlt. destruct (yong_total (length cs) cs t anc ltac:(lia)) as (l & Hl).
  destruct (yong_ok n _ _ _ _ _ Hl Hnd Hlt) as (_ & (k & P & E) & _).
  unfold yong_ctrl, yong_mcx. rewrite Hl. eexists. exists k. split; [reflexivity|]. split; [exact P|]. intros f b Hb.
  assert (Hn : NoDup cs) by (apply NoDup_cons_iff in Hnd; destruct Hnd as [_ Hnd]; apply NoDup_cons_iff in Hnd; tauto).
  assert (Hz : NoDup (zeros cs st)) by (apply zeros_nodup; exact Hn).
  assert (Hzl : forall q, In q (zeros cs st) -> (q < length b)%nat) by (intros q Hq; rewrite Hb; apply Hlt; right; right; eapply zeros_in; exact Hq).
  rewrite !run_app, run_xs, E by (rewrite tog_length; exact Hb). rewrite run_xs, allset_tog; auto.
  2:{ intros q Hq. rewrite Hb. apply Hlt. right; right; exact Hq. }
  destruct (in_state b cs st); [rewrite tog_flip_tog|rewrite tog_tog]; auto. rewrite Hb. apply Hlt. left; reflexivity.
Qed.
