(** Executions that can be undone by the inverse circuit, and states seen through a list of qubits. *)
From Verif.Mcx Require Import McxModel McxSpec McxProofs.
Local Open Scope nat_scope.

(** [l] maps [s] to [s'] up to a phase, and the inverse of [l] undoes this, including the phase *)
Definition rexec (l : list gate) (s s' : bstate) : Prop :=
  exists d : Z, (forall p, exec l (p, s) ((p + d)%Z, s')) /\ (forall p, exec (inv l) (p, s') ((p - d)%Z, s)).

Lemma rexec_nil s s' : (forall q, s q = s' q) -> rexec [] s s'.
Proof. intros H. exists 0%Z. split; intros p; rewrite ?Z.add_0_r, ?Z.sub_0_r; apply exec_nil; auto. Qed.
Lemma rexec_app l1 l2 s1 s2 s3 : rexec l1 s1 s2 -> rexec l2 s2 s3 -> rexec (l1 ++ l2) s1 s3.
Proof.
  intros (d & H1 & H2) (e & H3 & H4). exists (d + e)%Z. split; intros p.
  - rewrite Z.add_assoc. eapply exec_app; [apply H1|apply H3].
  - rewrite inv_app. replace (p - (d + e))%Z with (p - e - d)%Z by lia. eapply exec_app; [apply H4|apply H2].
Qed.
Lemma rexec_ext l s1 s2 s1' s2' : (forall q, s1 q = s1' q) -> (forall q, s2 q = s2' q) -> rexec l s1 s2 -> rexec l s1' s2'.
Proof.
  intros E1 E2 (d & H1 & H2). exists d. split; intros p.
  - eapply exec_pre; [intros q; symmetry; apply E1|]. eapply exec_post; [apply E2|apply H1].
  - eapply exec_pre; [intros q; symmetry; apply E2|]. eapply exec_post; [apply E1|apply H2].
Qed.
Lemma inv_inv l : inv (inv l) = l.
Proof.
  unfold inv. rewrite map_rev, rev_involutive, map_map. rewrite <- (map_id l) at 2. apply map_ext. intros [| | | | | | |]; cbn; rewrite ?Z.opp_involutive; reflexivity.
Qed.
Lemma rexec_inv l s s' : rexec l s s' -> rexec (inv l) s' s.
Proof.
  intros (d & H1 & H2). exists (- d)%Z. rewrite inv_inv. split; intros p.
  - apply H2.
  - replace (p - - d)%Z with (p + d)%Z by lia. apply H1.
Qed.
Lemma rexec_loop lo n hi body (F : nat -> bstate) : hi = lo + n ->
  (forall k, lo <= k < hi -> rexec (body k) (F k) (F (S k))) -> rexec (loop lo n body) (F lo) (F hi).
Proof.
  intros ->. induction n as [|n IH]; intros H.
  - rewrite Nat.add_0_r. apply rexec_nil. reflexivity.
  - rewrite loop_S. eapply rexec_app; [apply IH; intros; apply H; lia|]. replace (lo + S n) with (S (lo + n)) by lia. apply H. lia.
Qed.
Lemma rexec_x q s : rexec [X q] s (upd s q (negb (s q))).
Proof.
  exists 0%Z. split; intros p; rewrite ?Z.add_0_r, ?Z.sub_0_r.
  - eapply exec_cons; [reflexivity|]. apply exec_nil. reflexivity.
  - cbn [inv map rev inv1 app]. eapply exec_cons; [reflexivity|]. apply exec_nil. intros x. rewrite upd_same, negb_involutive. unfold upd.
    destruct (qeq_spec x q) as [->|]; reflexivity.
Qed.
Lemma rexec_mcx cs t s : ~ In t cs -> rexec [MCX cs t] s (upd s t (xorb (all_set s cs) (s t))).
Proof.
  intros Ht. exists 0%Z. split; intros p; rewrite ?Z.add_0_r, ?Z.sub_0_r.
  - eapply exec_cons; [reflexivity|]. apply exec_nil. reflexivity.
  - cbn [inv map rev inv1 app]. eapply exec_cons; [reflexivity|]. apply exec_nil. intros x. rewrite upd_same.
    assert (E : all_set (upd s t (xorb (all_set s cs) (s t))) cs = all_set s cs).
    { unfold all_set. clear - Ht. generalize (xorb (forallb s cs) (s t)) as v. intros v. induction cs as [|c cs IH]; [reflexivity|]. cbn [forallb].
      rewrite upd_other by (intros ->; apply Ht; left; reflexivity). rewrite IH by (intros H; apply Ht; right; exact H). reflexivity. }
    rewrite E. unfold upd. destruct (qeq_spec x t) as [->|]; [|reflexivity]. destruct (all_set s cs), (s t); reflexivity.
Qed.
Lemma rexec_cx c t s : c <> t -> rexec [CX c t] s (upd s t (xorb (s c) (s t))).
Proof.
  intros Ht. exists 0%Z. split; intros p; rewrite ?Z.add_0_r, ?Z.sub_0_r.
  - eapply exec_cons; [reflexivity|]. apply exec_nil. reflexivity.
  - cbn [inv map rev inv1 app]. eapply exec_cons; [reflexivity|]. apply exec_nil. intros x. rewrite upd_same, (upd_other _ _ _ c Ht).
    unfold upd. destruct (qeq_spec x t) as [->|]; [|reflexivity]. destruct (s c), (s t); reflexivity.
Qed.
Lemma rexec_gand a b t s : a <> t -> b <> t -> s t = false -> rexec [GAND a b t] s (upd s t (s a && s b)).
Proof.
  intros Ha Hb Ht. exists 0%Z. split; intros p; rewrite ?Z.add_0_r, ?Z.sub_0_r.
  - eapply exec_cons; [apply step_gand_clean; exact Ht|]. apply exec_nil. reflexivity.
  - cbn [inv map rev inv1 app]. eapply exec_cons; [apply step_unand; rewrite upd_same, !upd_other by congruence; reflexivity|]. apply exec_nil.
    intros x. unfold upd. destruct (qeq_spec x t) as [->|]; [symmetry; exact Ht|reflexivity].
Qed.
Lemma rexec_pt2 a b t s : a <> t -> b <> t -> rexec (pt2 a b t) s (upd s t (xorb (s a && s b) (s t))).
Proof.
  intros Ha Hb. exists ((if s a && s t then 4 else 0) + (if s a && (s b && s t) then -4 else 0))%Z. split; intros p.
  - unfold pt2. do 3 (eapply exec_cons; [reflexivity|]). cbn [all_set forallb]. rewrite !andb_true_r, Z.add_assoc. apply exec_nil. reflexivity.
  - cbn [pt2 inv map rev inv1 app]. eapply exec_cons; [reflexivity|]. cbn [all_set forallb]. rewrite !andb_true_r, upd_same, !upd_other by congruence.
    set (s' := upd _ t _). assert (E : forall x, s' x = s x).
    { intros x. unfold s', upd. destruct (qeq_spec x t) as [->|]; [|reflexivity]. destruct (s a), (s b), (s t); reflexivity. }
    eapply exec_pre; [exact E|]. do 2 (eapply exec_cons; [reflexivity|]). cbn [all_set forallb]. rewrite !andb_true_r.
    match goal with |- exec [] (?p1, _) (?p2, _) => replace p1 with p2 end.
    + apply exec_nil. reflexivity.
    + destruct (s a), (s b), (s t); cbn [andb Z.opp]; lia.
Qed.

(** gates that do not touch a qubit *)
Definition gfree (t : qubit) (g : gate) : Prop :=
  match g with
  | X q => q <> t | CX c x => c <> t /\ x <> t | MCX cs x => ~ In t cs /\ x <> t | MCP _ cs => ~ In t cs
  | GAND a b x => a <> t /\ b <> t /\ x <> t | GUNAND a b x => a <> t /\ b <> t /\ x <> t
  | SWAP a b => a <> t /\ b <> t | DEL q => q <> t
  end.
Definition free (t : qubit) (l : list gate) : Prop := Forall (gfree t) l.
Lemma all_set_free s t v cs : ~ In t cs -> all_set (upd s t v) cs = all_set s cs.
Proof.
  unfold all_set. induction cs as [|c cs IH]; intros Ht; [reflexivity|]. cbn [forallb].
  rewrite upd_other by (intros ->; apply Ht; left; reflexivity). rewrite IH by (intros H; apply Ht; right; exact H). reflexivity.
Qed.
Lemma upd_comm (s : bstate) a b v w q : a <> b -> upd (upd s a v) b w q = upd (upd s b w) a v q.
Proof. intros H. unfold upd. destruct (qeq_spec q b), (qeq_spec q a); congruence. Qed.
Lemma step_free g t v p s p' s' : gfree t g -> step g (p, s) = Some (p', s') -> exists s'', step g (p, upd s t v) = Some (p', s'') /\ forall q, s'' q = upd s' t v q.
Proof.
  intros Hf Hs. destruct g; cbn [gfree step] in *.
  - injection Hs as <- <-. rewrite upd_other by exact Hf. eexists. split; [reflexivity|]. intros; apply upd_comm; congruence.
  - destruct Hf. injection Hs as <- <-. rewrite !upd_other by assumption. eexists. split; [reflexivity|]. intros; apply upd_comm; congruence.
  - destruct Hf. injection Hs as <- <-. rewrite all_set_free, upd_other by assumption. eexists. split; [reflexivity|]. intros; apply upd_comm; congruence.
  - injection Hs as <- <-. rewrite all_set_free by assumption. eexists. split; [reflexivity|]. reflexivity.
  - destruct Hf as (H1 & H2 & H3). injection Hs as <- <-. rewrite !upd_other by assumption. eexists. split; [reflexivity|]. intros; apply upd_comm; congruence.
  - destruct Hf as (H1 & H2 & H3). rewrite !upd_other by assumption. destruct (eqb (s t0) (s c1 && s c2)); [|discriminate]. injection Hs as <- <-.
    eexists. split; [reflexivity|]. intros; apply upd_comm; congruence.
  - destruct Hf. injection Hs as <- <-. rewrite !upd_other by assumption. eexists. split; [reflexivity|]. intros q. unfold upd.
    destruct (qeq_spec q b), (qeq_spec q a), (qeq_spec q t); congruence.
  - rewrite upd_other by exact Hf. destruct (s q); [discriminate|]. injection Hs as <- <-. eexists. split; [reflexivity|]. reflexivity.
Qed.
Lemma run_free l t v : free t l -> forall p s p' s', run l (p, s) = Some (p', s') -> exists s'', run l (p, upd s t v) = Some (p', s'') /\ forall q, s'' q = upd s' t v q.
Proof.
  induction 1 as [|g l Hg Hl IH]; intros p s p' s' R; cbn [run] in *.
  - injection R as <- <-. eexists. split; [reflexivity|]. reflexivity.
  - destruct (step g (p, s)) as [[p1 s1]|] eqn:Es; [|discriminate]. destruct (step_free g t v p s p1 s1 Hg Es) as (s2 & -> & E2).
    destruct (IH p1 s1 p' s' R) as (s3 & R3 & E3). pose proof (run_ext l p1 s2 _ E2) as Re. rewrite R3 in Re.
    destruct (run l (p1, s2)) as [[p4 s4]|]; [|destruct Re]. destruct Re as [-> Re]. exists s4. split; [reflexivity|]. intros q. rewrite Re. apply E3.
Qed.
Lemma exec_free l t v p s p' s' : free t l -> exec l (p, s) (p', s') -> exec l (p, upd s t v) (p', upd s' t v).
Proof.
  intros Hf (s1 & R & E). cbn [fst snd] in *. destruct (run_free l t v Hf p s p' s1 R) as (s2 & R2 & E2). exists s2. split; [exact R2|].
  intros q. cbn [snd]. rewrite E2. unfold upd. destruct (qeq q t); auto.
Qed.
Lemma free_inv t l : free t l -> free t (inv l).
Proof.
  intros H. apply Forall_forall. intros g Hg. unfold inv in Hg. apply in_rev, in_map_iff in Hg as (g' & <- & Hg'). pose proof (proj1 (Forall_forall _ _) H g' Hg') as F.
  destruct g'; exact F.
Qed.
Lemma free_app t l1 l2 : free t l1 -> free t l2 -> free t (l1 ++ l2).
Proof. intros. apply Forall_app. auto. Qed.
Lemma free_loop t lo n body : (forall k, lo <= k < lo + n -> free t (body k)) -> free t (loop lo n body).
Proof.
  intros H. induction n as [|n IH]; [constructor|]. rewrite loop_S. apply free_app; [apply IH; intros; apply H; lia|apply H; lia].
Qed.
Lemma free_pt2 t a b x : a <> t -> b <> t -> x <> t -> free t (pt2 a b x).
Proof. intros. unfold pt2, free. repeat constructor; cbn; intuition congruence. Qed.

(** conjugation by a circuit that does not touch what the core changes *)
Lemma conjugate_ok u core t v s s1 : free t u -> rexec u s s1 -> (forall p, exec core (p, s1) (p, upd s1 t v)) -> forall p, exec (conjugate u core) (p, s) (p, upd s t v).
Proof.
  intros Hf (d & H1 & H2) Hc p. unfold conjugate. eapply exec_app; [apply H1|]. eapply exec_app; [apply Hc|].
  replace p with (p + d - d)%Z at 2 by lia. apply exec_free; [apply free_inv, Hf|]. apply H2.
Qed.

(** * states seen through qubits [c 0 .. c (K-1)] *)
Section view.
Variables (c : nat -> qubit) (K : nat).
Hypothesis Hinj : forall i j, i < K -> j < K -> c i = c j -> i = j.
Definition ov (v : nat -> bool) (s : bstate) : bstate := fun q => match find (fun i => qeq (c i) q) (seq 0 K) with Some i => v i | None => s q end.
Lemma ov_get v s i : i < K -> ov v s (c i) = v i.
Proof.
  intros Hi. unfold ov. destruct (find _ _) as [j|] eqn:E.
  - apply find_some in E as [Hj E]. apply in_seq in Hj. destruct (qeq_spec (c j) (c i)) as [Ec|]; [|discriminate]. f_equal. apply Hinj; [lia|lia|exact Ec].
  - pose proof (find_none _ _ E i (proj2 (in_seq K 0 i) ltac:(lia))) as N. cbv beta in N. rewrite qeq_refl in N. discriminate.
Qed.
Lemma ov_out v s q : (forall i, i < K -> c i <> q) -> ov v s q = s q.
Proof.
  intros H. unfold ov. destruct (find _ _) as [j|] eqn:E; [|reflexivity]. apply find_some in E as [Hj E]. apply in_seq in Hj.
  destruct (qeq_spec (c j) q) as [Ec|]; [|discriminate]. destruct (H j); [lia|exact Ec].
Qed.
Lemma ov_case q : (exists i, i < K /\ c i = q) \/ (forall i, i < K -> c i <> q).
Proof.
  destruct (find (fun i => qeq (c i) q) (seq 0 K)) as [j|] eqn:E.
  - left. exists j. apply find_some in E as [Hj E]. apply in_seq in Hj. destruct (qeq_spec (c j) q) as [Ec|]; [|discriminate]. split; [lia|exact Ec].
  - right. intros i Hi Ec. pose proof (find_none _ _ E i (proj2 (in_seq K 0 i) ltac:(lia))) as N. cbv beta in N. rewrite Ec, qeq_refl in N. discriminate.
Qed.
Lemma ov_eq v w s q : (forall i, i < K -> v i = w i) -> ov v s q = ov w s q.
Proof. intros H. destruct (ov_case q) as [(i & Hi & <-)|Hn]; [rewrite !ov_get by exact Hi; auto|rewrite !ov_out by exact Hn; reflexivity]. Qed.
Lemma ov_id s q : ov (fun i => s (c i)) s q = s q.
Proof. destruct (ov_case q) as [(i & Hi & <-)|Hn]; [rewrite ov_get by exact Hi; auto|rewrite ov_out by exact Hn; reflexivity]. Qed.
Lemma ov_upd v s i b q : i < K -> upd (ov v s) (c i) b q = ov (fun j => if j =? i then b else v j) s q.
Proof.
  intros Hi. destruct (ov_case q) as [(j & Hj & <-)|Hn].
  - rewrite ov_get by exact Hj. unfold upd. destruct (qeq_spec (c j) (c i)) as [E|E].
    + apply Hinj in E; [|lia|lia]. subst. rewrite Nat.eqb_refl. reflexivity.
    + rewrite ov_get by exact Hj. destruct (Nat.eqb_spec j i) as [->|]; [congruence|reflexivity].
  - rewrite ov_out by exact Hn. rewrite upd_other by (intros ->; exact (Hn i Hi eq_refl)). apply ov_out, Hn.
Qed.
Lemma c_neq i j : i < K -> j < K -> i <> j -> c i <> c j.
Proof. intros Hi Hj Hij E. apply Hij, Hinj; assumption. Qed.

(** gates on a view: [w] is the new view *)
Lemma view_pt2 i j k v w s : i < K -> j < K -> k < K -> i <> k -> j <> k ->
  (forall x, x < K -> w x = if x =? k then xorb (v i && v j) (v k) else v x) -> rexec (pt2 (c i) (c j) (c k)) (ov v s) (ov w s).
Proof.
  intros Hi Hj Hk Nik Njk Hw. eapply rexec_ext; [reflexivity| |apply rexec_pt2; apply c_neq; assumption].
  intros q. rewrite !ov_get by assumption. rewrite ov_upd by exact Hk. apply ov_eq. intros x Hx. symmetry. apply Hw, Hx.
Qed.
Lemma view_gand i j k v w s : i < K -> j < K -> k < K -> i <> k -> j <> k -> v k = false ->
  (forall x, x < K -> w x = if x =? k then v i && v j else v x) -> rexec [GAND (c i) (c j) (c k)] (ov v s) (ov w s).
Proof.
  intros Hi Hj Hk Nik Njk Hf Hw. eapply rexec_ext; [reflexivity| |apply rexec_gand; [apply c_neq; assumption|apply c_neq; assumption|rewrite ov_get by exact Hk; exact Hf]].
  intros q. rewrite !ov_get by assumption. rewrite ov_upd by exact Hk. apply ov_eq. intros x Hx. symmetry. apply Hw, Hx.
Qed.
Lemma view_cx i k v w s : i < K -> k < K -> i <> k -> (forall x, x < K -> w x = if x =? k then xorb (v i) (v k) else v x) -> rexec [CX (c i) (c k)] (ov v s) (ov w s).
Proof.
  intros Hi Hk Nik Hw. eapply rexec_ext; [reflexivity| |apply rexec_cx; apply c_neq; assumption].
  intros q. rewrite !ov_get by assumption. rewrite ov_upd by exact Hk. apply ov_eq. intros x Hx. symmetry. apply Hw, Hx.
Qed.
Lemma view_x k v w s : k < K -> (forall x, x < K -> w x = if x =? k then negb (v k) else v x) -> rexec [X (c k)] (ov v s) (ov w s).
Proof.
  intros Hk Hw. eapply rexec_ext; [reflexivity| |apply rexec_x].
  intros q. rewrite !ov_get by assumption. rewrite ov_upd by exact Hk. apply ov_eq. intros x Hx. symmetry. apply Hw, Hx.
Qed.
End view.

(** * circuits of fixed size: the gates act on positions [(0, i)], standing for the qubits [c i] *)
Section place.
Variables (c : nat -> qubit) (K : nat).
Hypothesis Hinj : forall i j, i < K -> j < K -> c i = c j -> i = j.
Definition pl (q : qubit) : qubit := c (snd q).
Definition place : gate -> gate := ren pl.
Definition inside (q : qubit) : bool := (fst q =? 0) && (snd q <? K).
Definition ginside (g : gate) : bool :=
  match g with
  | X q => inside q | CX a b => inside a && inside b | MCX cs t => forallb inside cs && inside t | MCP _ cs => forallb inside cs
  | GAND a b t => inside a && inside b && inside t | GUNAND a b t => inside a && inside b && inside t
  | SWAP a b => inside a && inside b | DEL q => inside q
  end.
Definition sees (s s' w : bstate) : Prop := (forall q, inside q = true -> s' (pl q) = w q) /\ (forall q, (forall i, i < K -> c i <> q) -> s' q = s q).
Lemma inside_lt q : inside q = true -> fst q = 0 /\ snd q < K.
Proof. unfold inside. rewrite andb_true_iff, Nat.eqb_eq, Nat.ltb_lt. auto. Qed.
Lemma sees_upd s s' w q b : inside q = true -> sees s s' w -> sees s (upd s' (pl q) b) (upd w q b).
Proof.
  intros Hq [H1 H2]. pose proof (inside_lt q Hq) as [Q1 Q2]. split.
  - intros x Hx. pose proof (inside_lt x Hx) as [X1 X2]. unfold upd, pl in *. destruct (qeq_spec (c (snd x)) (c (snd q))) as [E|E], (qeq_spec x q) as [E'|E']; auto.
    + apply Hinj in E; [|assumption|assumption]. destruct x, q. cbn in *. congruence.
    + subst. congruence.
  - intros x Hx. rewrite upd_other by (intros ->; exact (Hx _ Q2 eq_refl)). apply H2, Hx.
Qed.
Lemma sees_all s s' w cs : forallb inside cs = true -> sees s s' w -> all_set s' (map pl cs) = all_set w cs.
Proof.
  intros H [H1 _]. unfold all_set. induction cs as [|q cs IH]; [reflexivity|]. cbn [forallb map] in *. apply andb_true_iff in H as [Hq H]. rewrite H1, IH by assumption. reflexivity.
Qed.
Lemma place_step g s p s' w : ginside g = true -> sees s s' w ->
  match step g (p, w) with Some (p1, w1) => exists s1, step (place g) (p, s') = Some (p1, s1) /\ sees s s1 w1 | None => True end.
Proof.
  intros Hg Hs. pose proof Hs as [H1 H2]. destruct g; cbn [step place ren ginside] in *; rewrite ?andb_true_iff in Hg.
  - rewrite H1 by assumption. eexists. split; [reflexivity|]. apply sees_upd; assumption.
  - destruct Hg. rewrite !H1 by assumption. eexists. split; [reflexivity|]. apply sees_upd; assumption.
  - destruct Hg as [G1 G2]. rewrite (sees_all s s' w cs G1 Hs), H1 by assumption. eexists. split; [reflexivity|]. apply sees_upd; assumption.
  - rewrite (sees_all s s' w cs Hg Hs). eexists. split; [reflexivity|]. exact Hs.
  - destruct Hg as [[G1 G2] G3]. rewrite !H1 by assumption. eexists. split; [reflexivity|]. apply sees_upd; assumption.
  - destruct Hg as [[G1 G2] G3]. rewrite !H1 by assumption. destruct (eqb (w t) (w c1 && w c2)); [|exact I]. eexists. split; [reflexivity|]. apply sees_upd; assumption.
  - destruct Hg. rewrite !H1 by assumption. eexists. split; [reflexivity|]. apply sees_upd; [assumption|]. apply sees_upd; assumption.
  - rewrite H1 by assumption. destruct (w q); [exact I|]. eexists. split; [reflexivity|]. exact Hs.
Qed.
Lemma place_run l s : forallb ginside l = true -> forall p s' w, sees s s' w ->
  match run l (p, w) with Some (p1, w1) => exists s1, run (map place l) (p, s') = Some (p1, s1) /\ sees s s1 w1 | None => True end.
Proof.
  induction l as [|g l IH]; intros Hl p s' w Hs; cbn [run map forallb] in *; [eauto|]. apply andb_true_iff in Hl as [Hg Hl].
  pose proof (place_step g s p s' w Hg Hs) as P. destruct (step g (p, w)) as [[p1 w1]|]; [|exact I]. destruct P as (s1 & -> & Hs1). apply IH; assumption.
Qed.
(** [w] gives the final bits of the positions *)
Lemma place_exec l (s : bstate) p p' (w w' : bstate) : forallb ginside l = true -> (forall i, i < K -> s (c i) = w (0, i)) -> run l (p, w) = Some (p', w') ->
  exec (map place l) (p, s) (p', ov c K (fun i => w' (0, i)) s).
Proof.
  intros Hl Hw R. assert (S0 : sees s s w).
  { split; [|reflexivity]. intros [z i] H. apply inside_lt in H as [E Hi]. cbn in *. subst. apply Hw, Hi. }
  pose proof (place_run l s Hl p s w S0) as P. rewrite R in P. destruct P as (s1 & R1 & [A B]).
  exists s1. split; [exact R1|]. intros q. cbn [snd]. destruct (ov_case c K q) as [(i & Hi & <-)|Hn].
  - rewrite ov_get by assumption. apply (A (0, i)). unfold inside. cbn. apply Nat.ltb_lt. exact Hi.
  - rewrite ov_out by exact Hn. apply B, Hn.
Qed.
End place.
