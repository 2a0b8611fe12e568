(** A result that has been read once stays the same. *)
From Verif.Interface Require Import BatchModel BatchSpec BatchProofs.
Local Open Scope nat_scope.
Section stable.
Context {C D E : Type}.
Variable backend : list (@call C) -> @call C -> list D + E.
Variable limit : option Z.
Notation mres := (@mres D E). Notation state := (@state C D E).
Implicit Types (s : state) (h : list mres).

(** nothing queued is populated *)
Definition clean s : Prop := forall q, In q (queue s) -> snd q < length (heap s) /\ forall r, nth_error (heap s) (snd q) = Some r -> populated r = false.
Lemma upd_other h i j f : i <> j -> nth_error (upd h i f) j = nth_error h j.
Proof. revert i j. induction h as [|x h IH]; intros [|i] [|j] N; cbn; try lia; try reflexivity. apply IH. lia. Qed.
Lemma fold_upd_other {X} (l : list X) (g : X -> nat) (f : X -> mres -> mres) h j : (forall x, In x l -> g x <> j) -> nth_error (fold_left (fun h x => upd h (g x) (f x)) l h) j = nth_error h j.
Proof.
  revert h. induction l as [|x l IH]; intros h H; cbn [fold_left]; [reflexivity|]. rewrite IH by (intros y Hy; apply H; right; exact Hy). apply upd_other, H. left. reflexivity.
Qed.
Lemma submit_other fuel k qs s j : (forall q, In q qs -> snd q <> j) -> nth_error (heap (fst (submit_all backend fuel k qs s))) j = nth_error (heap s) j.
Proof.
  revert qs s. induction fuel as [|fuel IH]; intros qs s H; destruct qs as [|q0 qs0]; cbn [submit_all]; try reflexivity. set (qs := q0 :: qs0) in *.
  unfold submit_chunk. destruct (backend (log s) _) as [ds|e]; cbn [fst]; [|reflexivity]. rewrite IH.
  - cbn [heap]. apply (fold_upd_other _ (fun rc => fst rc) (fun rc => inject (snd rc))). intros [r d] Hx. apply in_combine_l in Hx. apply in_map_iff in Hx. destruct Hx as (q & <- & Hq). apply H. rewrite <- (firstn_skipn k qs). apply in_or_app. left. exact Hq.
  - intros q Hq. apply H. rewrite <- (firstn_skipn k qs). apply in_or_app. right. exact Hq.
Qed.
Lemma dispatch_other s j : (forall q, In q (queue s) -> snd q <> j) -> nth_error (heap (fst (dispatch backend limit s))) j = nth_error (heap s) j.
Proof.
  intros H. unfold dispatch. destruct (queue s) as [|q qs]; [reflexivity|].
  set (s1 := {| queue := []; heap := heap s; log := log s; dflt := dflt s |}). set (r := match limit with None => _ | Some _ => _ end).
  assert (Qr : nth_error (heap (fst r)) j = nth_error (heap s) j).
  { unfold r. destruct limit as [z|]; [|apply (submit_other _ _ _ s1); exact H]. destruct (z =? 0)%Z; [reflexivity|]. destruct (z <? 0)%Z; [reflexivity|apply (submit_other _ _ _ s1); exact H]. }
  destruct r as [sr [er|]]; cbn [fst heap] in *; [|exact Qr]. rewrite <- Qr. apply (fold_upd_other _ (fun x => x) (fun _ m => if populated m then m else inject_error er m)).
  intros x Hx. apply in_map_iff in Hx. destruct Hx as (q' & <- & Hq'). apply H. exact Hq'.
Qed.
Lemma clean_step s e : clean s -> clean (fst (step backend limit s e)).
Proof.
  intros H. destruct e as [cs sh| | |z|hd]; cbn [step].
  - unfold run. destruct (valid_shots sh); [|exact H]. intros q. cbn [fst queue heap]. intros Hq. rewrite app_length, repeat_length. apply in_app_or in Hq. destruct Hq as [Hq|Hq].
    + destruct (H q Hq) as [L P]. split; [lia|]. intros r. rewrite nth_error_app1 by exact L. apply P.
    + apply in_map_iff in Hq. destruct Hq as ([c k] & <- & Hk). cbn [snd fst] in *. apply in_combine_r, in_seq in Hk. split; [lia|]. intros r. rewrite nth_error_app2 by lia.
      intros Hr. apply nth_error_In, repeat_spec in Hr. subst r. reflexivity.
  - destruct (dispatch backend limit s) as [s' o] eqn:X. cbn [fst]. intros q Hq. rewrite (queue_empty backend limit s Dispatch s' o (or_introl eq_refl) X) in Hq. destruct Hq.
  - intros q [].
  - destruct (valid_shots z); exact H.
  - exact H.
Qed.
Lemma stable_step s e hd d : clean s -> read s hd = Value d -> read (fst (step backend limit s e)) hd = Value d.
Proof.
  intros Cl R. assert (Pop : exists r, nth_error (heap s) hd = Some r /\ populated r = true).
  { unfold read in R. destruct (nth_error (heap s) hd) as [r|]; [|discriminate]. exists r. split; [reflexivity|]. destruct (populated r); [reflexivity|]. destruct (err r); discriminate. }
  destruct Pop as (r & N & P). enough (X : nth_error (heap (fst (step backend limit s e))) hd = nth_error (heap s) hd) by (unfold read in *; rewrite X; exact R).
  destruct e as [cs sh| | |z|h']; cbn [step]; try reflexivity.
  - unfold run. destruct (valid_shots sh); [|reflexivity]. cbn [fst heap]. apply nth_error_app1. apply nth_error_Some. congruence.
  - apply dispatch_other. intros q Hq Eq. subst hd. destruct (Cl q Hq) as [_ U]. rewrite (U r N) in P. discriminate.
  - destruct (valid_shots z); reflexivity.
Qed.
Lemma exec_fst es s : forall e, fst (exec backend limit (e :: es) s) = fst (exec backend limit es (fst (step backend limit s e))).
Proof. intros e. cbn [exec]. destruct (step backend limit s e) as [s1 o]. cbn [fst]. destruct (exec backend limit es s1). reflexivity. Qed.
Lemma clean_exec es s : clean s -> clean (fst (exec backend limit es s)).
Proof. revert s. induction es as [|e es IH]; intros s H; [exact H|]. rewrite exec_fst. apply IH, clean_step, H. Qed.
Lemma stable_exec es s hd d : clean s -> read s hd = Value d -> read (fst (exec backend limit es s)) hd = Value d.
Proof. revert s. induction es as [|e es IH]; intros s H R; [exact R|]. rewrite exec_fst. apply IH; [apply clean_step, H|apply stable_step; assumption]. Qed.
Lemma stable_run z es1 es2 hd d : let s1 := fst (exec backend limit es1 (init z)) in read s1 hd = Value d -> read (fst (exec backend limit es2 s1)) hd = Value d.
Proof. cbn zeta. apply stable_exec. apply clean_exec. intros q []. Qed.
End stable.
