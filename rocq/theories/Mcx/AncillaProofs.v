(** The number of ancillas of hybrid_mcx. *)
From Verif.Mcx Require Import McxModel McxSpec HybridProofs.
Local Open Scope nat_scope.

Lemma only_on_app qs l l' : only_on qs l -> only_on qs l' -> only_on qs (l ++ l').
Proof. intros H H' g q Hg Hq. apply in_app_or in Hg. destruct Hg; eauto. Qed.
Lemma only_on_sub qs qs' l : only_on qs l -> incl qs qs' -> only_on qs' l.
Proof. intros H I g q Hg Hq. apply I. eauto. Qed.
Lemma only_on_nil qs : only_on qs [].
Proof. intros g q []. Qed.
Lemma only_on_inv qs l : only_on qs l -> only_on qs (inv l).
Proof.
  intros H g q Hg Hq. unfold inv in Hg. apply in_rev in Hg. apply in_map_iff in Hg. destruct Hg as (g' & <- & Hi). apply (H g' q Hi).
  destruct g'; exact Hq.
Qed.
Lemma only_on_flips qs cs : incl (map fst cs) qs -> only_on qs (flips cs).
Proof.
  intros I g q Hg Hq. unfold flips in Hg. apply in_flat_map in Hg. destruct Hg as (c & Hc & Hg). destruct (snd c); [destruct Hg|].
  destruct Hg as [<-|[]]. destruct Hq as [<-|[]]. apply I. apply in_map. exact Hc.
Qed.
Lemma only_on_wrap qs cs l : incl (map fst cs) qs -> only_on qs l -> only_on qs (wrap cs l).
Proof. intros I H. unfold wrap. repeat apply only_on_app; try apply only_on_flips; assumption. Qed.
Ltac members I := intros gt q Hg Hq; cbn in Hg; repeat (destruct Hg as [<-|Hg]; [cbn in Hq; apply I; cbn; intuition congruence|]); destruct Hg.
Lemma only_on_group qs m g t : incl (t :: map fst g) qs -> only_on qs (group_gate m g t).
Proof.
  intros I. assert (I' : incl (map fst g) qs) by (intros x Hx; apply I; right; exact Hx).
  destruct g as [|a [|b [|c [|d g]]]]; try apply only_on_nil; cbn [group_gate]; apply only_on_wrap; try exact I'; [destruct m|]; members I.
Qed.
Lemma only_on_layer qs m gs r : forall i, (forall g, In g gs -> incl (map fst g) qs) -> (forall j, j < length gs -> In (r, i + j) qs) ->
  only_on qs (layer m gs r i) /\ only_on qs (layer_inv m gs r i).
Proof.
  induction gs as [|g gs IH]; intros i Hg Hr; [split; apply only_on_nil|]. cbn [layer layer_inv].
  assert (G : only_on qs (group_gate m g (r, i))).
  { apply only_on_group. intros x [<-|Hx]; [|apply (Hg g (or_introl eq_refl)); exact Hx]. replace i with (i + 0) by lia. apply Hr. cbn. lia. }
  destruct (IH (S i)) as [H1 H2].
  - intros g' H'. apply Hg. right. exact H'.
  - intros j Hj. replace (S i + j) with (i + S j) by lia. apply Hr. cbn. lia.
  - split; apply only_on_app; try assumption. apply only_on_inv. exact G.
Qed.
Lemma groups_length st : forall cs, length (fst (groups st cs)) <= length st.
Proof.
  induction st as [|k st IH]; intros cs; [apply le_n|]. cbn [groups]. destruct (k <=? length cs); [|cbn; lia].
  specialize (IH (skipn k cs)). destruct (groups st (skipn k cs)) as [g r]. cbn in *. lia.
Qed.
Lemma decider_length n k : k <> 0 -> length (structure_decider n (Some k)) <= k.
Proof.
  intros Hk. cbn [structure_decider]. destruct (Nat.eqb_spec (n - 2 - k) 0) as [E|E].
  - rewrite repeat_length. destruct k as [|[|k]]; [lia| |].
    + apply Nat.lt_succ_r. apply Nat.div_lt_upper_bound; lia.
    + apply Nat.lt_succ_r. apply Nat.div_lt_upper_bound; lia.
  - destruct (Nat.ltb_spec k (n - 2 - k)); [rewrite repeat_length; lia|]. rewrite app_length, !repeat_length. lia.
Qed.
Lemma ancillas_ok m : forall fuel cs t k r prog, hybrid_mcx fuel m cs t (Some k) r = Some prog ->
  exists anc, length anc <= k /\ only_on (map fst cs ++ t :: anc) prog.
Proof.
  induction fuel as [|fuel IH]; intros cs t k r prog H; [discriminate|]. cbn [hybrid_mcx] in H.
  destruct ((length cs <=? (if m then 2 else 3)) || match k with 0 => true | _ => false end)%bool eqn:EB.
  - injection H as <-. exists []. split; [cbn; lia|]. apply only_on_wrap; [intros x Hx; apply in_or_app; left; exact Hx|].
    intros g q [<-|[]] Hq. cbn in Hq. apply in_or_app. destruct Hq as [<-|Hq]; [right; left; reflexivity|left; exact Hq].
  - apply orb_false_iff in EB. destruct EB as [_ EK]. assert (Hk : k <> 0) by (intros ->; discriminate).
    pose proof (Nat.le_trans _ _ _ (groups_length (structure_decider (length cs) (Some k)) cs) (decider_length (length cs) k Hk)) as HL.
    pose proof (groups_concat (structure_decider (length cs) (Some k)) cs) as HC.
    destruct (groups (structure_decider (length cs) (Some k)) cs) as [gs rest]. cbn [fst snd] in *. cbn [option_map] in H.
    destruct (hybrid_mcx fuel m (outputs (length gs) r ++ rest) t (Some (k - length gs)) (S r)) as [core|] eqn:ER; [|discriminate].
    injection H as <-. destruct (IH _ _ _ _ _ ER) as (anc & HA & HO).
    exists (map (fun i => (r, i)) (seq 0 (length gs)) ++ anc). split; [rewrite app_length, map_length, seq_length; unfold qubit in *; lia|].
    set (qs := map fst cs ++ t :: map (fun i => (r, i)) (seq 0 (length gs)) ++ anc).
    assert (In_r : forall i, i < length gs -> In (r, i) qs).
    { intros i Hi. apply in_or_app. right. right. apply in_or_app. left. apply in_map_iff. exists i. split; [reflexivity|]. apply in_seq. lia. }
    assert (In_c : forall c, In c cs -> In (fst c) qs) by (intros c Hc; apply in_or_app; left; apply in_map; exact Hc).
    assert (I : only_on qs (layer m gs r 0) /\ only_on qs (layer_inv m gs r 0)).
    { apply only_on_layer; [|intros j Hj; apply In_r; exact Hj]. intros g Hg x Hx. apply in_map_iff in Hx. destruct Hx as (c & <- & Hc).
      apply In_c. rewrite <- HC. apply in_or_app. left. apply in_concat. exists g. auto. }
    destruct I as [I1 I2]. repeat apply only_on_app; [exact I1| |exact I2|].
    + apply (only_on_sub _ _ _ HO). intros x Hx. apply in_app_or in Hx. destruct Hx as [Hx|Hx].
      * apply in_map_iff in Hx. destruct Hx as (c & <- & Hc). apply in_app_or in Hc. destruct Hc as [Hc|Hc].
        -- unfold outputs in Hc. apply in_map_iff in Hc. destruct Hc as (i & <- & Hi). apply in_seq in Hi. apply In_r. lia.
        -- apply In_c. rewrite <- HC. apply in_or_app. right. exact Hc.
      * apply in_or_app. right. destruct Hx as [<-|Hx]; [left; reflexivity|]. right. apply in_or_app. right. exact Hx.
    + intros g q Hg Hq. unfold del_reg, loop in Hg. apply in_flat_map in Hg. destruct Hg as (i & Hi & Hg). apply in_seq in Hi.
      destruct Hg as [<-|[]]. destruct Hq as [<-|[]]. apply In_r. lia.
Qed.
