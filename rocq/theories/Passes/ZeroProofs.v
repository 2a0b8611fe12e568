(** Proofs about the passes that rely on qubits being in |0>: arrange_swaps and cancel_zero_controls. *)
From Coq Require Import Ring.
From Verif.Passes Require Import PassModel PassSpec PassProofs.
Local Open Scope nat_scope.

Section proofs.
Context {R : comring}.
Add Ring Rring3 : (laws R).
Notation instr := (instr R).
Implicit Types (i : instr) (v w : vec R) (l data : list instr).

(** ** arrange_swaps *)
Lemma transp_sym a b : forall j : nat, transp a b j = transp b a j.
Proof. intros j. unfold transp. destruct (Nat.eqb_spec j a), (Nat.eqb_spec j b); subst; reflexivity. Qed.
Lemma swap_rev n a b v : a < n -> b < n -> a <> b -> veq n (ap swapm [b; a] v) (ap swapm [a; b] v).
Proof.
  intros Ha Hb Hab. apply (veq_trans R n _ _ _ (ap_swap R n b a v Hb Ha (not_eq_sym Hab))). apply veq_sym. apply (veq_trans R n _ _ _ (ap_swap R n a b v Ha Hb Hab)).
  intros x Lx. f_equal. apply relist_ext. intros j _. apply transp_sym.
Qed.
Lemma swap_fresh n a b v : a < n -> b < n -> a <> b -> is0 n a v -> is0 n b v -> veq n (ap swapm [a; b] v) v.
Proof.
  intros Ha Hb Hab Za Zb x Lx. rewrite (ap_swap R n a b v Ha Hb Hab x Lx).
  assert (Bt : forall j : nat, j < n -> bit (relist n (transp a b) x) j = bit x (transp a b j)) by (intros j Hj; apply bit_relist, Hj).
  assert (Ta : transp a b a = b) by (unfold transp; rewrite Nat.eqb_refl; reflexivity).
  assert (Tb : transp a b b = a) by (unfold transp; destruct (Nat.eqb_spec b a); [congruence|]; rewrite Nat.eqb_refl; reflexivity).
  destruct (bit x a) eqn:Xa; [rewrite (Za x Lx Xa); apply Zb; [apply relist_length|rewrite Bt, Tb by exact Hb; exact Xa]|].
  destruct (bit x b) eqn:Xb; [rewrite (Zb x Lx Xb); apply Za; [apply relist_length|rewrite Bt, Ta by exact Ha; exact Xb]|].
  f_equal. apply bits_ext; [rewrite relist_length; congruence|]. rewrite relist_length. intros j Hj. rewrite Bt by exact Hj. unfold transp.
  destruct (Nat.eqb_spec j a) as [->|]; [congruence|]. destruct (Nat.eqb_spec j b) as [->|]; [congruence|]. reflexivity.
Qed.
Definition keep i : bool := negb (is_alloc i).
Lemma arrange_inv n data : forall out used v w, Forall (named_ok n) data -> veq n (run out w) v ->
  (forall q, q < n -> ~ In q used -> is0 n q v) ->
  (forall q, In q used -> exists j, In j out /\ In q (iqs j)) ->
  (forall l1 s l2, out = l1 ++ s :: l2 -> is_swap s = true -> exists j, In j l1 /\ In (nth 1 (iqs s) 0) (iqs j)) ->
  let '(out', _) := fold_left arrange_step data (out, used) in veq n (run out' w) (run (filter keep data) v) /\
  (forall l1 s l2, out' = l1 ++ s :: l2 -> is_swap s = true -> exists j, In j l1 /\ In (nth 1 (iqs s) 0) (iqs j)).
Proof.
  induction data as [|i data IH]; intros out used v w F E Z U SW; [exact (conj E SW)|]. inversion F as [|? ? Fi Fd]; subst. cbn [fold_left filter]. unfold arrange_step at 2, keep at 1.
  destruct (is_alloc i) eqn:Ea; cbn [negb]; [apply (IH out used v w); assumption|].
  change (run (i :: filter keep data) v) with (run (filter keep data) (run_instr v i)).
  assert (Znew : forall j, veq n (run_instr v i) (run_instr v j) -> forall q, q < n -> ~ In q (iqs j ++ used) -> is0 n q (run_instr v i)).
  { intros j Ej q Hq Hn. apply (is0_ext R n q _ _ (veq_sym R n _ _ Ej)). apply is0_other; [intros H; apply Hn, in_app_iff; auto|]. apply Z; [exact Hq|]. intros H. apply Hn, in_app_iff. auto. }
  assert (Unew : forall j q, In q (iqs j ++ used) -> exists k, In k (out ++ [j]) /\ In q (iqs k)).
  { intros j q Hq. apply in_app_iff in Hq. destruct Hq as [Hq|Hq]; [exists j; split; [apply in_app_iff; right; left; reflexivity|exact Hq]|].
    destruct (U q Hq) as (k & Hk & Hq'). exists k. split; [apply in_app_iff; auto|exact Hq']. }
  assert (SWnew : forall j, (is_swap j = true -> In (nth 1 (iqs j) 0) used) -> forall l1 s l2, out ++ [j] = l1 ++ s :: l2 -> is_swap s = true -> exists k, In k l1 /\ In (nth 1 (iqs s) 0) (iqs k)).
  { intros j Hj l1 s l2 Eq Hs. destruct l2 as [|z l2 _] using rev_ind.
    - apply app_inj_tail in Eq. destruct Eq as [-> ->]. apply U, Hj, Hs.
    - rewrite app_comm_cons, app_assoc in Eq. apply app_inj_tail in Eq. destruct Eq as [Eq _]. apply (SW _ _ _ Eq Hs). }
  destruct (is_swap i) eqn:Es; cbn [andb].
  - assert (Es' := Es). unfold is_swap in Es. destruct (okind (iop i)) eqn:Ek; try discriminate. clear Es.
    destruct (swap_shape n i Fi Ek) as (a & b & Q & Ha & Hb & Hab). rewrite Q; cbn [nth].
    assert (Run := run_swap n i a b v Fi Ek Q).
    destruct (mem b used) eqn:Mb; cbn [negb].
    + apply (IH (out ++ [i])); [exact Fd| | | |].
      * rewrite PassProofs.run_app. cbn. apply ap_ext. exact E.
      * specialize (Znew i (veq_refl R n _)). rewrite Q in Znew. exact Znew.
      * specialize (Unew i). rewrite Q in Unew. exact Unew.
      * apply SWnew. intros _. rewrite Q. apply mem_In, Mb.
    + apply mem_false in Mb. destruct (mem a used) eqn:Ma; cbn [negb].
      * apply mem_In in Ma. cbn [rev app]. set (j := {| iop := iop i; iqs := [b; a]; icl := icl i |}).
        assert (Rj : veq n (run_instr v i) (run_instr v j)).
        { apply (veq_trans R n _ _ _ Run). apply (veq_trans R n _ _ _ (veq_sym R n _ _ (swap_rev n a b v Ha Hb Hab))). apply veq_sym. destruct Fi as [_ K]. rewrite Ek in K. destruct K as [_ K].
          unfold run_instr, j. cbn [iop iqs]. apply ap_mat_ext. cbn. exact K. }
        apply (IH (out ++ [j])); [exact Fd| | | |].
        -- rewrite PassProofs.run_app. cbn. apply (veq_trans R n _ (run_instr v j)); [apply ap_ext; exact E|apply veq_sym; exact Rj].
        -- exact (Znew j Rj).
        -- exact (Unew j).
        -- apply SWnew. intros _. cbn. exact Ma.
      * apply mem_false in Ma. assert (Id : veq n (run_instr v i) v) by (apply (veq_trans R n _ _ _ Run); apply swap_fresh; auto).
        apply (IH out); auto; [apply (veq_trans R n _ _ _ E); apply veq_sym; exact Id|]. intros q Hq Hn. apply (is0_ext R n q _ _ (veq_sym R n _ _ Id)). apply Z; assumption.
  - apply (IH (out ++ [i])); [exact Fd| | | |].
    + rewrite PassProofs.run_app. cbn. apply ap_ext. exact E.
    + exact (Znew i (veq_refl R n _)).
    + exact (Unew i).
    + apply SWnew. congruence.
Qed.
Lemma arrange_ok n data v : Forall (named_ok n) data -> all_zero n v ->
  veq n (run (arrange_swaps data) v) (run (filter keep data) v) /\
  (forall l1 s l2, arrange_swaps data = l1 ++ s :: l2 -> is_swap s = true -> exists j, In j l1 /\ In (nth 1 (iqs s) 0) (iqs j)).
Proof.
  intros F Z. assert (H := arrange_inv n data [] [] v v F (veq_refl R n v) (fun q Hq _ => Z q Hq) (fun q Hq => match Hq with end)). unfold arrange_swaps.
  destruct (fold_left arrange_step data ([], [])) as [out used]. cbn [fst]. apply H. intros [|] ? ? [=].
Qed.

(** ** cancel_zero_controls *)
Lemma cphase_fresh n (m : mat R) qs q v : okq n qs -> length qs = 2 -> cphase m -> In q qs -> is0 n q v -> veq n (ap m qs v) v.
Proof.
  intros [N F] L (k & Hm) Hq Z x Lx. unfold ap.
  rewrite (rsum_ext R _ _ (fun y => if beqs (sel x qs) y then mul (if forallb (fun b => b) (sel x qs) then k else one) (v (upd x qs y)) else zero)).
  - rewrite (rsum_indicator R _ (sel x qs) (fun y => mul (if forallb (fun b => b) (sel x qs) then k else one) (v (upd x qs y)))); [|apply strings_NoDup|apply strings_In, sel_length].
    rewrite upd_sel by (auto; intros r Hr; rewrite Lx; auto). destruct (forallb (fun b => b) (sel x qs)) eqn:E; [|ring].
    rewrite forallb_forall in E. rewrite (Z x Lx); [ring|]. apply E. apply in_map_iff. exists q. auto.
  - intros y Hy. apply strings_In in Hy. rewrite Hm by (rewrite ?sel_length; congruence). destruct (beqs (sel x qs) y); [reflexivity|ring].
Qed.
Lemma beqs_nth a : forall b k, beqs a b = true -> nth k a false = nth k b false.
Proof. intros b k E. apply beqs_eq in E. subst. reflexivity. Qed.
Lemma nth_firstn' {A} (d : A) j : forall k (l : list A), k < j -> nth k (firstn j l) d = nth k l d.
Proof. induction j as [|j IH]; intros k l H; [lia|]. destruct l as [|h l], k as [|k]; cbn; try reflexivity. apply IH. lia. Qed.
Lemma control_fresh n (m : mat R) cs qs k v : okq n qs -> controlled cs (length qs) m -> k < length cs -> nth k cs false = true -> is0 n (nth k qs 0) v -> veq n (ap m qs v) v.
Proof.
  intros O [Lc Hm] Hk Hc Z. apply (veq_trans R n _ (ap idm qs v)); [|apply ap_id; exact O]. destruct O as [N F]. intros x Lx. unfold ap. apply rsum_ext. intros y Hy. apply strings_In in Hy.
  destruct (nth k y false) eqn:Ey.
  - rewrite Z; [ring|rewrite upd_length; exact Lx|]. rewrite bit_upd_in; auto; [lia|]. intros q Hq. rewrite Lx. auto.
  - rewrite Hm; [reflexivity|apply sel_length|exact Hy|]. apply andb_false_iff. right. destruct (beqs (firstn (length cs) y) cs) eqn:E; [|reflexivity].
    apply (beqs_nth _ _ k) in E. rewrite nth_firstn' in E by exact Hk. congruence.
Qed.
Lemma diag_fresh n (m : mat R) q v : q < n -> m [true] [false] = zero -> is0 n q v -> is0 n q (ap m [q] v).
Proof.
  intros Hq Hm Z x Lx Hx. unfold ap. cbn [length strings map app rsum sel upd]. rewrite Hx, Hm. rewrite (Z (setb x q true)); [ring|rewrite setb_length; exact Lx|]. apply bit_setb_same. lia.
Qed.
Lemma discard_In (q r : nat) s : In r (discard q s) <-> In r s /\ r <> q.
Proof. unfold discard. rewrite filter_In, negb_true_iff, Nat.eqb_neq. reflexivity. Qed.
Lemma discards_In (r : nat) qs : forall s, In r (fold_left (fun f q => discard q f) qs s) <-> In r s /\ ~ In r qs.
Proof. induction qs as [|q qs IH]; intros s; cbn; [tauto|]. rewrite IH, discard_In. intuition congruence. Qed.
Lemma cancelled_id n i fresh v : controls_ok n i -> (forall q, In q fresh -> is0 n q v) -> is_cancelled_by_zero i fresh = true -> veq n (run_instr v i) v.
Proof.
  intros (O & HP & HC & _) Z H. unfold is_cancelled_by_zero in H. unfold run_instr.
  assert (CP : okind (iop i) = KCPhase \/ base_p (iop i) = true -> existsb (fun q => mem q fresh) (iqs i) = true -> veq n (ap (omat (iop i)) (iqs i) v) v).
  { intros K Hex. destruct (HP K) as [L C]. apply existsb_exists in Hex. destruct Hex as (q & Hq & Hm). apply mem_In in Hm. apply (cphase_fresh n _ _ q); auto. }
  assert (Cs : match ctrl (iop i) with Some cs => existsb (fun k => mem (nth k (iqs i) 0) fresh && nth k cs false) (seq 0 (length cs)) | None => false end = true -> veq n (ap (omat (iop i)) (iqs i) v) v).
  { destruct (ctrl (iop i)) as [cs|] eqn:Ec; [|discriminate]. intros Hex. apply existsb_exists in Hex. destruct Hex as (k & Hk & Hm). apply in_seq in Hk. apply andb_true_iff in Hm. destruct Hm as [Hm Hc].
    apply mem_In in Hm. apply (control_fresh n _ cs _ k); auto; lia. }
  destruct (okind (iop i)); auto; destruct (base_p (iop i)); auto.
Qed.
Lemma cancel_inv n data : forall out fresh v w, Forall (controls_ok n) data -> veq n (run out w) v -> (forall q, In q fresh -> q < n /\ is0 n q v) ->
  veq n (run (fst (fold_left cancel_step data (out, fresh))) w) (run data v).
Proof.
  induction data as [|i data IH]; intros out fresh v w F E Z; [exact E|]. inversion F as [|? ? Fi Fd]; subst. cbn [fold_left]. unfold cancel_step at 2.
  assert (E1 : veq n (run (out ++ [i]) w) (run_instr v i)) by (rewrite PassProofs.run_app; cbn; apply ap_ext; exact E).
  assert (Other : forall q, In q fresh -> ~ In q (iqs i) -> q < n /\ is0 n q (run_instr v i)) by (intros q Hq Hn; split; [apply Z, Hq|]; apply is0_other; [exact Hn|apply Z, Hq]).
  assert (Dflt : forall fresh', (forall q, In q fresh' -> In q fresh /\ ~ In q (iqs i)) -> veq n (run (fst (fold_left cancel_step data (out ++ [i], fresh'))) w) (run (i :: data) v)).
  { intros fresh' H. apply (IH (out ++ [i]) fresh' (run_instr v i)); auto. intros q Hq. apply Other; apply H, Hq. }
  assert (Gen : forall fresh', (is_cancelled_by_zero i fresh = false -> forall q, In q fresh' -> q < n /\ is0 n q (run_instr v i)) ->
    veq n (run (fst (fold_left cancel_step data (if is_cancelled_by_zero i fresh then (out, fresh) else (out ++ [i], fresh')))) w) (run (i :: data) v)).
  { intros fresh' H. destruct (is_cancelled_by_zero i fresh) eqn:Ec.
    - assert (Id := cancelled_id n i fresh v Fi (fun q Hq => proj2 (Z q Hq)) Ec). apply (IH out fresh (run_instr v i)); auto; [apply (veq_trans R n _ _ _ E), veq_sym, Id|].
      intros q Hq. split; [apply Z, Hq|]. apply (is0_ext R n q _ _ (veq_sym R n _ _ Id)). apply Z, Hq.
    - apply (IH (out ++ [i]) fresh' (run_instr v i)); auto. }
  assert (All : forall q, In q (fold_left (fun f q => discard q f) (iqs i) fresh) -> q < n /\ is0 n q (run_instr v i)) by (intros q Hq; apply discards_In in Hq; apply Other; tauto).
  destruct Fi as (O & HP & HC & K).
  destruct (okind (iop i)) eqn:Ek; try (apply Gen; intros _; exact All).
  - (* alloc *) destruct K as (q0 & Q & Hr). rewrite Q. cbn [nth]. apply (IH (out ++ [i]) (q0 :: fresh) (run_instr v i)); auto.
    intros q Hq. assert (Hq0 : q0 < n) by (apply O; rewrite Q; left; reflexivity). destruct (Nat.eq_dec q q0) as [->|Nq].
    + split; [exact Hq0|]. intros x Lx Hx. unfold run_instr, ap. rewrite Q. cbn [sel map]. rewrite Hx. rewrite (rsum_ext R _ _ (fun _ => zero)), rsum_0; [reflexivity|]. intros y _. rewrite Hr. ring.
    + destruct Hq as [Hq|Hq]; [congruence|]. apply Other; [exact Hq|]. rewrite Q. intros [H|[]]. congruence.
  - (* dealloc *) destruct K as (q0 & Q). rewrite Q. cbn [nth]. apply Dflt. intros q Hq. apply discard_In in Hq. rewrite Q. split; [tauto|]. intros [H|[]]. intuition.
  - (* barrier *) apply (IH (out ++ [i]) fresh (run_instr v i)); auto. intros q Hq. split; [apply Z, Hq|].
    assert (Id : veq n (run_instr v i) v) by (apply (veq_trans R n _ (ap idm (iqs i) v)); [apply ap_mat_ext; exact K|apply ap_id; exact O]).
    apply (is0_ext R n q _ _ (veq_sym R n _ _ Id)). apply Z, Hq.
  - (* diagonal *) destruct (iqs i) as [|q0 [|q1 qs]] eqn:Q; try (apply Gen; intros _; exact All).
    apply Gen. intros _ q Hq. assert (Hq0 : q0 < n) by (apply O; left; reflexivity). destruct (Nat.eq_dec q q0) as [->|Nq].
    + split; [exact Hq0|]. unfold run_instr. rewrite Q. apply diag_fresh; [exact Hq0|apply K; reflexivity|apply Z, Hq].
    + apply Other; [exact Hq|]. intros [H|[]]. congruence.
Qed.
Lemma cancel_ok n data v : Forall (controls_ok n) data -> all_zero n v -> veq n (run (cancel_zero_controls n data) v) (run data v).
Proof. intros F Z. apply cancel_inv; [exact F|apply veq_refl|]. intros q Hq. apply in_seq in Hq. split; [lia|apply Z; lia]. Qed.
End proofs.
