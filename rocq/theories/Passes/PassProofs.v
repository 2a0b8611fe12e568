(** Proofs about resolve_swaps, commute_swaps, arrange_swaps and cancel_zero_controls. *)
From Coq Require Import Ring.
From Verif.Passes Require Import PassModel PassSpec.
Local Open Scope nat_scope.

Section proofs.
Context {R : comring}.
Add Ring Rring2 : (laws R).
Notation instr := (instr R).
Implicit Types (i : instr) (v w : vec R) (l data : list instr).

Lemma run_app l l' v : run (l ++ l') v = run l' (run l v). Proof. apply fold_left_app. Qed.
Lemma run_ext n l : forall v w, veq n v w -> veq n (run l v) (run l w).
Proof. induction l as [|i l IH]; intros v w H; [exact H|]. cbn. apply IH. apply ap_ext. exact H. Qed.
Lemma veq_of_eq n v w : v = w -> veq n v w. Proof. intros ->. apply veq_refl. Qed.

(** ** resolve_swaps *)
Lemma lset_length {A} (l : list A) k x : length (lset l k x) = length l.
Proof. revert k. induction l as [|h l IH]; intros [|k]; cbn; auto. Qed.
Lemma nth_lset_same {A} (l : list A) k x d : k < length l -> nth k (lset l k x) d = x.
Proof. revert k. induction l as [|h l IH]; intros [|k] H; cbn in *; try lia; [reflexivity|]. apply IH. lia. Qed.
Lemma nth_lset_other {A} (l : list A) k j x d : k <> j -> nth j (lset l k x) d = nth j l d.
Proof. revert k j. induction l as [|h l IH]; intros [|k] [|j] H; cbn; try congruence; try reflexivity. apply IH. congruence. Qed.
Lemma nth_swap_perm (p : list nat) a b j : a < length p -> b < length p ->
  nth j (lset (lset p a (nth b p 0)) b (nth a p 0)) 0 = nth (transp a b j) p 0.
Proof.
  intros Ha Hb. unfold transp. destruct (Nat.eqb_spec j b) as [->|Nb].
  - rewrite nth_lset_same by (rewrite lset_length; exact Hb). destruct (Nat.eqb_spec b a); [subst|]; reflexivity.
  - rewrite nth_lset_other by congruence. destruct (Nat.eqb_spec j a) as [->|Na]; [rewrite nth_lset_same by exact Ha; reflexivity|].
    rewrite nth_lset_other by congruence. reflexivity.
Qed.
Lemma swap_shape n i : named_ok n i -> okind (iop i) = KSwap -> exists a b, iqs i = [a; b] /\ a < n /\ b < n /\ a <> b.
Proof.
  intros [[N F] K] E. rewrite E in K. destruct K as [L _]. destruct (iqs i) as [|a [|b [|? ?]]]; try discriminate. exists a, b. repeat split.
  - apply F. left. reflexivity.
  - apply F. right. left. reflexivity.
  - inversion N; subst. intros ->. apply H1. left. reflexivity.
Qed.
Lemma run_swap n i a b v : named_ok n i -> okind (iop i) = KSwap -> iqs i = [a; b] -> veq n (run_instr v i) (ap swapm [a; b] v).
Proof.
  intros [_ K] E Q. rewrite E in K. destruct K as [_ H]. unfold run_instr. rewrite Q. apply ap_mat_ext. cbn. exact H.
Qed.
Lemma relist_ext n p p' (x : list bool) : (forall j : nat, j < n -> p j = p' j) -> relist n p x = relist n p' x.
Proof. intros H. unfold relist. apply map_ext_in. intros j Hi. apply in_seq in Hi. rewrite H by lia. reflexivity. Qed.
Lemma relist_relist n p p' (x : list bool) : (forall j : nat, j < n -> p' j < n) -> relist n p' (relist n p x) = relist n (fun j : nat => p (p' j)) x.
Proof. intros H. unfold relist at 1 3. apply map_ext_in. intros j Hi. apply in_seq in Hi. apply bit_relist. apply H. lia. Qed.
Definition pf (p : list nat) : nat -> nat := fun j : nat => nth j p 0.
Lemma resolve_inv n data : forall out perm v w, Forall (named_ok n) data -> length perm = n -> permutes n (pf perm) ->
  veq n w (fun x => v (relist n (pf perm) x)) ->
  let '(out', perm') := fold_left resolve_step data (out, perm) in
  exists new, out' = out ++ new /\ length perm' = n /\ permutes n (pf perm') /\ Forall (fun i => is_swap i = false) new /\
  veq n (run new w) (fun x => run data v (relist n (pf perm') x)).
Proof.
  induction data as [|i data IH]; intros out perm v w F Lp P E; cbn [fold_left].
  - exists []. rewrite app_nil_r. repeat split; auto; apply P.
  - inversion F as [|? ? Fi Fd]; subst. unfold resolve_step at 2. destruct (is_swap i) eqn:Es.
    + unfold is_swap in Es. destruct (okind (iop i)) eqn:Ek; try discriminate. clear Es.
      destruct (swap_shape (length perm) i Fi Ek) as (a & b & Q & Ha & Hb & Hab). rewrite Q. cbn [nth].
      set (perm1 := lset (lset perm a (nth b perm 0)) b (nth a perm 0)).
      assert (Pf : forall j, pf perm1 j = pf perm (transp a b j)) by (intros j; apply nth_swap_perm; assumption).
      assert (L1 : length perm1 = length perm) by (unfold perm1; rewrite !lset_length; reflexivity).
      destruct (transp_permutes (length perm) a b Ha Hb) as [TB TI]. destruct P as [PB PI].
      assert (P1 : permutes (length perm) (pf perm1)).
      { split; [intros j Hj; rewrite Pf; apply PB, TB, Hj|]. intros j k Hj Hk. rewrite !Pf. intros H. apply PI in H; [|apply TB; assumption..]. apply TI in H; assumption. }
      specialize (IH out perm1 (run_instr v i) w Fd L1 P1). 
      match type of IH with ?H -> _ => assert (HE : H) end; [|specialize (IH HE); destruct (fold_left resolve_step data (out, perm1)) as [out' perm']; exact IH].
      apply (veq_trans R _ _ _ _ E). intros x Lx. cbv beta.
      rewrite (run_swap (length perm) i a b v Fi Ek Q) by apply relist_length. rewrite (ap_swap R (length perm) a b v Ha Hb Hab) by apply relist_length.
      f_equal. rewrite relist_relist by (intros j Hj; apply TB; exact Hj). apply relist_ext. intros j Hj. rewrite Pf. unfold transp.
      destruct (Nat.eqb_spec j a) as [->|]; [rewrite Nat.eqb_refl; destruct (Nat.eqb_spec b a); [subst|]; reflexivity|].
      destruct (Nat.eqb_spec j b) as [->|]; [rewrite Nat.eqb_refl; reflexivity|]. destruct (Nat.eqb_spec j a), (Nat.eqb_spec j b); try congruence.
    + set (i' := {| iop := iop i; iqs := map (fun q => nth q perm 0) (iqs i); icl := icl i |}).
      specialize (IH (out ++ [i']) perm (run_instr v i) (run_instr w i') Fd eq_refl P).
      match type of IH with ?H -> _ => assert (HE : H) end.
      { intros x Lx. unfold run_instr at 1. cbn [iop iqs i']. rewrite (ap_ext R (length perm) _ _ _ _ E x Lx).
        apply (ap_relabel R (length perm) (pf perm) (omat (iop i)) (iqs i) v P (proj1 Fi) x Lx). }
      specialize (IH HE). destruct (fold_left resolve_step data (out ++ [i'], perm)) as [out' perm']. destruct IH as (new & -> & L' & P' & Ns & Eq).
      exists (i' :: new). rewrite <- app_assoc. repeat split; auto; try apply P'.
Qed.
Lemma resolve_ok n data v : Forall (named_ok n) data ->
  let '(out, perm) := resolve_swaps n data in
  permutes n (fun q => nth q perm 0) /\ Forall (fun i => is_swap i = false) out /\
  veq n (run out v) (fun x => run data v (relist n (fun q => nth q perm 0) x)).
Proof.
  intros F. unfold resolve_swaps.
  assert (Id : forall j, j < n -> pf (seq 0 n) j = j) by (intros j Hj; unfold pf; rewrite seq_nth by exact Hj; reflexivity).
  assert (P0 : permutes n (pf (seq 0 n))) by (split; [intros j Hj; rewrite Id by exact Hj; exact Hj|intros j k Hj Hk; rewrite !Id by assumption; auto]).
  assert (H := resolve_inv n data [] (seq 0 n) v v F (seq_length n 0) P0).
  match type of H with ?A -> _ => assert (HE : A) end.
  { intros x Lx. f_equal. symmetry. apply bits_ext; [rewrite relist_length; congruence|]. rewrite relist_length. intros j Hj. rewrite bit_relist, Id by exact Hj. reflexivity. }
  specialize (H HE). destruct (fold_left resolve_step data ([], seq 0 n)) as [out perm]. destruct H as (new & -> & _ & P & Ns & E). exact (conj P (conj Ns E)).
Qed.

(** ** commute_swaps *)
(** an instruction is a placeholder *)
Definition blank i : instr := {| iop := idop; iqs := iqs i; icl := [] |}.
Lemma run_blank n i v : okq n (iqs i) -> veq n (run_instr v (blank i)) v.
Proof. intros O. unfold run_instr, blank. cbn. apply ap_id. exact O. Qed.
Lemma run_idop n i v : okq n (iqs i) -> iop i = idop -> veq n (run_instr v i) v.
Proof. intros O E. unfold run_instr. rewrite E. apply ap_id. exact O. Qed.
Definition okl n l : Prop := Forall (fun j => okq n (iqs j)) l.
(** moving g to the end, past instructions that are disjoint from it or placeholders *)
Lemma run_move n (g : instr) l : okq n (iqs g) -> okl n l -> (forall j, In j l -> iop j = idop \/ forall q, In q (iqs g) -> ~ In q (iqs j)) ->
  forall v, veq n (run (g :: l) v) (run (l ++ [g]) v).
Proof.
  intros Og. induction l as [|j l IH]; intros O D v; [apply veq_refl|]. inversion O; subst. cbn [app].
  change (run (g :: j :: l) v) with (run l (run_instr (run_instr v g) j)). change (run (j :: l ++ [g]) v) with (run (l ++ [g]) (run_instr v j)).
  apply (veq_trans R n _ (run (g :: l) (run_instr v j))); [|apply IH; [assumption|intros k Hk; apply D; right; exact Hk]].
  change (run (g :: l) (run_instr v j)) with (run l (run_instr (run_instr v j) g)). apply run_ext.
  destruct (D j (or_introl eq_refl)) as [E|Dj].
  - apply (veq_trans R n _ (run_instr v g)); [apply run_idop; assumption|]. apply ap_ext. apply veq_sym. apply run_idop; assumption.
  - apply ap_comm; [assumption|exact Og|]. intros q Hq. apply (Dj q Hq).
Qed.
Lemma run_lists_comm n l l' : okl n l -> okl n l' -> (forall i j q, In i l -> In j l' -> In q (iqs i) -> ~ In q (iqs j)) ->
  forall v, veq n (run (l ++ l') v) (run (l' ++ l) v).
Proof.
  induction l as [|i l IH]; intros O O' D v; [rewrite app_nil_r; apply veq_refl|]. inversion O as [|? ? Oi Ol]; subst.
  cbn [app]. change (run (i :: l ++ l') v) with (run (l ++ l') (run_instr v i)).
  apply (veq_trans R n _ (run (l' ++ l) (run_instr v i))); [apply IH; auto; intros j k q Hj; apply D; right; exact Hj|].
  change (l' ++ i :: l) with (l' ++ [i] ++ l). rewrite app_assoc, run_app, (run_app (l' ++ [i])). apply run_ext.
  change (run l' (run_instr v i)) with (run (i :: l') v). apply run_move; [exact Oi|exact O'|]. intros j Hj. right. intros q Hq. apply (D i j q); [left; reflexivity|exact Hj|exact Hq].
Qed.
(** blank the instructions at the given positions, and the instructions there *)
Fixpoint blankall (k : nat) (idx : list nat) l : list instr :=
  match l with [] => [] | i :: l => (if mem k idx then blank i else i) :: blankall (S k) idx l end.
Definition picks (idx : list nat) l : list instr := flat_map (fun k => match nth_error l k with Some i => [i] | None => [] end) idx.
Lemma blankall_length idx l : forall k, length (blankall k idx l) = length l.
Proof. induction l as [|i l IH]; intros k; cbn; auto. Qed.
Lemma nth_blankall idx l : forall k j, nth_error (blankall k idx l) j = option_map (fun i => if mem (k + j) idx then blank i else i) (nth_error l j).
Proof.
  induction l as [|i l IH]; intros k [|j]; cbn [blankall nth_error option_map]; try reflexivity; [rewrite Nat.add_0_r; reflexivity|].
  rewrite IH. rewrite Nat.add_succ_r. reflexivity.
Qed.
Lemma nth_error_ext' {A} (l : list A) : forall l' : list A, length l = length l' -> (forall j : nat, nth_error l j = nth_error l' j) -> l = l'.
Proof.
  induction l as [|x l IH]; intros [|y l'] L H; try discriminate; [reflexivity|]. f_equal; [assert (E := H 0); cbn in E; congruence|].
  apply IH; [cbn in L; congruence|]. intros j. exact (H (S j)).
Qed.
Lemma mem_In (q : nat) (s : list nat) : mem q s = true <-> In q s.
Proof. unfold mem. rewrite existsb_exists. split; [intros (x & H & E); apply Nat.eqb_eq in E; subst; exact H|intros H; exists q; split; [exact H|apply Nat.eqb_refl]]. Qed.
Lemma mem_false (q : nat) (s : list nat) : mem q s = false <-> ~ In q s.
Proof. rewrite <- mem_In. destruct (mem q s); split; congruence. Qed.
Lemma mem_app (q : nat) s s' : mem q (s ++ s') = mem q s || mem q s'.
Proof. apply existsb_app. Qed.
Lemma blankall_app idx l l' : forall k, (forall j, In j idx -> j < k + length l) -> blankall k idx (l ++ l') = blankall k idx l ++ l'.
Proof.
  induction l as [|i l IH]; intros k H; cbn [app blankall].
  - cbn in H. revert k H. induction l' as [|j l' IH]; intros k H; [reflexivity|]. cbn [blankall].
    assert (E : mem k idx = false) by (apply mem_false; intros Hk; apply H in Hk; lia). rewrite E. f_equal. apply IH. intros x Hx. apply H in Hx. lia.
  - rewrite IH; [reflexivity|]. intros j Hj. apply H in Hj. cbn in Hj. lia.
Qed.
Lemma okl_blankall n idx l : okl n l -> forall k, okl n (blankall k idx l).
Proof. induction 1 as [|i l Hi Hl IH]; intros k; cbn; constructor; [destruct (mem k idx); exact Hi|apply IH]. Qed.
Lemma lset_blankall (l : list instr) k i : nth_error l k = Some i -> forall idx, lset (blankall 0 idx l) k (blank i) = blankall 0 (idx ++ [k]) l.
Proof.
  intros E idx. apply nth_error_ext'; [rewrite lset_length, !blankall_length; reflexivity|]. intros j.
  rewrite nth_blankall. cbn [Nat.add]. rewrite mem_app. cbn [mem existsb]. rewrite orb_false_r.
  assert (Hk : k < length (blankall 0 idx l)) by (rewrite blankall_length; apply nth_error_Some; congruence).
  destruct (Nat.eqb_spec j k) as [->|Hj].
  - rewrite orb_true_r, E. cbn. rewrite (nth_error_nth' _ i) by (rewrite lset_length; exact Hk). rewrite nth_lset_same by exact Hk. reflexivity.
  - rewrite orb_false_r. transitivity (nth_error (blankall 0 idx l) j); [|rewrite nth_blankall; reflexivity].
    generalize (blankall 0 idx l). clear - Hj. intros l. revert k j Hj. induction l as [|h l IH]; intros [|k] [|j] Hj; cbn; try reflexivity; try congruence. apply IH. congruence.
Qed.
Lemma picks_app idx idx' l : picks (idx ++ idx') l = picks idx l ++ picks idx' l.
Proof. apply flat_map_app. Qed.
Definition retarget (p : nat) i : instr := {| iop := iop i; iqs := [p]; icl := icl i |}.
(** what the inner loop of commute_swaps does *)
Lemma lset_app {A} (l l' : list A) k x : k < length l -> lset (l ++ l') k x = lset l k x ++ l'.
Proof. revert k. induction l as [|h l IH]; intros [|k] H; cbn in *; try lia; [reflexivity|]. rewrite IH by lia. reflexivity. Qed.
Lemma picks_length idx l : (forall j, In j idx -> j < length l) -> length (picks idx l) = length idx.
Proof.
  induction idx as [|k idx IH]; intros H; [reflexivity|]. cbn [picks flat_map]. rewrite app_length. fold (picks idx l). rewrite IH by (intros j Hj; apply H; right; exact Hj).
  assert (Hk : k < length l) by (apply H; left; reflexivity). apply nth_error_Some in Hk. destruct (nth_error l k); [reflexivity|congruence].
Qed.
Lemma NoDup_app_l {A} (a b : list A) : NoDup (a ++ b) -> NoDup a.
Proof. induction a as [|x a IH]; intros N; [constructor|]. inversion N; subst. constructor; [intros H; apply H1; apply in_app_iff; auto|auto]. Qed.
Lemma NoDup_last {A} (a : list A) x : NoDup (a ++ [x]) -> ~ In x a.
Proof. intros N H. apply NoDup_remove in N. rewrite app_nil_r in N. tauto. Qed.
Lemma move_spec p idx data : (forall j, In j idx -> j < length data) -> NoDup idx ->
  move_indices p idx data = (blankall 0 idx data ++ map (retarget p) (picks idx data), seq (length data) (length idx)).
Proof.
  induction idx as [|k idx IH] using rev_ind; intros H N.
  - cbn. rewrite app_nil_r. f_equal. apply nth_error_ext'; [rewrite blankall_length; reflexivity|]. intros j. rewrite nth_blankall. cbn. destruct (nth_error data j); reflexivity.
  - unfold move_indices in *. rewrite fold_left_app, IH; [|intros j Hj; apply H; apply in_app_iff; auto|apply (NoDup_app_l _ _ N)].
    cbn [fold_left]. assert (Hk : k < length data) by (apply H; apply in_app_iff; right; left; reflexivity).
    assert (Nk : mem k idx = false) by (apply mem_false, NoDup_last, N). destruct (nth_error data k) as [i|] eqn:Ei; [|apply nth_error_Some in Hk; congruence].
    rewrite nth_error_app1 by (rewrite blankall_length; exact Hk). rewrite nth_blankall. cbn [Nat.add]. rewrite Ei. cbn [option_map]. rewrite Nk.
    rewrite lset_app by (rewrite blankall_length; exact Hk). change {| iop := idop; iqs := iqs i; icl := [] |} with (blank i). rewrite lset_blankall by exact Ei.
    rewrite picks_app, map_app. cbn [picks flat_map map app]. rewrite Ei. cbn [app map]. f_equal; [rewrite <- app_assoc; reflexivity|].
    rewrite (app_length idx). cbn [length]. rewrite seq_app. cbn [seq]. f_equal. f_equal. rewrite !app_length, blankall_length, map_length, picks_length by (intros j Hj; apply H; apply in_app_iff; auto). cbn. lia.
Qed.
(** the positions recorded for a qubit *)
Definition recorded (q : nat) (idx : list nat) l : Prop :=
  NoDup idx /\ (forall k, In k idx -> exists i, nth_error l k = Some i /\ iqs i = [q]) /\
  (forall k k' i, In k idx -> k < k' -> ~ In k' idx -> nth_error l k' = Some i -> In q (iqs i) -> iop i = idop) /\
  (forall a b k k', idx = a ++ k :: b -> In k' b -> k < k').
Lemma recorded_lt q idx l j : recorded q idx l -> In j idx -> j < length l.
Proof. intros (_ & H & _) Hj. destruct (H j Hj) as (i & E & _). apply nth_error_Some. congruence. Qed.
Lemma pull n q idx : forall l, okl n l -> recorded q idx l -> forall v, veq n (run l v) (run (blankall 0 idx l ++ picks idx l) v).
Proof.
  induction idx as [|k idx IH] using rev_ind; intros l O Rc v.
  - cbn. rewrite app_nil_r. apply veq_of_eq. f_equal. symmetry. apply nth_error_ext'; [rewrite blankall_length; reflexivity|]. intros j. rewrite nth_blankall. cbn. destruct (nth_error l j); reflexivity.
  - destruct Rc as (N & H1 & H2 & H3). destruct (H1 k) as (g & Eg & Qg); [apply in_app_iff; right; left; reflexivity|].
    destruct (nth_error_split l k Eg) as (l1 & l2 & El & Lk).
    assert (Og : okq n (iqs g)) by (rewrite El in O; apply Forall_app in O; destruct O as [_ O]; inversion O; assumption).
    assert (O2 : okl n l2) by (rewrite El in O; apply Forall_app in O; destruct O as [_ O]; inversion O; assumption).
    set (l' := l1 ++ blank g :: l2).
    assert (El' : l' = blankall 0 [k] l).
    { rewrite <- (app_nil_l [k]). rewrite <- (lset_blankall l k g Eg []). assert (B0 : blankall 0 [] l = l) by (apply nth_error_ext'; [apply blankall_length|]; intros j; rewrite nth_blankall; cbn; destruct (nth_error l j); reflexivity).
      rewrite B0, El. unfold l'. rewrite <- Lk. clear. induction l1 as [|h l1 IH]; cbn; [reflexivity|]. rewrite <- IH. reflexivity. }
    assert (Step : veq n (run l v) (run (l' ++ [g]) v)).
    { rewrite El. unfold l'. rewrite <- app_assoc. cbn [app]. rewrite !run_app. generalize (run l1 v). intros w.
      apply (veq_trans R n _ (run (l2 ++ [g]) w)).
      - apply run_move; [exact Og|exact O2|]. intros j Hj. rewrite Qg. destruct (in_dec Nat.eq_dec q (iqs j)) as [Hq|Hq]; [left|right; intros r [<-|[]]; exact Hq].
        apply In_nth_error in Hj. destruct Hj as (m & Em). apply (H2 k (S (k + m)) j); [apply in_app_iff; right; left; reflexivity|lia| | |exact Hq].
        + intros Hin. apply in_app_iff in Hin. destruct Hin as [Hin|[Hin|[]]]; [|lia]. apply in_split in Hin. destruct Hin as (a & b & ->).
          assert (S (k + m) < k); [|lia]. apply (H3 a (b ++ [k])); [rewrite <- app_assoc; reflexivity|apply in_app_iff; right; left; reflexivity].
        + rewrite El. rewrite nth_error_app2 by lia. replace (S (k + m) - length l1) with (S m) by lia. exact Em.
      - change (run (blank g :: l2 ++ [g]) w) with (run (l2 ++ [g]) (run_instr w (blank g))). apply run_ext. apply veq_sym, run_blank, Og. }
    apply (veq_trans R n _ _ _ Step). rewrite picks_app. cbn [picks flat_map]. rewrite Eg. rewrite app_assoc. cbn [app]. rewrite (run_app l'), (run_app (_ ++ picks idx l)). apply run_ext.
    assert (Nk : ~ In k idx) by (apply NoDup_last, N).
    assert (Nth' : forall j, j <> k -> nth_error l' j = nth_error l j).
    { intros j Hj. rewrite El', nth_blankall. cbn [Nat.add mem existsb]. destruct (Nat.eqb_spec j k); [congruence|]. cbn. destruct (nth_error l j); reflexivity. }
    assert (Nk' : nth_error l' k = Some (blank g)) by (rewrite El', nth_blankall; cbn [Nat.add mem existsb]; rewrite Nat.eqb_refl, Eg; reflexivity).
    assert (P : picks idx l' = picks idx l).
    { unfold picks. clear - Nth' Nk. induction idx as [|j idx IH]; [reflexivity|]. cbn. rewrite Nth' by (intros ->; apply Nk; left; reflexivity). rewrite IH; [reflexivity|]. intros H. apply Nk. right. exact H. }
    assert (B : blankall 0 idx l' = blankall 0 (idx ++ [k]) l).
    { apply nth_error_ext'; [rewrite El', !blankall_length; reflexivity|]. intros j. rewrite !nth_blankall. cbn [Nat.add]. rewrite mem_app. cbn [mem existsb]. rewrite orb_false_r.
      destruct (Nat.eqb_spec j k) as [->|Hj]; [rewrite Nk', Eg; cbn; rewrite orb_true_r; destruct (mem k idx); reflexivity|]. rewrite orb_false_r, Nth' by exact Hj. reflexivity. }
    rewrite <- P, <- B. apply IH.
    + rewrite El'. apply okl_blankall. exact O.
    + split; [apply (NoDup_app_l _ _ N)|]. split; [|split].
      * intros j Hj. rewrite Nth' by (intros ->; contradiction). apply H1. apply in_app_iff. auto.
      * intros j k' i Hj Hlt Hni E Hq. destruct (Nat.eq_dec k' k) as [->|Hk]; [rewrite Nk' in E; injection E as <-; reflexivity|]. rewrite Nth' in E by exact Hk.
        apply (H2 j k' i); [apply in_app_iff; auto|exact Hlt| |exact E|exact Hq]. intros Hin. apply in_app_iff in Hin. destruct Hin as [Hin|[Hin|[]]]; [contradiction|congruence].
      * intros a b j j' -> Hj'. apply (H3 a (b ++ [k])); [rewrite <- app_assoc; reflexivity|apply in_app_iff; auto].
Qed.
Lemma recorded_nil q l : recorded q [] l.
Proof. split; [constructor|]. split; [intros ? []|]. split; [intros ? ? ? []|]. intros [|] ? ? ? [=]. Qed.
(** a recording survives blanking other positions and appending instructions on other qubits *)
Lemma recorded_app q idx l l' : recorded q idx l -> (forall j, In j l' -> In q (iqs j) -> iop j = idop) -> recorded q idx (l ++ l').
Proof.
  intros Rc H'. assert (Lt := fun j => recorded_lt q idx l j Rc). destruct Rc as (N & H1 & H2 & H3). split; [exact N|]. split; [|split; [|exact H3]].
  - intros k Hk. rewrite nth_error_app1 by (apply Lt, Hk). apply H1, Hk.
  - intros k k' i Hk Hlt Hni E Hq. destruct (Nat.lt_ge_cases k' (length l)) as [L|L].
    + rewrite nth_error_app1 in E by exact L. apply (H2 k k'); assumption.
    + rewrite nth_error_app2 in E by exact L. apply H'; [apply nth_error_In in E; exact E|exact Hq].
Qed.
Lemma recorded_blank q idx l s : recorded q idx l -> (forall k, In k s -> ~ In k idx) -> recorded q idx (blankall 0 s l).
Proof.
  intros (N & H1 & H2 & H3) D. split; [exact N|]. split; [|split; [|exact H3]].
  - intros k Hk. rewrite nth_blankall. cbn. assert (mem k s = false) as -> by (apply mem_false; intros H; apply (D k H Hk)). destruct (H1 k Hk) as (i & -> & Q). exists i. auto.
  - intros k k' i Hk Hlt Hni E Hq. rewrite nth_blankall in E. cbn in E. destruct (nth_error l k') as [j|] eqn:Ej; [|discriminate]. cbn in E. injection E as <-.
    destruct (mem k' s); [reflexivity|]. apply (H2 k k' j); assumption.
Qed.
Lemma recorded_disj q q' idx idx' l : q <> q' -> recorded q idx l -> recorded q' idx' l -> forall k, In k idx -> ~ In k idx'.
Proof. intros Hq (_ & H & _) (_ & H' & _) k Hk Hk'. destruct (H k Hk) as (i & E & Q), (H' k Hk') as (j & E' & Q'). rewrite E in E'. injection E' as <-. congruence. Qed.
Lemma picks_all (P : instr -> Prop) q idx l : recorded q idx l -> Forall P l -> Forall (fun i => P i /\ iqs i = [q]) (picks idx l).
Proof.
  intros (_ & H & _) F. apply Forall_forall. intros i Hi. apply in_flat_map in Hi. destruct Hi as (k & Hk & Hi). destruct (H k Hk) as (j & E & Q). rewrite E in Hi. destruct Hi as [<-|[]].
  split; [|exact Q]. apply nth_error_In in E. rewrite Forall_forall in F. apply F, E.
Qed.
Lemma picks_blank idx s l : (forall k, In k idx -> ~ In k s) -> picks idx (blankall 0 s l) = picks idx l.
Proof.
  intros D. unfold picks. induction idx as [|k idx IH]; [reflexivity|]. cbn. rewrite nth_blankall. cbn. assert (mem k s = false) as -> by (apply mem_false, D; left; reflexivity).
  rewrite IH by (intros j Hj; apply D; right; exact Hj). destruct (nth_error l k); reflexivity.
Qed.
Lemma picks_prefix idx l l' : (forall k, In k idx -> k < length l) -> picks idx (l ++ l') = picks idx l.
Proof.
  intros D. unfold picks. induction idx as [|k idx IH]; [reflexivity|]. cbn. rewrite nth_error_app1 by (apply D; left; reflexivity). rewrite IH; [reflexivity|]. intros j Hj. apply D. right. exact Hj.
Qed.
Lemma recorded_seq q l l' l'' : (forall j, In j l' -> iqs j = [q]) -> (forall j, In j l'' -> ~ In q (iqs j)) ->
  recorded q (seq (length l) (length l')) (l ++ l' ++ l'').
Proof.
  intros H H'. split; [apply seq_NoDup|]. split; [|split].
  - intros k Hk. apply in_seq in Hk. rewrite nth_error_app2, nth_error_app1 by lia. destruct (nth_error l' (k - length l)) as [i|] eqn:E; [|apply nth_error_None in E; lia].
    exists i. split; [reflexivity|]. apply H. apply nth_error_In in E. exact E.
  - intros k k' i Hk Hlt Hni E Hq. apply in_seq in Hk. assert (k' >= length l + length l') by (destruct (Nat.lt_ge_cases k' (length l + length l')); [exfalso; apply Hni, in_seq; lia|assumption]).
    rewrite !nth_error_app2 in E by lia. apply nth_error_In in E. exfalso. apply (H' i E Hq).
  - intros a b k k' E Hk'. assert (L : length a < length l') by (rewrite <- (seq_length (length l') (length l)), E, app_length; cbn; lia).
    assert (Ek : nth (length a) (seq (length l) (length l')) 0 = k) by (rewrite E, nth_middle; reflexivity). rewrite seq_nth in Ek by exact L.
    apply (In_nth _ _ 0) in Hk'. destruct Hk' as (m & Hm & <-). 
    assert (Lm : length a + S m < length l') by (rewrite <- (seq_length (length l') (length l)), E, app_length; cbn; lia).
    assert (Ek' : nth (length a + S m) (seq (length l) (length l')) 0 = nth m b 0) by (rewrite E, app_nth2_plus; reflexivity). rewrite seq_nth in Ek' by exact Lm. lia.
Qed.
Lemma named_blank n i : named_ok n i -> named_ok n (blank i).
Proof. intros [O _]. split; [exact O|]. cbn. reflexivity. Qed.
Lemma named_blankall n s l : Forall (named_ok n) l -> forall k, Forall (named_ok n) (blankall k s l).
Proof. induction 1 as [|i l Hi Hl IH]; intros k; cbn; constructor; [destruct (mem k s); [apply named_blank|]; exact Hi|apply IH]. Qed.
Lemma named_retarget n p i q : named_ok n i -> iqs i = [q] -> p < n -> named_ok n (retarget p i).
Proof.
  intros [O K] Q Hp. split; [split; [repeat constructor; intros []|intros r [<-|[]]; exact Hp]|]. cbn. destruct (okind (iop i)); auto; rewrite Q in K; [destruct K as [K _]; discriminate|]. exact K.
Qed.
Lemma named_okl n l : Forall (named_ok n) l -> okl n l.
Proof. apply Forall_impl. intros i [H _]. exact H. Qed.
(** one-qubit gates on a and b move through a swap of a and b *)
Lemma swap_through n a b l : a < n -> b < n -> a <> b -> forall q q', (q = a /\ q' = b) \/ (q = b /\ q' = a) -> Forall (fun i => iqs i = [q]) l ->
  forall v, veq n (ap swapm [a; b] (run l v)) (run (map (retarget q') l) (ap swapm [a; b] v)).
Proof.
  intros Ha Hb Hab q q' Hq. induction 1 as [|i l Qi Hl IH]; intros v; [apply veq_refl|]. cbn [map]. change (run (i :: l) v) with (run l (run_instr v i)).
  apply (veq_trans R n _ _ _ (IH _)). change (run (?x :: ?y) ?w) with (run y (run_instr w x)). apply run_ext. unfold run_instr. rewrite Qi.
  apply (veq_trans R n _ _ _ (ap_swap_gate R n a b (omat (iop i)) [q] v Ha Hb Hab ltac:(split; [repeat constructor; intros []|intros r [<-|[]]; destruct Hq as [[-> _]|[-> _]]; assumption]))).
  cbn [map]. apply veq_of_eq. cbn. f_equal. f_equal. unfold transp. destruct Hq as [[-> ->]|[-> ->]]; [rewrite Nat.eqb_refl; reflexivity|]. destruct (Nat.eqb_spec b a); [congruence|]. rewrite Nat.eqb_refl. reflexivity.
Qed.
Lemma commute_inv n data : forall out dic v w, Forall (named_ok n) data -> Forall (named_ok n) out -> (forall q, recorded q (dic q) out) -> veq n (run out w) v ->
  let '(out', _) := fold_left commute_step data (out, dic) in Forall (named_ok n) out' /\ veq n (run out' w) (run data v).
Proof.
  induction data as [|i data IH]; intros out dic v w F Fo Rc E; [exact (conj Fo E)|]. inversion F as [|? ? Fi Fd]; subst. cbn [fold_left]. unfold commute_step at 2.
  assert (E1 : veq n (run (out ++ [i]) w) (run_instr v i)) by (rewrite run_app; cbn; apply ap_ext; exact E).
  assert (Fo1 : Forall (named_ok n) (out ++ [i])) by (apply Forall_app; auto).
  destruct (is_swap i) eqn:Es.
  - unfold is_swap in Es. destruct (okind (iop i)) eqn:Ek; try discriminate. clear Es.
    destruct (swap_shape n i Fi Ek) as (a & b & Q & Ha & Hb & Hab). rewrite Q. cbn [nth].
    assert (La := fun j => recorded_lt a (dic a) out j (Rc a)). assert (Lb := fun j => recorded_lt b (dic b) out j (Rc b)).
    assert (Dab : forall k, In k (dic b) -> ~ In k (dic a)) by (apply (recorded_disj b a _ _ out); auto).
    rewrite move_spec; [|intros j Hj; rewrite app_length; apply La in Hj; lia|apply Rc].
    set (pA := picks (dic a) (out ++ [i])). assert (EA : pA = picks (dic a) out) by (apply picks_prefix; exact La).
    rewrite (blankall_app (dic a) out [i] 0) by (cbn; exact La).
    set (d1 := blankall 0 (dic a) out). assert (Ld1 : length d1 = length out) by apply blankall_length.
    rewrite move_spec; [|intros j Hj; rewrite !app_length; apply Lb in Hj; lia|apply Rc].
    rewrite <- !app_assoc. rewrite (blankall_app (dic b) d1) by (cbn; intros j Hj; rewrite Ld1; apply Lb, Hj). rewrite picks_prefix by (intros j Hj; rewrite Ld1; apply Lb, Hj).
    unfold d1 at 2. rewrite picks_blank by exact Dab. set (pB := picks (dic b) out). set (d2 := blankall 0 (dic b) d1).
    set (A' := map (retarget b) pA). set (B' := map (retarget a) pB).
    assert (Pa : Forall (fun j => named_ok n j /\ iqs j = [a]) pA) by (rewrite EA; apply picks_all; auto).
    assert (Pb : Forall (fun j => named_ok n j /\ iqs j = [b]) pB) by (apply picks_all; auto).
    assert (Fd1 : Forall (named_ok n) d1) by (apply named_blankall; exact Fo). assert (Fd2 : Forall (named_ok n) d2) by (apply named_blankall; exact Fd1).
    assert (FA : Forall (named_ok n) A') by (apply Forall_map; eapply Forall_impl; [|exact Pa]; cbn; intros j [Nj Qj]; apply (named_retarget n b j a); assumption).
    assert (FB : Forall (named_ok n) B') by (apply Forall_map; eapply Forall_impl; [|exact Pb]; cbn; intros j [Nj Qj]; apply (named_retarget n a j b); assumption).
    assert (QA : forall j, In j A' -> iqs j = [b]) by (intros j Hj; apply in_map_iff in Hj; destruct Hj as (k & <- & _); reflexivity).
    assert (QB : forall j, In j B' -> iqs j = [a]) by (intros j Hj; apply in_map_iff in Hj; destruct Hj as (k & <- & _); reflexivity).
    cbn [app]. replace (((d2 ++ i :: A') ++ B')) with (d2 ++ i :: A' ++ B') by (rewrite <- app_assoc; reflexivity).
    apply (IH (d2 ++ i :: A' ++ B')); [exact Fd|apply Forall_app; split; [exact Fd2|constructor; [exact Fi|apply Forall_app; auto]]| |].
    + (* recordings *)
      assert (Ld2 : length d2 = length out) by (unfold d2; rewrite blankall_length; exact Ld1).
      assert (LA : length (dic a) = length A') by (unfold A'; rewrite map_length, EA; symmetry; apply picks_length; exact La).
      assert (LB : length (dic b) = length B') by (unfold B'; rewrite map_length; symmetry; apply picks_length; exact Lb).
      intros q. destruct (Nat.eqb_spec q a) as [->|Nqa]; [|destruct (Nat.eqb_spec q b) as [->|Nqb]].
      * rewrite LB. replace (d2 ++ i :: A' ++ B') with ((d2 ++ i :: A') ++ B' ++ []) by (rewrite app_nil_r, <- app_assoc; reflexivity).
        replace (length _) with (length (d2 ++ i :: A')); [apply recorded_seq; [exact QB|intros j []]|].
        rewrite !app_length. cbn [length]. unfold A'. rewrite map_length. lia.
      * rewrite LA. replace (d2 ++ i :: A' ++ B') with ((d2 ++ [i]) ++ A' ++ B') by (rewrite <- app_assoc; reflexivity).
        replace (length (out ++ [i])) with (length (d2 ++ [i])) by (rewrite !app_length; lia).
        apply recorded_seq; [exact QA|]. intros j Hj. rewrite (QB j Hj). cbn. intuition.
      * apply recorded_app.
        -- unfold d2, d1. apply recorded_blank; [apply recorded_blank; [apply Rc|apply (recorded_disj a q _ _ out); auto]|apply (recorded_disj b q _ _ out); auto].
        -- intros j [<-|Hj] Hq; [exfalso; rewrite Q in Hq; cbn in Hq; intuition|]. exfalso. apply in_app_iff in Hj. destruct Hj as [Hj|Hj]; [rewrite (QA j Hj) in Hq|rewrite (QB j Hj) in Hq]; cbn in Hq; intuition.
    + (* effect *)
      assert (S1 : veq n (run out w) (run ((d2 ++ pB) ++ pA) w)).
      { apply (veq_trans R n _ _ _ (pull n a (dic a) out (named_okl n _ Fo) (Rc a) w)). fold d1. rewrite <- EA. rewrite !(run_app _ pA). apply run_ext.
        apply (veq_trans R n _ _ _ (pull n b (dic b) d1 (named_okl n _ Fd1) ltac:(apply recorded_blank; [apply Rc|]; apply (recorded_disj a b _ _ out); auto) w)).
        fold d2. unfold d1 at 1. rewrite picks_blank by exact Dab. apply veq_refl. }
      apply veq_sym. apply (veq_trans R n _ (run_instr (run out w) i)); [apply ap_ext, veq_sym, E|].
      apply (veq_trans R n _ (ap swapm [a; b] (run out w))); [apply (run_swap n i a b); assumption|].
      apply (veq_trans R n _ _ _ (ap_ext R n _ _ _ _ S1)). rewrite <- app_assoc, (run_app d2), (run_app pB).
      apply (veq_trans R n _ _ _ (swap_through n a b pA Ha Hb Hab a b (or_introl (conj eq_refl eq_refl)) (Forall_impl _ (fun j H => proj2 H) Pa) _)). fold A'.
      apply (veq_trans R n _ (run A' (run B' (ap swapm [a; b] (run d2 w))))).
      { apply run_ext. apply (swap_through n a b pB Ha Hb Hab b a (or_intror (conj eq_refl eq_refl)) (Forall_impl _ (fun j H => proj2 H) Pb)). }
      rewrite <- run_app. rewrite (run_app d2). change (run (i :: A' ++ B') ?u) with (run (A' ++ B') (run_instr u i)).
      apply (veq_trans R n _ (run (A' ++ B') (ap swapm [a; b] (run d2 w)))); [|apply run_ext, veq_sym; apply (run_swap n i a b); assumption].
      apply run_lists_comm; try (apply named_okl; assumption). intros j k q Hj Hk. rewrite (QB j Hj), (QA k Hk). cbn. intuition congruence.
  - assert (Hd : forall dic', (forall q, recorded q (dic' q) (out ++ [i])) -> let '(out', _) := fold_left commute_step data (out ++ [i], dic') in Forall (named_ok n) out' /\ veq n (run out' w) (run (i :: data) v))
      by (intros dic' H; apply IH; assumption).
    assert (Multi : forall q, ~ In q (iqs i) -> recorded q (dic q) (out ++ [i])) by (intros q Hq; apply recorded_app; [apply Rc|]; intros j [<-|[]] Hq'; contradiction).
    destruct (iqs i) as [|qb [|q2 qs]] eqn:Q.
    + apply Hd. intros q. cbn. apply Multi. intros [].
    + apply Hd. intros q. destruct (Nat.eqb_spec q qb) as [->|Nq]; [|apply Multi; intros [H|[]]; congruence].
      assert (Lt := fun j => recorded_lt qb (dic qb) out j (Rc qb)). rewrite app_length. replace (length out + length [i] - 1) with (length out) by (cbn; lia).
      destruct (Rc qb) as (N & H1 & H2 & H3). split; [|split; [|split]].
      * apply NoDup_rev in N. rewrite <- (rev_involutive (_ ++ _)). apply NoDup_rev. rewrite rev_app_distr. cbn. constructor; [|exact N]. rewrite <- in_rev. intros H. apply Lt in H. lia.
      * intros k Hk. apply in_app_iff in Hk. destruct Hk as [Hk|[<-|[]]]; [rewrite nth_error_app1 by (apply Lt, Hk); apply H1, Hk|]. exists i. rewrite nth_error_app2, Nat.sub_diag by lia. auto.
      * intros k k' j Hk Hlt Hni Ej Hq. assert (k' <> length out) by (intros ->; apply Hni, in_app_iff; right; left; reflexivity).
        assert (L' : k' < length (out ++ [i])) by (apply nth_error_Some; congruence). rewrite app_length in L'. cbn in L'. rewrite nth_error_app1 in Ej by lia.
        apply in_app_iff in Hk. destruct Hk as [Hk|[Hk|[]]]; [|lia]. apply (H2 k k' j); auto. intros H'. apply Hni, in_app_iff. auto.
      * intros a b k k' Eab Hk'. destruct b as [|b0 b'] using rev_ind; [destruct Hk'|]. clear IHb'. rewrite app_comm_cons, app_assoc in Eab. apply app_inj_tail in Eab. destruct Eab as [Eab <-].
        apply in_app_iff in Hk'. destruct Hk' as [Hk'|[<-|[]]]; [apply (H3 a b'); assumption|]. apply Lt. rewrite Eab. apply in_app_iff. right. left. reflexivity.
    + apply Hd. intros q. destruct (existsb (Nat.eqb q) (qb :: q2 :: qs)) eqn:Em; [apply recorded_nil|]. apply Multi. apply mem_false. exact Em.
Qed.
Lemma run_filter_id n l : Forall (named_ok n) l -> forall v, veq n (run (filter (fun i => negb (is_id i)) l) v) (run l v).
Proof.
  induction 1 as [|i l [Oi Ki] Hl IH]; intros v; [apply veq_refl|]. cbn [filter]. destruct (is_id i) eqn:E; cbn [negb].
  - apply (veq_trans R n _ _ _ (IH v)). change (run (i :: l) v) with (run l (run_instr v i)). apply run_ext. apply veq_sym.
    unfold is_id in E. destruct (okind (iop i)); try discriminate. apply (veq_trans R n _ (ap idm (iqs i) v)); [apply ap_mat_ext; exact Ki|apply ap_id; exact Oi].
  - apply IH.
Qed.
Lemma commute_ok n data v : Forall (named_ok n) data -> veq n (run (commute_swaps data) v) (run data v).
Proof.
  intros F. assert (H := commute_inv n data [] (fun _ => []) v v F (Forall_nil _) (fun q => recorded_nil q []) (veq_refl R n v)). unfold commute_swaps.
  destruct (fold_left commute_step data ([], fun _ => [])) as [out dic]. destruct H as [Fo E]. apply (veq_trans R n _ (run out v)); [apply run_filter_id; exact Fo|exact E].
Qed.
End proofs.
