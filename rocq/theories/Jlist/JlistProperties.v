(** Property C45: Jlist behaves like a bounded list.  [contents]: the list observed through len
    and indexing; [spec_run]: the history on plain lists; [valid]: JlistSpec.v. *)
From Verif.Jlist Require Import JlistModel JlistSpec JlistProofs.
From Coq Require Import ZArith List Lia.
Import ListNotations.
Local Open Scope Z_scope.

(** every history that pops only non-empty lists *)
Theorem C45_history : forall cap s ops l' out, valid cap s -> Forall valid_op ops ->
  spec_run cap (contents s) ops = Some (l', out) ->
  exists s', run s ops = Some (s', out) /\ valid cap s' /\ contents s' = l' /\ len s' = Some (Z.of_nat (length l')).
Proof.
  intros cap s ops l' out V HV HS. apply valid_rep in V.
  rewrite (rep_contents _ _ _ V) in HS.
  destruct (run_spec cap ops s _ V HV l' out HS) as (s' & E & R). exists s'. split; [exact E|].
  split; [eapply rep_valid; exact R|]. split; [eapply rep_contents; exact R|].
  destruct R as (junk & -> & _). unfold len. cbn [ctr]. destruct (Z.ltb_spec (Z.of_nat (length l')) 0); [lia|reflexivity].
Qed.
Print Assumptions C45_history.

(** indexing from the front and from the back *)
Theorem C45_getitem : forall cap s i, valid cap s -> let l := contents s in
  - Z.of_nat (length l) <= i < Z.of_nat (length l) ->
  getitem s i = nth (Z.to_nat (if i <? 0 then i + Z.of_nat (length l) else i)) l 0.
Proof.
  intros cap s i V. cbv zeta. apply valid_rep in V. rewrite (rep_contents _ _ _ V). intros H.
  set (l := firstn (Z.to_nat (ctr s)) (arr s)) in *. clearbody l.
  destruct (Z.ltb_spec i 0) as [C|C].
  - rewrite <- (rep_getitem cap l s (i + Z.of_nat (length l)) V) by lia.
    destruct V as (junk & -> & _). unfold getitem. cbn [arr ctr].
    destruct (Z.ltb_spec i 0); [|lia]. destruct (Z.ltb_spec (i + Z.of_nat (length l)) 0); [lia|]. f_equal. lia.
  - apply (rep_getitem cap l s i V). lia.
Qed.
Print Assumptions C45_getitem.

(** initial values, other than a Python list of exactly max_size elements *)
Theorem C45_create : forall l cap, length l <> cap ->
  valid cap (create l cap) /\ contents (create l cap) = firstn cap l /\ valid cap (create_empty cap) /\ contents (create_empty cap) = [].
Proof.
  intros l cap H. pose proof (create_rep l cap H) as R. pose proof (create_empty_rep cap) as R0.
  split; [eapply rep_valid; exact R|]. split; [eapply rep_contents; exact R|]. split; [eapply rep_valid; exact R0|].
  eapply rep_contents; exact R0.
Qed.
Print Assumptions C45_create.

(** slices whose normalised bounds are in order *)
Theorem C45_slice_partial : forall cap s start stop, valid cap s -> let l := contents s in
  (forall k, start = Some k -> - Z.of_nat (length l) <= k <= Z.of_nat (length l)) ->
  (forall k, stop = Some k -> - Z.of_nat (length l) <= k) ->
  let i := match start with None => 0%nat | Some k => py_index l k end in
  let j := match stop with None => length l | Some k => py_index l (Z.min k (Z.of_nat (length l))) end in
  (i <= j)%nat -> exists r, getslice s start stop = Some r /\ valid cap r /\ contents r = py_slice l i j.
Proof.
  intros cap s start stop V. cbv zeta. apply valid_rep in V. rewrite (rep_contents _ _ _ V).
  intros H1 H2 H3. destruct (slice_rep cap _ s start stop V H1 H2 H3) as (r & E & R).
  exists r. split; [exact E|]. split; [eapply rep_valid; exact R|eapply rep_contents; exact R].
Qed.
Print Assumptions C45_slice_partial.

(** Python gives the empty list; here the result has a negative length *)
Theorem C45_slice_refuted : exists cap s, valid cap s /\ contents s = [5; 6; 7] /\ option_map len (getslice s (Some 2) (Some 1)) = Some None.
Proof. exists 4%nat, (create [5; 6; 7] 4). vm_compute. repeat split; discriminate. Qed.
Print Assumptions C45_slice_refuted.

Theorem C45_clear_refuted : exists cap s s' r, valid cap s /\ clear s = Some (s', r) /\ contents r = [] /\ contents s' = [5; 6].
Proof. exists 4%nat, (create [5; 6] 4), (create [5; 6] 4), (J [5; 6; 0; 0] 0). vm_compute. repeat split; discriminate. Qed.
Print Assumptions C45_clear_refuted.

(** popping an empty list returns a stale cell and the next append is not seen *)
Theorem C45_pop_empty_refuted : exists s s' v s'', valid 2 s /\ contents s = [] /\ pop s = Some (s', v) /\ len s' = None /\
  append s' 9 = Some s'' /\ contents s'' = [].
Proof. exists (create_empty 2), (J [0; 0] (-1)), 0, (J [0; 9] 0). vm_compute. repeat split; discriminate. Qed.
Print Assumptions C45_pop_empty_refuted.

(** a Python list of exactly max_size elements makes every later update fail *)
Theorem C45_full_init_refuted : exists l cap, length l = cap /\ contents (create l cap) = l /\
  append (create l cap) 1 = None /\ pop (create l cap) = None.
Proof. exists [1; 2; 3], 3%nat. vm_compute. repeat split. Qed.
Print Assumptions C45_full_init_refuted.

Example C45_ex : let s := create [4; 5] 5 in let o := create [8; 9; 10] 7 in
  valid 5 s /\ valid 7 o /\
  spec_run 5 (contents s) [OPrepend 3; OExtend o; OPop; OAppend 6; OPrepend 1; OPop; OPop] = Some ([1; 3; 4], [9; 8; 5]) /\
  option_map contents (getslice s (Some (-1)) None) = Some [5].
Proof. vm_compute. repeat split; discriminate. Qed.
