(** C58: change_of_basis(method="commuting") maps commuting Pauli terms to products of Z. *)
From Verif.Operators Require Import CommuteProofs.
From Verif.Commuting Require Import DiagSpec DiagMain.
Local Open Scope nat_scope.

(** The gates turn each term into a product of Z factors, up to a sign, and keep distinct terms distinct. *)
Theorem C58_diagonal (n : nat) (ts : list term) : commuting_family n ts ->
  let gs := fst (diagonalise n ts) in let out := snd (diagonalise n ts) in
  length out = length ts /\ (forall g, In g gs -> gate_ok n g) /\
  (forall c, c < length ts -> let t := nth c ts [] in let t' := fst (nth c out ([], g0)) in
     diagonal t' /\ exists s, (s = g1 \/ s = gneg g1) /\ conjugates n gs (tmat n t) (fun x y => gmul s (tmat n t' x y))) /\
  (forall c d, c < length ts -> d < length ts -> teqb (fst (nth c out ([], g0))) (fst (nth d out ([], g0))) = true -> teqb (nth c ts []) (nth d ts []) = true).
Proof.
  intros F gs out. destruct (diagonalise_ok n ts F) as (G & O & D). split; [apply diagonalise_length|]. split; [exact G|]. split; [|exact D].
  intros c Hc t t'. destruct (O c Hc) as (Di & s & P & C & _). split; [exact Di|]. exists s. split; [exact P|exact C].
Qed.
Print Assumptions C58_diagonal.
(** The returned operator is the conjugated operator.  Missing: permutations that are not their own inverse (see below). *)
Theorem C58_operator_partial (n : nat) (o : op) : dict o -> commuting_family n (map fst o) ->
  (let ts := map fst o in let qb := qb_indices n ts in let B := construct_change_of_basis (length qb) (length ts) (stacked qb ts) in
   involution (perm B) \/ s_list B = []) ->
  conjugates n (fst (change_of_basis n o)) (omat n o) (omat n (snd (change_of_basis n o))).
Proof. exact (change_ok n o). Qed.
Print Assumptions C58_operator_partial.

(** a family of terms checked with the (proved) commutation test *)
Definition keys2 (a b : term) : list nat := nodup Nat.eq_dec (dom a ++ dom b).
Lemma keys2_enum : enumerates keys2.
Proof. intros a b. unfold keys2. split; [apply NoDup_nodup|]. intros k. rewrite nodup_In, in_app_iff. reflexivity. Qed.
Lemma family_check n ts : forallb (fun t => forallb (fun kf => (fst kf <? n) && is_pauli (snd kf)) t) ts = true -> forallb (fun a => forallb (fun b => commute keys2 a b) ts) ts = true -> commuting_family n ts.
Proof.
  intros H C. rewrite forallb_forall in H. assert (W : forall t, In t ts -> within n t).
  { intros t Ht k Hk. apply in_map_iff in Hk. destruct Hk as ((j, f) & <- & Hj). specialize (H t Ht). rewrite forallb_forall in H. apply H in Hj. apply andb_true_iff in Hj. apply Nat.ltb_lt, Hj. }
  split.
  - intros t Ht. split; [|apply W, Ht]. intros k. specialize (H t Ht). rewrite forallb_forall in H. clear - H. induction t as [|(j, f) t IH]; [reflexivity|]. cbn [get].
    destruct (j =? k); [|apply IH; intros x Hx; apply H; right; exact Hx]. specialize (H (j, f) (or_introl eq_refl)). apply andb_true_iff in H. apply H.
  - intros a b Ha Hb. apply (commute_ok n keys2 a b keys2_enum (W a Ha) (W b Hb)). rewrite forallb_forall in C. specialize (C a Ha). rewrite forallb_forall in C. apply C, Hb.
Qed.
(** the prefactor uses s_vector[perm] where the inverse permutation is needed: Z0*Y1 + X2 *)
Theorem C58_operator_refuted : exists n o, dict o /\ commuting_family n (map fst o) /\ ~ conjugates n (fst (change_of_basis n o)) (omat n o) (omat n (snd (change_of_basis n o))).
Proof.
  exists 3, [([(0, FZ); (1, FY)], g1); ([(2, FX)], g1)]. split; [cbn; repeat split; intros tc H; repeat (destruct H as [<-|H]; [reflexivity|]); contradiction|]. split; [apply family_check; vm_compute; reflexivity|].
  intros H. specialize (H (fun x => if beqs x [false; false; false] then g1 else g0) [false; false; false] eq_refl). vm_compute in H. discriminate.
Qed.
Print Assumptions C58_operator_refuted.

(** X0*X1 + Z0*Z1 - Y0*Y1 + X2, and the gates and terms found *)
Example C58_ex : let o := [([(0, FX); (1, FX)], g1); ([(0, FZ); (1, FZ)], g1); ([(0, FY); (1, FY)], gneg g1); ([(2, FX)], (2, 0)%Z)] in
  dict o /\ commuting_family 3 (map fst o) /\
  (let ts := map fst o in let qb := qb_indices 3 ts in let B := construct_change_of_basis (length qb) (length ts) (stacked qb ts) in involution (perm B)) /\
  change_of_basis 3 o = ([GH 1; GCZ 1 0; GH 0; GH 1; GH 2], [([(0, FZ)], g1); ([(1, FZ)], g1); ([(0, FZ); (1, FZ)], g1); ([(2, FZ)], (2, 0)%Z)]).
Proof.
  cbv zeta. split; [cbn; repeat split; intros tc H; repeat (destruct H as [<-|H]; [reflexivity|]); contradiction|]. split; [apply family_check; vm_compute; reflexivity|].
  split; [intros i Hi; vm_compute in Hi; destruct i as [|[|[|i]]]; try lia; reflexivity|]. vm_compute. reflexivity.
Qed.
