(** The circuit fuse_adjacents emits, in whatever topological order. *)
From Coq Require Import Ring Permutation.
From Verif.Lib Require Trace.
From Verif.Passes Require Import FuseModel FuseSpec FuseRules FuseProofs FuseDag.
Local Open Scope nat_scope.

Section proofs.
Context {R : comring} (T : trig R).
Add Ring Rring7 : (laws R).
Variable generic : gate T -> gate T -> outcome T.
Hypothesis GS : generic_sound T generic.
Notation finstr := (finstr T). Notation gate := (gate T). Notation dag := (dag T).
Notation fop := (fop T). Notation fqs := (fqs T). Notation fcl := (fcl T). Notation fclc := (fclc T).
Notation frun := (frun T). Notation frun_instr := (frun_instr T). Notation ex := (ex T).
Notation node := (nat * finstr)%type.
Implicit Types (v w : vec R) (N : list node).

Lemma before_trans N a b c : NoDup (map fst N) -> Trace.before N a b -> Trace.before N b c -> Trace.before N a c.
Proof.
  intros D (l1 & l2 & l3 & E) (m1 & m2 & m3 & E'). destruct b as [tb ib].
  assert (E2 : N = (l1 ++ a :: l2) ++ (tb, ib) :: l3) by (rewrite E, <- app_assoc; reflexivity). clear E. rewrite E2 in D, E'.
  destruct (nodup_split T _ _ _ _ _ _ _ D E') as (_ & _ & ->). exists l1, (l2 ++ (tb, ib) :: m2), m3. rewrite E2, <- !app_assoc. reflexivity.
Qed.
(** two nodes sharing a resource appear in the same order, if consecutive nodes on the resource do *)
Lemma chain N ord (f : finstr -> bool) : NoDup (map fst N) -> NoDup (map fst ord) -> (forall x, In x ord <-> In x N) ->
  (forall N1 t i N2 m, N = N1 ++ (t, i) :: N2 -> f i = true -> lastof T f N1 None = Some m -> exists l1 l2 l3 im it, ord = l1 ++ (m, im) :: l2 ++ (t, it) :: l3) ->
  forall len Y X a b Z, length Y <= len -> N = X ++ a :: Y ++ b :: Z -> f (snd a) = true -> f (snd b) = true -> Trace.before ord a b.
Proof.
  intros D Do Io H. assert (Uniq : forall t i j, In (t, i) N -> In (t, j) N -> i = j).
  { intros t i j Hi Hj. apply in_split in Hi. destruct Hi as (A & B & EA). apply in_split in Hj. destruct Hj as (A' & B' & EB). rewrite EA in D, EB. destruct (nodup_split T _ _ _ _ _ _ _ D EB) as (_ & E & _). exact E. }
  assert (Edge : forall N1 t i N2 m im, N = N1 ++ (t, i) :: N2 -> f i = true -> lastof T f N1 None = Some m -> In (m, im) N -> Trace.before ord (m, im) (t, i)).
  { intros N1 t i N2 m im E F L Hm. destruct (H N1 t i N2 m E F L) as (l1 & l2 & l3 & jm & jt & Eo).
    assert (In (m, jm) N) by (apply Io; rewrite Eo; apply in_elt). assert (In (t, jt) N) by (apply Io; rewrite Eo; apply in_app_iff; right; right; apply in_elt).
    assert (In (t, i) N) by (rewrite E; apply in_elt). rewrite (Uniq m im jm), (Uniq t i jt) by assumption. exists l1, l2, l3. exact Eo. }
  induction len as [|len IH]; intros Y X [ta ia] [tb ib] Z L E Fa Fb; cbn [snd] in *.
  - destruct Y; [|cbn in L; lia]. apply (Edge (X ++ [(ta, ia)]) tb ib Z ta ia); [rewrite E, <- app_assoc; reflexivity|exact Fb| |rewrite E; apply in_elt].
    rewrite lastof_app. cbn. rewrite Fa. reflexivity.
  - assert (EN : N = (X ++ (ta, ia) :: Y) ++ (tb, ib) :: Z) by (rewrite E, <- app_assoc; reflexivity).
    destruct (lastof T f (X ++ (ta, ia) :: Y) None) as [m|] eqn:Em.
    2:{ exfalso. rewrite lastof_app in Em. cbn in Em. rewrite Fa in Em. revert Em. generalize ta. clear. induction Y as [|y Y IH]; intros t; cbn; [discriminate|]. destruct (f (snd y)); apply IH. }
    assert (Em' := Em). rewrite lastof_app in Em. cbn [lastof snd fst] in Em. rewrite Fa in Em. apply lastof_some in Em. destruct Em as [(Y1 & im & Y2 & EY & Fm & _)|[Em _]].
    + assert (Hm : In (m, im) N) by (rewrite E, EY; apply in_app_iff; right; right; apply in_app_iff; left; apply in_elt).
      apply (before_trans ord _ (m, im)); [exact Do| |apply (Edge _ _ _ _ _ _ EN Fb Em' Hm)].
      apply (IH Y1 X (ta, ia) (m, im) (Y2 ++ (tb, ib) :: Z)); [|rewrite E, EY, <- app_assoc; reflexivity|exact Fa|exact Fm]. rewrite EY, app_length in L. cbn in L. lia.
    + injection Em as <-. apply (Edge _ _ _ _ _ _ EN Fb Em'). rewrite E. apply in_elt.
Qed.
(** ** the effect of any topological order *)
Definition share (x y : node) : Prop := (exists q, In q (fqs (snd x)) /\ In q (fqs (snd y))) \/ (exists c, In c (fcl (snd x)) /\ In c (fcl (snd y))).
Lemma share_sym x y : share x y -> share y x.
Proof. intros [(q & H & H')|(c & H & H')]; [left|right]; eauto. Qed.
Lemma nodup_of_ids N : NoDup (map fst N) -> NoDup N.
Proof. apply NoDup_map_inv. Qed.
Lemma keep_order n k pre d ord : inv T generic n k pre d -> topological T d ord -> forall x y, share x y -> Trace.before (nodes T d) x y -> Trace.before ord x y.
Proof.
  intros I (Io & Do & He & Hc) x y S (X & Y & Z & E). destruct S as [(q & Hx & Hy)|(c & Hx & Hy)].
  - apply (chain (nodes T d) ord (onq T q) (i_nd _ _ _ _ _ _ I) Do Io) with (len := length Y) (X := X) (Y := Y) (Z := Z); auto; try (apply memb_In; assumption).
    intros N1 t i N2 m EN Fi L. apply (He m t q). apply (i_edges _ _ _ _ _ _ I). exists N1, i, N2. split; [exact EN|]. split; [apply memb_In, Fi|symmetry; exact L].
  - apply (chain (nodes T d) ord (onc T c) (i_nd _ _ _ _ _ _ I) Do Io) with (len := length Y) (X := X) (Y := Y) (Z := Z); auto; try (apply memb_In; assumption).
    intros N1 t i N2 m EN Fi L. apply (Hc m t). assert (H := i_cedges _ _ _ _ _ _ I t c N1 i N2 EN (proj1 (memb_In _ _) Fi)). unfold lc in H. rewrite L in H. exact H.
Qed.
Lemma perm_ord d ord n k pre : inv T generic n k pre d -> topological T d ord -> Permutation (nodes T d) ord.
Proof.
  intros I (Io & Do & _). apply NoDup_Permutation; [apply nodup_of_ids, (i_nd _ _ _ _ _ _ I)|apply nodup_of_ids, Do|]. intros x. rewrite Io. reflexivity.
Qed.
Lemma trace_run l v : Trace.run node (vec R) (fun x w => frun_instr w (snd x)) l v = frun (map snd l) v.
Proof. revert v. induction l as [|x l IH]; intros v; [reflexivity|]. cbn. apply IH. Qed.
Lemma reorder_run n k pre d ord v : inv T generic n k pre d -> topological T d ord -> veq n (frun (map snd (nodes T d)) v) (frun (map snd ord) v).
Proof.
  intros I To. rewrite <- !trace_run.
  apply (Trace.reorder node (vec R) (veq n) (fun x w => frun_instr w (snd x)) share (fun x => instr_ok T generic n (snd x))).
  - intros s. apply veq_refl.
  - intros a b c. apply veq_trans.
  - intros a b. apply veq_sym.
  - intros x s s' H. apply ap_ext. exact H.
  - intros x y s Ox Oy Hn. apply ap_comm; [apply Ox|apply Oy|]. intros q Hy Hx. apply Hn. left. eauto.
  - apply nodup_of_ids, (i_nd _ _ _ _ _ _ I).
  - apply (perm_ord d ord n k pre I To).
  - intros x Hx. apply (i_ok _ _ _ _ _ _ I x Hx).
  - intros x y S B. apply (keep_order n k pre d ord I To x y S B).
  - apply share_sym.
Qed.
Lemma trace_filter (f : node -> bool) l s : Trace.run node (list node) (fun x s => if f x then s ++ [x] else s) l s = s ++ filter f l.
Proof.
  revert s. induction l as [|x l IH]; intros s; [symmetry; apply app_nil_r|]. cbn [Trace.run fold_left filter]. change (fold_left (fun s i => if f i then s ++ [i] else s) l (if f x then s ++ [x] else s)) with (Trace.run node (list node) (fun x s => if f x then s ++ [x] else s) l (if f x then s ++ [x] else s)).
  rewrite IH. destruct (f x); [rewrite <- app_assoc|]; reflexivity.
Qed.
Lemma on_clbit_snd c l : on_clbit T c (map snd l) = map snd (filter (fun x : node => onc T c (snd x)) l).
Proof. induction l as [|x l IH]; [reflexivity|]. unfold on_clbit in *. cbn. unfold onc at 1, memb. destruct (existsb (Nat.eqb c) (fcl (snd x))); cbn; rewrite IH; reflexivity. Qed.
Lemma reorder_clbit n k pre d ord c : inv T generic n k pre d -> topological T d ord -> on_clbit T c (map snd ord) = on_clbit T c (map snd (nodes T d)).
Proof.
  intros I To. rewrite !on_clbit_snd. f_equal. symmetry.
  set (act := fun (x : node) (s : list node) => if onc T c (snd x) then s ++ [x] else s).
  assert (G : Trace.run node (list node) act (nodes T d) [] = Trace.run node (list node) act ord []).
  { apply (Trace.reorder node (list node) eq act (fun x y => onc T c (snd x) = true /\ onc T c (snd y) = true) (fun _ => True)).
    - reflexivity.
    - intros x y z. apply eq_trans.
    - intros x y. apply eq_sym.
    - intros x s s' ->. reflexivity.
    - intros x y s _ _ Hn. unfold act. destruct (onc T c (snd x)), (onc T c (snd y)); try reflexivity. exfalso. apply Hn. auto.
    - apply nodup_of_ids, (i_nd _ _ _ _ _ _ I).
    - apply (perm_ord d ord n k pre I To).
    - auto.
    - intros x y [Hx Hy] B. apply (keep_order n k pre d ord I To x y); [|exact B]. right. exists c. split; apply memb_In; assumption.
    - tauto. }
  unfold act in G. rewrite !trace_filter in G. exact G.
Qed.
(** ** global phases *)
Lemma gphase_scale n (i : finstr) v : instr_ok T generic n i -> is_gphase T i = true -> veq n (frun_instr v i) (vscale (ex (gpar T (fop i))) v).
Proof.
  intros (O & _ & G & _) H. unfold is_gphase in H. unfold gate_ok in G. destruct (gname T (fop i)); try discriminate. destruct G as [L G].
  unfold FuseSpec.frun_instr. apply (veq_trans R n _ (ap (mscale (ex (gpar T (fop i))) idm) (fqs i) v)).
  - apply ap_mat_ext. rewrite L. intros r c Lr Lc. rewrite G by assumption. destruct r as [|[] [|? ?]]; try discriminate; destruct c as [|[] [|? ?]]; try discriminate; unfold mscale; cbn; ring.
  - apply (veq_trans R n _ _ _ (ap_mscale n _ _ _ _)). apply vscale_ext. apply ap_id. exact O.
Qed.
Lemma emit_body n l : Forall (instr_ok T generic n) l -> forall g v,
  veq n (vscale (ex g) (frun l v)) (vscale (ex (fold_left (fun g i => if is_gphase T i then aadd g (gpar T (fop i)) else g) l g)) (frun (filter (fun i => negb (is_gphase T i)) l) v)).
Proof.
  induction 1 as [|i l Oi Ol IH]; intros g v; [apply veq_refl|]. cbn [fold_left filter]. change (frun (i :: l) v) with (frun l (frun_instr v i)). destruct (is_gphase T i) eqn:E; cbn [negb].
  - apply (veq_trans R n _ (vscale (ex (aadd g (gpar T (fop i)))) (frun l v))); [|apply IH].
    apply (veq_trans R n _ (vscale (ex g) (vscale (ex (gpar T (fop i))) (frun l v)))).
    + apply vscale_ext. apply (veq_trans R n _ (frun l (vscale (ex (gpar T (fop i))) v))); [apply frun_ext; apply gphase_scale; assumption|]. apply frun_scale.
    + intros x _. unfold vscale. rewrite (ex_add T). ring.
  - apply IH.
Qed.
Lemma fuse_adjacents_ok n data ord : 0 < n -> Forall (instr_ok T generic n) data -> let d := build T generic 0 data (empty_dag T) in topological T d ord ->
  (forall v, veq n (frun (emit T ord (gph T d)) v) (frun data v)) /\ forall c, on_clbit T c (emit T ord (gph T d)) = on_clbit T c data.
Proof.
  intros Hn F d To. destruct (inv_build T generic GS n data 0 [] (empty_dag T) (inv_empty T generic n) F) as (k & I). fold d in I. cbn [app] in I.
  assert (Fo : Forall (instr_ok T generic n) (map snd ord)).
  { apply Forall_map, Forall_forall. intros x Hx. apply (i_ok _ _ _ _ _ _ I). apply To, Hx. }
  split.
  - intros v. apply veq_sym. apply (veq_trans R n _ _ _ (i_run _ _ _ _ _ _ I v)). apply (veq_trans R n _ _ _ (vscale_ext n _ _ _ (reorder_run n k data d ord v I To))).
    apply (veq_trans R n _ _ _ (emit_body n (map snd ord) Fo (gph T d) v)). unfold emit. rewrite frun_app. set (G := fold_left _ _ _). generalize (frun (filter (fun i => negb (is_gphase T i)) (map snd ord)) v). intros w.
    destruct (aeqb G a0) eqn:E.
    + apply aeqb_ok in E. rewrite E. intros x _. unfold vscale. rewrite (ex_0 T). cbn. ring.
    + cbn [FuseSpec.frun fold_left]. apply veq_sym. apply (gphase_scale n {| FuseModel.fop := mk T NGphase (gpm T) G; FuseModel.fqs := [0]; FuseModel.fcl := []; FuseModel.fclc := false |}); [|reflexivity].
      split; [split; [repeat constructor; intros []|intros q [<-|[]]; exact Hn]|]. split; [discriminate|]. split; [split; [reflexivity|apply meq_refl]|]. intros H. exfalso. apply H. reflexivity.
  - intros c. rewrite <- (i_cl _ _ _ _ _ _ I), <- (reorder_clbit n k data d ord c I To). unfold emit. rewrite on_clbit_app.
    replace (on_clbit T c (if aeqb _ a0 then [] else _)) with (@nil finstr) by (destruct (aeqb _ _); reflexivity). rewrite app_nil_r.
    clear - Fo. induction Fo as [|i l Oi Ol IH]; [reflexivity|]. cbn [filter]. destruct (is_gphase T i) eqn:E; cbn [negb].
    + rewrite IH. cbn [on_clbit filter]. destruct (existsb (Nat.eqb c) (fcl i)) eqn:Ec; [|reflexivity]. exfalso. destruct Oi as (_ & _ & _ & H). destruct (fcl i); [discriminate|]. destruct H as [H _]; [discriminate|]. unfold is_gphase in E. rewrite H in E. discriminate.
    + cbn [on_clbit filter]. unfold on_clbit in IH. rewrite IH. reflexivity.
Qed.
End proofs.
