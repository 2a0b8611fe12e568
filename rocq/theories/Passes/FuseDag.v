(** The graph fuse_adjacents builds, and the circuit it emits. *)
From Coq Require Import Ring Permutation.
From Verif.Lib Require Trace.
From Verif.Passes Require Import FuseModel FuseSpec FuseRules FuseProofs.
Local Open Scope nat_scope.

Section proofs.
Context {R : comring} (T : trig R).
Add Ring Rring6 : (laws R).
Variable generic : gate T -> gate T -> outcome T.
Hypothesis GS : generic_sound T generic.
Notation finstr := (finstr T). Notation gate := (gate T). Notation dag := (dag T).
Notation fop := (fop T). Notation fqs := (fqs T). Notation fcl := (fcl T). Notation fclc := (fclc T).
Notation frun := (frun T). Notation frun_instr := (frun_instr T). Notation ex := (ex T).
Notation node := (nat * finstr)%type.
Implicit Types (v w : vec R) (N : list node).
Definition memb (q : nat) (s : list nat) : bool := existsb (Nat.eqb q) s.
Lemma memb_In q s : memb q s = true <-> In q s.
Proof. unfold memb. rewrite existsb_exists. split; [intros (x & H & E); apply Nat.eqb_eq in E; subst; exact H|intros H; exists q; split; [exact H|apply Nat.eqb_refl]]. Qed.
Lemma memb_false q s : memb q s = false <-> ~ In q s.
Proof. rewrite <- memb_In. destruct (memb q s); split; congruence. Qed.

(** the last node of N with property f *)
Fixpoint lastof (f : finstr -> bool) N (acc : option nat) : option nat :=
  match N with [] => acc | x :: N => lastof f N (if f (snd x) then Some (fst x) else acc) end.
Lemma lastof_app f N : forall N' acc, lastof f (N ++ N') acc = lastof f N' (lastof f N acc).
Proof. induction N as [|x N IH]; intros N' acc; [reflexivity|]. cbn. apply IH. Qed.
Lemma lastof_none f N : (forall x, In x N -> f (snd x) = false) -> forall acc, lastof f N acc = acc.
Proof. induction N as [|x N IH]; intros H acc; [reflexivity|]. cbn. rewrite (H x) by (left; reflexivity). apply IH. intros y Hy. apply H. right. exact Hy. Qed.
Lemma lastof_some f N : forall acc p, lastof f N acc = Some p ->
  (exists N1 i N2, N = N1 ++ (p, i) :: N2 /\ f i = true /\ forall x, In x N2 -> f (snd x) = false) \/ (acc = Some p /\ forall x, In x N -> f (snd x) = false).
Proof.
  induction N as [|[k i] N IH]; intros acc p H; cbn in H; [right; split; [exact H|intros x []]|].
  destruct (IH _ _ H) as [(N1 & j & N2 & -> & Fj & Hn)|[E Hn]]; [left; exists ((k, i) :: N1), j, N2; auto|].
  destruct (f i) eqn:F; [injection E as <-; left; exists [], i, N; auto|]. right. split; [exact E|]. intros x [<-|Hx]; [exact F|apply Hn, Hx].
Qed.
Definition onq (q : nat) (i : finstr) : bool := memb q (fqs i).
Definition onc (c : nat) (i : finstr) : bool := memb c (fcl i).
Definition lq q N := lastof (onq q) N None.
Definition lc c N := lastof (onc c) N None.

(** ** the invariant *)
Record inv (n : nat) (k : nat) (pre : list finstr) (d : dag) : Prop := {
  i_nd : NoDup (map fst (nodes T d));
  i_lt : forall x, In x (nodes T d) -> fst x < k;
  i_ok : forall x, In x (nodes T d) -> instr_ok T generic n (snd x);
  i_edges : forall s t q, In (s, t, q) (edges T d) <-> exists N1 i N2, nodes T d = N1 ++ (t, i) :: N2 /\ In q (fqs i) /\ s = lq q N1;
  i_cedges : forall t c N1 i N2, nodes T d = N1 ++ (t, i) :: N2 -> In c (fcl i) -> In (lc c N1, t) (cedges T d);
  i_last : forall q, last T d q = lq q (nodes T d);
  i_clast : forall c, clast T d c = lc c (nodes T d);
  i_cl : forall c, on_clbit T c (map snd (nodes T d)) = on_clbit T c pre;
  i_run : forall v, veq n (frun pre v) (vscale (ex (gph T d)) (frun (map snd (nodes T d)) v)) }.

Lemma nodup_split (N1 N2 N1' N2' : list node) t i i' : NoDup (map fst (N1 ++ (t, i) :: N2)) -> N1 ++ (t, i) :: N2 = N1' ++ (t, i') :: N2' -> N1 = N1' /\ i = i' /\ N2 = N2'.
Proof.
  revert N1'. induction N1 as [|x N1 IH]; intros [|x' N1'] D E; cbn in E; injection E as E1 E2.
  - subst. auto.
  - subst x' N2. exfalso. cbn in D. inversion D; subst. apply H1. rewrite map_app. apply in_app_iff. right. left. reflexivity.
  - subst. exfalso. cbn in D. inversion D; subst. apply H1. rewrite map_app. apply in_app_iff. right. left. reflexivity.
  - subst x'. inversion D; subst. destruct (IH N1' H2 E2) as (-> & -> & ->). auto.
Qed.
Lemma split_app_cases {A} (X Y X' Y' : list A) a b : X ++ a :: Y = X' ++ b :: Y' ->
  (exists Z, X' = X ++ a :: Z /\ Y = Z ++ b :: Y') \/ (X = X' /\ a = b /\ Y = Y') \/ (exists Z, X = X' ++ b :: Z /\ Y' = Z ++ a :: Y).
Proof.
  revert X'. induction X as [|x X IH]; intros [|x' X'] E; cbn in E; injection E as E1 E2.
  - right. left. auto.
  - subst. left. exists X'. auto.
  - subst. right. right. exists X. auto.
  - subst x'. destruct (IH X' E2) as [(Z & -> & ->)|[(-> & -> & ->)|(Z & -> & ->)]]; [left|right; left; auto|right; right]; exists Z; auto.
Qed.

(** ** adding an instruction *)
Lemma frun_app l l' v : frun (l ++ l') v = frun l' (frun l v). Proof. apply fold_left_app. Qed.
Lemma frun_ext n l : forall v w, veq n v w -> veq n (frun l v) (frun l w).
Proof. induction l as [|i l IH]; intros v w H; [exact H|]. cbn. apply IH. apply ap_ext. exact H. Qed.
Lemma frun_scale n l k : forall v, veq n (frun l (vscale k v)) (vscale k (frun l v)).
Proof.
  induction l as [|i l IH]; intros v; [apply veq_refl|]. cbn. apply (veq_trans R n _ (frun l (vscale k (frun_instr v i)))); [apply frun_ext, ap_scale|]. apply IH.
Qed.
Lemma on_clbit_app c l l' : on_clbit T c (l ++ l') = on_clbit T c l ++ on_clbit T c l'.
Proof. apply filter_app. Qed.
Lemma inv_add n k pre d i : inv n k pre d -> instr_ok T generic n i -> inv n (S k) (pre ++ [i]) (add_instr T k i d).
Proof.
  intros I Oi. constructor; cbn [add_instr nodes edges cedges last clast gph].
  - rewrite map_app. cbn. assert (H := NoDup_rev (i_nd _ _ _ _ I)). rewrite <- (rev_involutive (_ ++ _)). apply NoDup_rev. rewrite rev_app_distr. cbn. constructor; [|exact H].
    rewrite <- in_rev. intros H'. apply in_map_iff in H'. destruct H' as (x & E & Hx). apply (i_lt _ _ _ _ I) in Hx. lia.
  - intros x Hx. apply in_app_iff in Hx. destruct Hx as [Hx|[<-|[]]]; [apply (i_lt _ _ _ _ I) in Hx; lia|cbn; lia].
  - intros x Hx. apply in_app_iff in Hx. destruct Hx as [Hx|[<-|[]]]; [apply (i_ok _ _ _ _ I _ Hx)|exact Oi].
  - intros s t q. rewrite in_app_iff, (i_edges _ _ _ _ I). split.
    + intros [(N1 & j & N2 & E & Hq & Hs)|H].
      * exists N1, j, (N2 ++ [(k, i)]). rewrite E, <- app_assoc. auto.
      * apply in_map_iff in H. destruct H as (r & E & Hr). injection E as <- <- <-. exists (nodes T d), i, []. split; [reflexivity|]. split; [exact Hr|]. apply (i_last _ _ _ _ I).
    + intros (N1 & j & N2 & E & Hq & Hs). destruct N2 as [|z N2 _] using rev_ind.
      * apply app_inj_tail in E. destruct E as [E1 E2]. injection E2 as <- <-. subst N1. right. apply in_map_iff. exists q. split; [|exact Hq]. rewrite Hs, (i_last _ _ _ _ I). reflexivity.
      * rewrite app_comm_cons, app_assoc in E. apply app_inj_tail in E. destruct E as [E _]. left. exists N1, j, N2. auto.
  - intros t c N1 j N2 E Hc. apply in_app_iff. destruct N2 as [|z N2 _] using rev_ind.
    + apply app_inj_tail in E. destruct E as [E1 E2]. injection E2 as <- <-. subst N1. right. apply in_map_iff. exists c. split; [|exact Hc]. rewrite (i_clast _ _ _ _ I). reflexivity.
    + rewrite app_comm_cons, app_assoc in E. apply app_inj_tail in E. destruct E as [E _]. left. apply (i_cedges _ _ _ _ I _ _ _ _ _ E Hc).
  - intros q. unfold lq. rewrite lastof_app. cbn. fold (memb q (fqs i)). unfold onq at 1. destruct (memb q (fqs i)); [reflexivity|apply (i_last _ _ _ _ I)].
  - intros c. unfold lc. rewrite lastof_app. cbn. fold (memb c (fcl i)). unfold onc at 1. destruct (memb c (fcl i)); [reflexivity|apply (i_clast _ _ _ _ I)].
  - intros c. rewrite map_app, !on_clbit_app, (i_cl _ _ _ _ I). reflexivity.
  - intros v. rewrite map_app, !frun_app. cbn. apply (veq_trans R n _ (frun_instr (vscale (ex (gph T d)) (frun (map snd (nodes T d)) v)) i)); [apply ap_ext, (i_run _ _ _ _ I)|]. apply ap_scale.
Qed.

(** ** the fold in rewire *)
Lemma rewire_last k E : forall (l : nat -> option nat) x,
  let l' := fold_left (fun (l : nat -> option nat) (e : option nat * nat * nat) => let '(s, t, q) := e in if t =? k then (fun x => if x =? q then s else l x) else l) E l in
  (exists s, In (s, k, x) E /\ l' x = s) \/ ((forall s, ~ In (s, k, x) E) /\ l' x = l x).
Proof.
  induction E as [|[[s t] q] E IH]; intros l x; cbn [fold_left]; [right; split; [intros s []|reflexivity]|].
  destruct (IH (if t =? k then fun y => if y =? q then s else l y else l) x) as [(s' & H & Es)|[H Es]]; [left; exists s'; split; [right; exact H|exact Es]|].
  rewrite Es. destruct (Nat.eqb_spec t k) as [->|Nt]; [destruct (Nat.eqb_spec x q) as [->|Nx]|].
  - left. exists s. split; [left; reflexivity|reflexivity].
  - right. split; [|reflexivity]. intros s' [H'|H']; [congruence|exact (H s' H')].
  - right. split; [|reflexivity]. intros s' [H'|H']; [congruence|exact (H s' H')].
Qed.

(** moving an instruction to the left past instructions on other qubits *)
Lemma frun_move n (g : finstr) l : okq n (fqs g) -> (forall j, In j l -> okq n (fqs j) /\ forall q, In q (fqs g) -> ~ In q (fqs j)) ->
  forall v, veq n (frun (l ++ [g]) v) (frun (g :: l) v).
Proof.
  intros Og. induction l as [|j l IH]; intros D v; [apply veq_refl|]. cbn [app].
  change (frun (g :: j :: l) v) with (frun l (frun_instr (frun_instr v g) j)). change (frun (j :: l ++ [g]) v) with (frun (l ++ [g]) (frun_instr v j)).
  apply (veq_trans R n _ (frun (g :: l) (frun_instr v j))); [apply IH; intros i Hi; apply D; right; exact Hi|].
  change (frun (g :: l) (frun_instr v j)) with (frun l (frun_instr (frun_instr v j) g)). apply frun_ext.
  destruct (D j (or_introl eq_refl)) as [Oj Dj]. apply ap_comm; [exact Og|exact Oj|]. intros q Hq Hq'. exact (Dj q Hq' Hq).
Qed.
(** replacing node p (and dropping the new node k) *)
Definition repl (p : nat) (r : option finstr) : list node := match r with None => [] | Some f => [(p, f)] end.
Lemma filter_ids N k : (forall x, In x N -> fst x <> k) -> filter (fun x : node => negb (fst x =? k)) N = N.
Proof. induction N as [|x N IH]; intros H; [reflexivity|]. cbn. destruct (Nat.eqb_spec (fst x) k) as [E|E]; [exfalso; apply (H x (or_introl eq_refl) E)|]. cbn. rewrite IH; [reflexivity|]. intros y Hy. apply H. right. exact Hy. Qed.
Lemma map_set_ids N p f : (forall x, In x N -> fst x <> p) -> map (fun x : node => if fst x =? p then (p, f) else x) N = N.
Proof. induction N as [|x N IH]; intros H; [reflexivity|]. cbn. destruct (Nat.eqb_spec (fst x) p) as [E|E]; [exfalso; apply (H x (or_introl eq_refl) E)|]. rewrite IH; [reflexivity|]. intros y Hy. apply H. right. exact Hy. Qed.

Ltac napp := repeat (progress (rewrite <- ?app_assoc; cbn [app])); reflexivity.
Lemma in_app_mid {A} (x a : A) X Y : In x (X ++ Y) -> In x (X ++ a :: Y).
Proof. rewrite !in_app_iff. cbn. tauto. Qed.
Lemma inv_step n k pre d i : inv n k pre d -> instr_ok T generic n i -> inv n (S k) (pre ++ [i]) (step T generic k i d).
Proof.
  intros I Oi. assert (IA := inv_add n k pre d i I Oi). unfold step. destruct (single_pred T d i) as [p|] eqn:Ep; [|exact IA].
  assert (Hl : forall q, In q (fqs i) -> lq q (nodes T d) = Some p).
  { unfold single_pred in Ep. intros q Hq. rewrite <- (i_last _ _ _ _ I). destruct (fqs i) as [|q0 qs]; [discriminate|]. destruct (forallb (fun r => oneq (last T d r) (last T d q0)) qs) eqn:F; [|discriminate].
    destruct Hq as [<-|Hq]; [exact Ep|]. rewrite forallb_forall in F. specialize (F q Hq). rewrite Ep in F. destruct (last T d q) as [m|]; [|discriminate]. apply Nat.eqb_eq in F. congruence. }
  destruct (fqs i) as [|q0 qs0] eqn:Qi; [exfalso; apply (proj1 (proj2 Oi)); exact Qi|].
  assert (Hl0 := Hl q0 (or_introl eq_refl)). apply lastof_some in Hl0. destruct Hl0 as [(N1 & ip & N2 & EN & Fp & _)|[H _]]; [|discriminate].
  assert (Kp : p < k) by (apply (i_lt _ _ _ _ I (p, ip)); rewrite EN; apply in_elt).
  assert (Ids : forall x, In x (N1 ++ N2) -> fst x <> p).
  { assert (D := i_nd _ _ _ _ I). rewrite EN, map_app in D. cbn in D. apply NoDup_remove_2 in D. rewrite <- map_app in D. intros x Hx E. apply D. rewrite <- E. apply in_map, Hx. }
  assert (Idk : forall x, In x (nodes T d) -> fst x <> k) by (intros x Hx; apply (i_lt _ _ _ _ I) in Hx; lia).
  assert (Fi : find_node T p (add_instr T k i d) = Some ip).
  { unfold find_node. cbn [add_instr nodes]. rewrite EN, <- app_assoc. assert (F1 : forall X Y, (forall x : node, In x X -> fst x <> p) -> find (fun x : node => fst x =? p) (X ++ Y) = find (fun x : node => fst x =? p) Y).
    { clear. induction X as [|x X IH]; intros Y H; [reflexivity|]. cbn. destruct (Nat.eqb_spec (fst x) p) as [E|E]; [exfalso; apply (H x (or_introl eq_refl) E)|]. apply IH. intros y Hy. apply H. right. exact Hy. }
    rewrite F1 by (intros x Hx; apply Ids, in_app_iff; auto). cbn. rewrite Nat.eqb_refl. reflexivity. }
  rewrite Fi. destruct (fuse_instr T generic ip i) as [[r|] dphi] eqn:Ef; [|exact IA].
  assert (Oip : instr_ok T generic n ip) by (apply (i_ok _ _ _ _ I (p, ip)); rewrite EN; apply in_elt).
  destruct (fuse_instr_ok T generic GS n ip i r dphi Oip Oi Ef) as (I1 & I2 & C1 & C2 & Hr & Hrun).
  rewrite <- Qi in Hl. assert (Qi' : forall q, In q (fqs ip) <-> In q (fqs i)) by (intros q; split; [apply I1|apply I2]).
  (* nothing after p touches its qubits *)
  assert (Free : forall x q, In x N2 -> In q (fqs ip) -> ~ In q (fqs (snd x))).
  { intros x q Hx Hq Hqx. apply Qi' in Hq. specialize (Hl q Hq). apply lastof_some in Hl. destruct Hl as [(M1 & jp & M2 & EM & _ & HM)|[H _]]; [|discriminate].
    assert (D := i_nd _ _ _ _ I). rewrite EN in D, EM. destruct (nodup_split _ _ _ _ _ _ _ D EM) as (-> & -> & ->). specialize (HM x Hx). apply memb_false in HM. contradiction. }
  set (N' := N1 ++ repl p r ++ N2).
  (* the new nodes *)
  assert (EN' : (match r with None => filter (fun x : node => negb (fst x =? k)) (filter (fun x : node => negb (fst x =? p)) (nodes T d ++ [(k, i)]))
                 | Some f => filter (fun x : node => negb (fst x =? k)) (map (fun x : node => if fst x =? p then (p, f) else x) (nodes T d ++ [(k, i)])) end) = N').
  { assert (Hk : (k =? p) = false) by (apply Nat.eqb_neq; lia).
    assert (H1 : forall x, In x N1 -> fst x <> p) by (intros x Hx; apply Ids, in_app_iff; auto). assert (H2 : forall x, In x N2 -> fst x <> p) by (intros x Hx; apply Ids, in_app_iff; auto).
    assert (K1 : forall x, In x N1 -> fst x <> k) by (intros x Hx; apply Idk; rewrite EN; apply in_app_iff; auto). assert (K2 : forall x, In x N2 -> fst x <> k) by (intros x Hx; apply Idk; rewrite EN; apply in_app_iff; cbn; auto).
    unfold N'. destruct r as [f|]; rewrite EN, <- app_assoc; cbn [app repl].
    - rewrite map_app. cbn [map]. rewrite map_app. cbn [map fst]. rewrite Nat.eqb_refl, Hk. rewrite !map_set_ids by assumption. rewrite filter_app. cbn [filter fst]. rewrite filter_app. cbn [filter fst].
      rewrite Nat.eqb_refl. destruct (Nat.eqb_spec p k); [lia|]. cbn [negb]. rewrite !filter_ids by assumption. rewrite app_nil_r. reflexivity.
    - rewrite filter_app. cbn [filter fst]. rewrite Nat.eqb_refl. cbn [negb]. rewrite (filter_app _ N2). cbn [filter fst]. rewrite Hk. cbn [negb]. rewrite !(filter_ids _ p) by assumption.
      rewrite filter_app, filter_app. cbn [filter fst]. rewrite Nat.eqb_refl. cbn [negb]. rewrite !filter_ids by assumption. rewrite app_nil_r. reflexivity. }
  assert (InN' : forall x, In x N' -> In x N1 \/ In x N2 \/ exists f, r = Some f /\ x = (p, f)).
  { intros x Hx. unfold N' in Hx. rewrite !in_app_iff in Hx. destruct Hx as [H|[H|H]]; auto. destruct r as [f|]; [|destruct H]. destruct H as [<-|[]]. right. right. eauto. }
  (* last node on a qubit *)
  assert (LQ : forall q X, (~ In q (fqs ip) -> lq q (N1 ++ repl p r ++ X) = lq q (N1 ++ (p, ip) :: X))).
  { intros q X Hq. unfold lq. rewrite !lastof_app. cbn [lastof snd fst]. assert (E1 : onq q ip = false) by (apply memb_false, Hq). rewrite E1.
    destruct r as [f|]; [|reflexivity]. cbn [repl lastof snd fst]. destruct (Hr f eq_refl) as (_ & If & _). assert (E2 : onq q f = false) by (apply memb_false; intros H; apply Hq, If, H). rewrite E2. reflexivity. }
  assert (LC : forall c X, lc c (N1 ++ repl p r ++ X) = lc c (N1 ++ (p, ip) :: X)).
  { intros c X. unfold lc. rewrite !lastof_app. cbn [lastof snd fst]. assert (E1 : onc c ip = false) by (unfold onc; rewrite C1; reflexivity). rewrite E1.
    destruct r as [f|]; [|reflexivity]. cbn [repl lastof snd fst]. destruct (Hr f eq_refl) as (_ & _ & _ & Cf). assert (E2 : onc c f = false) by (unfold onc; rewrite Cf; reflexivity). rewrite E2. reflexivity. }
  assert (LN2 : forall q X acc, In q (fqs ip) -> (forall x, In x X -> In x N2) -> lastof (onq q) X acc = acc).
  { intros q X acc Hq HX. apply lastof_none. intros x Hx. apply memb_false. apply (Free x q); [apply HX, Hx|exact Hq]. }
  (* edges of the graph after adding k *)
  assert (EA := i_edges _ _ _ _ IA). cbn [add_instr nodes edges] in EA.
  set (EE := edges T d ++ map (fun q => (last T d q, k, q)) (fqs i)) in *.
  assert (EEp : forall s q, In (s, p, q) EE <-> In q (fqs ip) /\ s = lq q N1).
  { intros s q. rewrite EA. split.
    - intros (M1 & j & M2 & E & Hq & Hs). assert (D := i_nd _ _ _ _ IA). cbn [add_instr nodes] in D. rewrite EN, <- app_assoc in D, E. cbn [app] in D, E. destruct (nodup_split _ _ _ _ _ _ _ D E) as (-> & -> & _). auto.
    - intros [Hq Hs]. exists N1, ip, (N2 ++ [(k, i)]). rewrite EN, <- app_assoc. auto. }
  assert (EEk : forall s q, In (s, k, q) EE <-> In q (fqs i) /\ s = lq q (nodes T d)).
  { intros s q. rewrite EA. split.
    - intros (M1 & j & M2 & E & Hq & Hs). assert (D := i_nd _ _ _ _ IA). cbn [add_instr nodes] in D. destruct (nodup_split _ _ _ _ _ _ _ D E) as (-> & -> & _). auto.
    - intros [Hq Hs]. exists (nodes T d), i, []. auto. }
  (* edges between the remaining nodes *)
  assert (Old : forall s t q, t <> p -> t <> k -> (In (s, t, q) EE <-> exists M1 j M2, N' = M1 ++ (t, j) :: M2 /\ In q (fqs j) /\ s = lq q M1)).
  { intros s t q Htp Htk. rewrite EA. split.
    - intros (M1 & j & M2 & E & Hq & Hs). rewrite EN, <- app_assoc in E. cbn [app] in E. destruct (split_app_cases _ _ _ _ _ _ E) as [(Z & EM1 & EZ)|[(_ & E2 & _)|(Z & EN1 & _)]].
      + subst M1. destruct M2 as [|z M2 _] using rev_ind; [apply app_inj_tail in EZ; destruct EZ as [_ EZ]; injection EZ as <- _; contradiction|].
        rewrite app_comm_cons, app_assoc in EZ. apply app_inj_tail in EZ. destruct EZ as [EZ _].
        exists (N1 ++ repl p r ++ Z), j, M2. split; [unfold N'; rewrite EZ, <- !app_assoc; reflexivity|]. split; [exact Hq|]. rewrite Hs. symmetry. apply LQ. intros Hqp. apply (Free (t, j) q); [rewrite EZ; apply in_elt|exact Hqp|exact Hq].
      + congruence.
      + exists M1, j, (Z ++ repl p r ++ N2). split; [unfold N'; rewrite EN1, <- app_assoc; reflexivity|]. auto.
    - intros (M1 & j & M2 & E & Hq & Hs). assert (Hin : In (t, j) N') by (rewrite E; apply in_elt). unfold N' in E.
      assert (D' : NoDup (map fst (M1 ++ (t, j) :: M2))).
      { rewrite <- E. assert (D := i_nd _ _ _ _ I). rewrite EN in D. rewrite !map_app in *. cbn in D. destruct r as [f|]; [exact D|]. apply NoDup_remove_1 in D. exact D. }
      destruct (InN' _ Hin) as [H|[H|(f & _ & H)]]; [| |congruence].
      + apply in_split in H. destruct H as (X & Y & EX). assert (EE' : M1 ++ (t, j) :: M2 = X ++ (t, j) :: Y ++ repl p r ++ N2) by (rewrite <- E, EX, <- app_assoc; reflexivity).
        destruct (nodup_split _ _ _ _ _ _ _ D' EE') as (-> & _ & _). exists X, j, (Y ++ (p, ip) :: N2 ++ [(k, i)]). split; [|auto]. rewrite EN, EX; napp.
      + assert (Hj := H). apply in_split in H. destruct H as (X & Y & EX). assert (EE' : M1 ++ (t, j) :: M2 = (N1 ++ repl p r ++ X) ++ (t, j) :: Y) by (rewrite <- E, EX, <- !app_assoc; reflexivity).
        destruct (nodup_split _ _ _ _ _ _ _ D' EE') as (-> & _ & _). exists (N1 ++ (p, ip) :: X), j, (Y ++ [(k, i)]). split; [rewrite EN, EX; napp|]. split; [exact Hq|].
        rewrite Hs. apply LQ. intros Hqp. apply (Free (t, j) q Hj Hqp Hq). }
  assert (Src : forall s t q M1 j M2, N' = M1 ++ (t, j) :: M2 -> s = lq q M1 -> oeq s k = false /\ (r = None -> oeq s p = false)).
  { intros s t q M1 j M2 E Hs. destruct s as [m|]; [|auto]. symmetry in Hs. apply lastof_some in Hs. destruct Hs as [(X & jm & Y & -> & _)|[H _]]; [|discriminate].
    assert (Hin : In (m, jm) N') by (rewrite E, <- app_assoc; apply in_elt). cbn. split.
    - apply Nat.eqb_neq. destruct (InN' _ Hin) as [H|[H|(f & _ & H)]]; [apply (Idk (m, jm)); rewrite EN; apply in_app_iff; auto|apply (Idk (m, jm)); rewrite EN; apply in_app_iff; cbn; auto|injection H as -> _; lia].
    - intros Er. apply Nat.eqb_neq. destruct (InN' _ Hin) as [H|[H|(f & Er' & _)]]; [apply (Ids (m, jm)), in_app_iff; auto|apply (Ids (m, jm)), in_app_iff; auto|congruence]. }
  assert (NoP : r = None -> forall M1 j M2, N' <> M1 ++ (p, j) :: M2).
  { intros Er M1 j M2 E. assert (Hin : In (p, j) N') by (rewrite E; apply in_elt). destruct (InN' _ Hin) as [H|[H|(f & Er' & _)]]; [apply (Ids (p, j)); [apply in_app_iff; auto|reflexivity]|apply (Ids (p, j)); [apply in_app_iff; auto|reflexivity]|congruence]. }
  assert (NoK : forall M1 j M2, N' <> M1 ++ (k, j) :: M2).
  { intros M1 j M2 E. assert (Hin : In (k, j) N') by (rewrite E; apply in_elt). destruct (InN' _ Hin) as [H|[H|(f & _ & H)]]; [apply (Idk (k, j)); [rewrite EN; apply in_app_iff; auto|reflexivity]|apply (Idk (k, j)); [rewrite EN; apply in_app_iff; cbn; auto|reflexivity]|injection H as H _; lia]. }
  assert (OldC : forall t c M1 j M2, N' = M1 ++ (t, j) :: M2 -> In c (fcl j) -> In (lc c M1, t) (cedges T d) /\ oeq (lc c M1) k = false /\ oeq (lc c M1) p = false /\ t <> p /\ t <> k).
  { intros t c M1 j M2 E Hc. assert (Hin : In (t, j) N') by (rewrite E; apply in_elt).
    assert (Ht : In (t, j) N1 \/ In (t, j) N2) by (destruct (InN' _ Hin) as [H|[H|(f & Er & H)]]; auto; injection H as -> ->; destruct (Hr f Er) as (_ & _ & _ & Cf); rewrite Cf in Hc; destruct Hc).
    assert (Htp : t <> p) by (apply (Ids (t, j)), in_app_iff; exact Ht). assert (Htk : t <> k) by (apply (Idk (t, j)); rewrite EN; apply in_app_iff; cbn; tauto).
    assert (D' : NoDup (map fst (M1 ++ (t, j) :: M2))).
    { rewrite <- E. unfold N'. assert (D := i_nd _ _ _ _ I). rewrite EN in D. rewrite !map_app in *. cbn in D. destruct r as [f|]; [exact D|]. apply NoDup_remove_1 in D. exact D. }
    assert (HS : forall s, lc c M1 = Some s -> s <> k /\ s <> p).
    { intros s Hs. apply lastof_some in Hs. destruct Hs as [(X & js & Y & EM & Fs & _)|[H _]]; [|discriminate]. assert (Hin' : In (s, js) N') by (rewrite E, EM, <- app_assoc; apply in_elt).
      destruct (InN' _ Hin') as [H|[H|(f & Er & H)]].
      - split; [apply (Idk (s, js)); rewrite EN; apply in_app_iff; auto|apply (Ids (s, js)), in_app_iff; auto].
      - split; [apply (Idk (s, js)); rewrite EN; apply in_app_iff; cbn; auto|apply (Ids (s, js)), in_app_iff; auto].
      - injection H as -> ->. exfalso. destruct (Hr f Er) as (_ & _ & _ & Cf). unfold onc in Fs. rewrite Cf in Fs. discriminate. }
    split; [|split; [|split; [|auto]]]; [|destruct (lc c M1) as [s|]; [apply Nat.eqb_neq, HS; reflexivity|reflexivity]|destruct (lc c M1) as [s|]; [apply Nat.eqb_neq, HS; reflexivity|reflexivity]].
    destruct Ht as [H|H].
    - apply in_split in H. destruct H as (X & Y & EX). assert (EE' : M1 ++ (t, j) :: M2 = X ++ (t, j) :: Y ++ repl p r ++ N2) by (rewrite <- E; unfold N'; rewrite EX, <- app_assoc; reflexivity).
      destruct (nodup_split _ _ _ _ _ _ _ D' EE') as (-> & _ & _). apply (i_cedges _ _ _ _ I t c X j (Y ++ (p, ip) :: N2)); [rewrite EN, EX; napp|exact Hc].
    - apply in_split in H. destruct H as (X & Y & EX). assert (EE' : M1 ++ (t, j) :: M2 = (N1 ++ repl p r ++ X) ++ (t, j) :: Y) by (rewrite <- E; unfold N'; rewrite EX, <- !app_assoc; reflexivity).
      destruct (nodup_split _ _ _ _ _ _ _ D' EE') as (-> & _ & _). rewrite LC. apply (i_cedges _ _ _ _ I t c (N1 ++ (p, ip) :: X) j Y); [rewrite EN, EX; napp|exact Hc]. }
  (* effect *)
  assert (Run : forall v, veq n (frun (pre ++ [i]) v) (vscale (ex (aadd (gph T d) dphi)) (frun (map snd N') v))).
  { intros v. apply (veq_trans R n _ _ _ (i_run _ _ _ _ IA v)). cbn [add_instr nodes gph].
    assert (S2 : veq n (frun (map snd (nodes T d ++ [(k, i)])) v) (vscale (ex dphi) (frun (map snd N') v))).
    { rewrite EN, <- app_assoc. unfold N'. cbn [app]. rewrite !map_app. cbn [map app snd]. rewrite ?map_app. cbn [map app snd]. rewrite !(frun_app (map snd N1)). generalize (frun (map snd N1) v). intros w.
      change (frun (ip :: map snd N2 ++ [i]) w) with (frun (map snd N2 ++ [i]) (frun_instr w ip)).
      apply (veq_trans R n _ (frun (i :: map snd N2) (frun_instr w ip))).
      - apply frun_move; [apply Oi|]. intros j Hj. apply in_map_iff in Hj. destruct Hj as (x & <- & Hx). split; [apply (i_ok _ _ _ _ I); rewrite EN; apply in_app_iff; cbn; auto|]. intros q Hq. apply (Free x q Hx). apply Qi', Hq.
      - change (frun (i :: map snd N2) (frun_instr w ip)) with (frun (map snd N2) (frun_instr (frun_instr w ip) i)).
        apply (veq_trans R n _ (frun (map snd N2) (vscale (ex dphi) (opt_run T w r)))); [apply frun_ext, Hrun|]. apply (veq_trans R n _ _ _ (frun_scale n _ _ _)). apply vscale_ext.
        rewrite frun_app. destruct r as [f|]; apply veq_refl. }
    apply (veq_trans R n _ _ _ (vscale_ext n _ _ _ S2)). intros x Lx. unfold vscale. rewrite (ex_add T). ring. }
  assert (Cl : forall c, on_clbit T c (map snd N') = on_clbit T c (pre ++ [i])).
  { intros c. rewrite on_clbit_app. unfold N'. rewrite !map_app, !on_clbit_app. rewrite <- (i_cl _ _ _ _ I), EN, map_app, on_clbit_app. cbn [map snd on_clbit filter]. rewrite C1, C2. cbn [existsb]. rewrite app_nil_r. f_equal.
    destruct r as [f|]; [|reflexivity]. destruct (Hr f eq_refl) as (_ & _ & _ & Cf). cbn [repl map snd on_clbit filter app]. rewrite Cf. reflexivity. }
  assert (ND : NoDup (map fst N')).
  { unfold N'. assert (D := i_nd _ _ _ _ I). rewrite EN in D. rewrite !map_app in *. cbn in D. destruct r as [f|]; [exact D|]. apply NoDup_remove_1 in D. exact D. }
  assert (LT : forall x, In x N' -> fst x < S k).
  { intros x Hx. destruct (InN' _ Hx) as [H|[H|(f & _ & ->)]]; [| |cbn; lia]; (assert (fst x < k); [apply (i_lt _ _ _ _ I); rewrite EN; apply in_app_iff; cbn; auto|lia]). }
  assert (OK : forall x, In x N' -> instr_ok T generic n (snd x)).
  { intros x Hx. destruct (InN' _ Hx) as [H|[H|(f & Er & ->)]]; [| |apply (Hr f Er)]; apply (i_ok _ _ _ _ I); rewrite EN; apply in_app_iff; cbn; auto. }
  destruct r as [f|]; cbn [remove_node rewire set_node add_instr nodes edges cedges last clast gph]; fold EE; rewrite EN'; constructor; cbn [nodes edges cedges last clast gph]; auto.
  - (* edges, fused *) intros s t q. rewrite filter_In. cbn [fst snd]. rewrite andb_true_iff, !negb_true_iff, Nat.eqb_neq. destruct (Hr f eq_refl) as (_ & If & If' & _). split.
    + intros (H & Hs & Ht). destruct (Nat.eq_dec t p) as [->|Htp]; [|apply Old; assumption]. apply EEp in H. destruct H as [Hq ->]. exists N1, f, N2. split; [reflexivity|]. split; [apply If', Hq|reflexivity].
    + intros (M1 & j & M2 & E & Hq & Hs). destruct (Src s t q M1 j M2 E Hs) as [Sk _]. assert (Htk : t <> k) by (intros ->; apply (NoK _ _ _ E)). split; [|auto].
      destruct (Nat.eq_dec t p) as [->|Htp]; [|apply (Old s t q Htp Htk); exists M1, j, M2; auto]. apply EEp. change (N1 ++ (p, f) :: N2 = M1 ++ (p, j) :: M2) in E. destruct (nodup_split _ _ _ _ _ _ _ ND E) as (-> & -> & _). split; [apply If, Hq|exact Hs].
  - intros t c M1 j M2 E Hc. destruct (OldC t c M1 j M2 E Hc) as (H & Hk & Hp & Htp & Htk). apply filter_In. cbn [fst snd]. split; [apply in_app_iff; auto|]. rewrite Hk. apply Nat.eqb_neq in Htk. rewrite Htk. reflexivity.
  - (* last, fused *) intros q. destruct (rewire_last k EE (fun q => if existsb (Nat.eqb q) (fqs i) then Some k else last T d q) q) as [(s & H & Es)|[H Es]]; cbv zeta in Es; rewrite Es; clear Es.
    + apply EEk in H. destruct H as [Hq ->]. rewrite (Hl q Hq). symmetry. unfold N', lq. rewrite !lastof_app. cbn [repl lastof snd fst]. destruct (Hr f eq_refl) as (_ & _ & If' & _).
      assert (E : onq q f = true) by (apply memb_In, If', Qi', Hq). rewrite E. apply LN2; [apply Qi', Hq|auto].
    + assert (Hq : ~ In q (fqs i)) by (intros Hq; apply (H (lq q (nodes T d))), EEk; auto). fold (memb q (fqs i)). assert (E : memb q (fqs i) = false) by (apply memb_false, Hq). rewrite E, (i_last _ _ _ _ I), EN. symmetry. apply LQ. intros H'. apply Hq, Qi', H'.
  - intros c. rewrite C2. cbn [existsb]. rewrite (i_clast _ _ _ _ I), EN. symmetry. apply LC.
  - (* edges, cancelled *) intros s t q. rewrite filter_In. cbn [fst snd]. rewrite filter_In. cbn [fst snd]. rewrite !andb_true_iff, !negb_true_iff, !Nat.eqb_neq. split.
    + intros ((H & _ & Htp) & Hs & Htk). apply Old; assumption.
    + intros (M1 & j & M2 & E & Hq & Hs). destruct (Src s t q M1 j M2 E Hs) as [Sk Sp]. assert (Htk : t <> k) by (intros ->; apply (NoK _ _ _ E)). assert (Htp : t <> p) by (intros ->; apply (NoP eq_refl _ _ _ E)).
      split; [|auto]. split; [apply (Old s t q Htp Htk); exists M1, j, M2; auto|]. auto.
  - intros t c M1 j M2 E Hc. destruct (OldC t c M1 j M2 E Hc) as (H & Hk & Hp & Htp & Htk). apply filter_In. cbn [fst snd]. apply Nat.eqb_neq in Htk, Htp. split; [apply filter_In; cbn [fst snd]; split; [apply in_app_iff; auto|rewrite Hp, Htp; reflexivity]|]. rewrite Hk, Htk. reflexivity.
  - (* last, cancelled *) intros q. destruct (rewire_last p EE (fun q => if existsb (Nat.eqb q) (fqs i) then Some k else last T d q) q) as [(s & H & Es)|[H Es]]; cbv zeta in Es; rewrite Es; clear Es.
    + apply EEp in H. destruct H as [Hq ->]. symmetry. unfold N', lq. cbn [repl app]. rewrite lastof_app. apply LN2; auto.
    + assert (Hq : ~ In q (fqs ip)) by (intros Hq; apply (H (lq q N1)), EEp; auto). fold (memb q (fqs i)). assert (E : memb q (fqs i) = false) by (apply memb_false; intros H'; apply Hq, Qi', H'). rewrite E, (i_last _ _ _ _ I), EN. symmetry. apply LQ. exact Hq.
  - intros c. rewrite C2. cbn [existsb]. rewrite (i_clast _ _ _ _ I), EN. symmetry. apply LC.
Qed.
Lemma inv_empty n : inv n 0 [] (empty_dag T).
Proof.
  constructor; cbn; auto; try (intros; contradiction); try constructor.
  - intros [].
  - intros ([|] & ? & ? & [=] & _).
  - intros t c [|] i N2 [=].
  - intros v x _. unfold vscale. rewrite (ex_0 T). ring.
Qed.
Lemma inv_build n data : forall k pre d, inv n k pre d -> Forall (instr_ok T generic n) data -> exists k', inv n k' (pre ++ data) (build T generic k data d).
Proof.
  induction data as [|i data IH]; intros k pre d I F; [exists k; rewrite app_nil_r; exact I|]. inversion F; subst. cbn [build].
  destruct (IH (S k) (pre ++ [i]) _ (inv_step n k pre d i I H1) H2) as (k' & I'). exists k'. rewrite <- app_assoc in I'. exact I'.
Qed.
End proofs.
