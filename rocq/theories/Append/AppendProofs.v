(** Proofs about append. *)
From Coq Require Import ZArith List Bool Lia Arith.
From Verif.Append Require Import AppendModel AppendSpec.
Import ListNotations.

(** * single instructions *)
Lemma has_dup_false : forall A (eqb : A -> A -> bool) (key : A -> nat), (forall a b, eqb a b = true <-> key a = key b) ->
  forall l, has_dup eqb l = false <-> NoDup (map key l).
Proof.
  intros A eqb key E l; induction l as [|a l IH]; cbn [has_dup map]; [split; [constructor|reflexivity]|].
  rewrite orb_false_iff, IH. split.
  - intros [H N]. constructor; [|exact N]. intros I. apply in_map_iff in I as (b & K & I).
    apply not_true_iff_false in H. apply H, existsb_exists. exists b. split; [exact I|]. apply E. auto.
  - intros H. inversion H; subst. split; [|assumption]. apply not_true_iff_false. intros X. apply existsb_exists in X as (b & I & K).
    apply H2. apply in_map_iff. exists b. split; [symmetry; apply E, K|exact I].
Qed.
Lemma qeqb_ok : forall a b, qeqb a b = true <-> qhash a = qhash b.
Proof. intros; apply Nat.eqb_eq. Qed.
Lemma positions_ok : forall f l k, positions f k l = map (fun j => (k + j)%nat) (filter (fun j => match nth_error l j with Some q => f q | None => false end) (seq 0 (length l))).
Proof.
  intros f l; induction l as [|q l IH]; intros k; [reflexivity|].
  cbn [positions length seq filter nth_error]. rewrite IH.
  assert (G : forall (g h : nat -> bool) n s, (forall j, g (S j) = h j) -> filter g (seq (S s) n) = map S (filter h (seq s n))).
  { intros g h n; induction n as [|n IHn]; intros s H; cbn [seq filter]; [reflexivity|]. rewrite H, (IHn (S s) H). destruct (h s); reflexivity. }
  assert (G0 : filter (fun j => match nth_error (q :: l) j with Some q => f q | None => false end) (seq 1 (length l)) = map S (filter (fun j => match nth_error l j with Some q => f q | None => false end) (seq 0 (length l)))) by (apply G; reflexivity).
  rewrite G0. destruct (f q); cbn [map app]; rewrite ?map_map; [f_equal; [lia|]|]; apply map_ext; intros; lia.
Qed.
Lemma positions_0 : forall qs, positions perm_locked 0 qs = perm_locked_positions qs.
Proof. intros qs. rewrite positions_ok. unfold perm_locked_positions. rewrite <- map_id. apply map_ext. reflexivity. Qed.
Lemma perm_positions_nil : forall qs, perm_locked_positions qs = [] <-> forall q, In q qs -> perm_locked q = false.
Proof.
  intros qs. unfold perm_locked_positions. split.
  - intros H q I. apply In_nth_error in I as [k K]. destruct (perm_locked q) eqn:P; [|reflexivity]. exfalso.
    assert (J : In k []). { rewrite <- H. apply filter_In. rewrite in_seq, K. split; [|exact P]. assert (k < length qs)%nat by (apply nth_error_Some; congruence). lia. }
    destruct J.
  - intros H. destruct (filter _ _) as [|k l] eqn:F; [reflexivity|]. exfalso.
    assert (J : In k (k :: l)) by (cbn; auto). rewrite <- F in J. apply filter_In in J as [_ J].
    destruct (nth_error qs k) as [q|] eqn:K; [|discriminate]. rewrite (H q) in J; [discriminate|]. eapply nth_error_In; eassumption.
Qed.
Lemma check_locks_ok : forall op qs, check_qubit_locks op qs = None <->
  (forall q, In q qs -> locked q = false) /\ ((forall q, In q qs -> perm_locked q = false) \/ permeable op (perm_locked_positions qs) = true).
Proof.
  intros op qs. unfold check_qubit_locks. rewrite positions_0.
  destruct (existsb locked qs) eqn:L.
  - split; [discriminate|]. intros [H _]. apply existsb_exists in L as (q & I & K). rewrite (H q I) in K. discriminate.
  - assert (L' : forall q, In q qs -> locked q = false).
    { intros q I. destruct (locked q) eqn:K; [|reflexivity]. apply not_true_iff_false in L. exfalso; apply L, existsb_exists. exists q; auto. }
    destruct (perm_locked_positions qs) as [|k l] eqn:P.
    + pose proof (proj1 (perm_positions_nil qs) P). tauto.
    + rewrite <- P. destruct (permeable op (perm_locked_positions qs)); [tauto|]. split; [discriminate|].
      intros [_ [H|H]]; [|discriminate]. pose proof (proj2 (perm_positions_nil qs) H). congruence.
Qed.
Lemma incl_existsb : forall (cs reg : list nat), forallb (fun b => existsb (Nat.eqb b) reg) cs = true <-> incl cs reg.
Proof.
  intros cs reg. rewrite forallb_forall. split; intros H b I; specialize (H b I).
  - apply existsb_exists in H as (d & J & E). apply Nat.eqb_eq in E. subst; exact J.
  - apply existsb_exists. exists b. rewrite Nat.eqb_refl. auto.
Qed.
Lemma mapM_None : forall A B (f : A -> option B) l a, In a l -> f a = None -> mapM f l = None.
Proof.
  intros A B f l; induction l as [|b l IH]; intros a I H; [destruct I|]. cbn [mapM]. destruct I as [->|I]; [rewrite H; reflexivity|].
  rewrite (IH a I H). destruct (f b); reflexivity.
Qed.
Lemma find_name_None : forall c n, ~ In n (map qname (cqubits c)) -> find_name c n = None.
Proof.
  intros c n H. unfold find_name. destruct (find _ _) as [q|] eqn:F; [|reflexivity]. apply find_some in F as [I E]. apply Nat.eqb_eq in E.
  exfalso; apply H. rewrite <- E. apply in_map, I.
Qed.
Lemma own_hash : forall c q, In q (cqubits c) -> existsb (qeqb q) (cqubits c) = true.
Proof. intros c q I. apply existsb_exists. exists q. split; [exact I|]. apply qeqb_ok; reflexivity. Qed.
Lemma honest_hash : forall c q, honest c q -> existsb (qeqb q) (cqubits c) = true -> In q (cqubits c).
Proof.
  intros c q [I|[_ N]] E; [exact I|]. exfalso; apply N. apply existsb_exists in E as (d & J & E). apply qeqb_ok in E. rewrite E. apply in_map, J.
Qed.
Lemma resolve_fits : forall c op qs l, (forall q, In q qs -> honest c q) -> resolve_qubits c op qs = inr l ->
  l = qs /\ length qs = num_qubits op /\ NoDup (map qhash qs) /\ incl qs (cqubits c).
Proof.
  intros c op qs l H. unfold resolve_qubits. destruct (Nat.eqb_spec (length qs) (num_qubits op)) as [L|L]; cbn [negb]; [|discriminate].
  destruct (has_dup qeqb qs) eqn:D; [discriminate|]. apply (has_dup_false _ _ _ qeqb_ok) in D.
  destruct (forallb _ qs) eqn:F.
  - intros E. injection E as <-. split; [reflexivity|]. split; [exact L|]. split; [exact D|].
    intros q I. rewrite forallb_forall in F. apply honest_hash; auto.
  - destruct (mapM _ qs) eqn:M; [|discriminate]. exfalso.
    assert (X : exists q, In q qs /\ existsb (qeqb q) (cqubits c) = false).
    { clear - F. induction qs as [|q qs IH]; [discriminate|]. cbn [forallb] in F. apply andb_false_iff in F as [F|F].
      - exists q; cbn; auto.
      - destruct (IH F) as (p & I & E). exists p; cbn; auto. }
    destruct X as (q & I & E). destruct (H q I) as [J|[N _]]; [rewrite (own_hash c q J) in E; discriminate|].
    rewrite (mapM_None _ _ _ qs q I (find_name_None c _ N)) in M. discriminate.
Qed.
Lemma resolve_ok : forall c op qs, length qs = num_qubits op -> NoDup (map qhash qs) -> incl qs (cqubits c) -> resolve_qubits c op qs = inr qs.
Proof.
  intros c op qs L D I. unfold resolve_qubits. rewrite L, Nat.eqb_refl. cbn [negb].
  apply (has_dup_false _ _ _ qeqb_ok) in D. rewrite D.
  replace (forallb _ qs) with true; [reflexivity|]. symmetry. apply forallb_forall. intros q J. apply own_hash, I, J.
Qed.
Definition extend_with (c : circuit) (l : list instruction) : circuit := Circuit (cqubits c) (cclbits c) (cdata c ++ l).
Lemma nat_dup : forall cs, has_dup Nat.eqb cs = false <-> NoDup cs.
Proof. intros cs. rewrite (has_dup_false _ Nat.eqb (fun n => n) Nat.eqb_eq), map_id. tauto. Qed.
Lemma single_fits : forall c op qs cs, fits c op qs cs -> append_single c op qs cs = Ok (extend_with c [Instruction op qs cs]).
Proof.
  intros c op qs cs (A & B & C & D & E & F & G & P). unfold append_single. rewrite resolve_ok by assumption.
  rewrite D, Nat.eqb_refl. cbn [negb]. apply nat_dup in E. rewrite E. apply incl_existsb in F. rewrite F. cbn [negb].
  replace (check_qubit_locks op qs) with (@None error); [reflexivity|]. symmetry. apply check_locks_ok. auto.
Qed.
Lemma single_inv : forall c op qs cs c', (forall q, In q qs -> honest c q) -> append_single c op qs cs = Ok c' -> fits c op qs cs /\ c' = extend_with c [Instruction op qs cs].
Proof.
  intros c op qs cs c' H. unfold append_single. destruct (resolve_qubits c op qs) as [e|l] eqn:R; [discriminate|].
  apply resolve_fits in R as (-> & A & B & C); [|exact H].
  destruct (Nat.eqb_spec (length cs) (num_clbits op)) as [D|D]; cbn [negb]; [|discriminate].
  destruct (has_dup Nat.eqb cs) eqn:E; [discriminate|]. apply nat_dup in E.
  destruct (forallb (fun b => existsb (Nat.eqb b) (cclbits c)) cs) eqn:F; cbn [negb]; [|discriminate]. apply incl_existsb in F.
  destruct (check_qubit_locks op qs) eqn:G; [discriminate|]. apply check_locks_ok in G as [G P].
  intros X. injection X as <-. split; [|reflexivity]. unfold fits. do 7 (split; [assumption|]). exact P.
Qed.
Lemma single_raise : forall c op qs cs e c', append_single c op qs cs = Raise e c' -> c' = c /\ e <> EFuel.
Proof.
  intros c op qs cs e c'. unfold append_single. destruct (resolve_qubits c op qs) as [e0|l] eqn:R.
  - intros E. injection E as <- <-. split; [reflexivity|]. unfold resolve_qubits in R.
    destruct (negb _); [congruence|]. destruct (has_dup _ _); [congruence|]. destruct (forallb _ _); [congruence|]. destruct (mapM _ _); congruence.
  - destruct (negb _); [intros E; injection E as <- <-; split; [reflexivity|discriminate]|].
    destruct (has_dup _ _); [intros E; injection E as <- <-; split; [reflexivity|discriminate]|].
    destruct (negb _); [intros E; injection E as <- <-; split; [reflexivity|discriminate]|].
    destruct (check_qubit_locks op l) as [e0|] eqn:K; [|discriminate]. intros E; injection E as <- <-. split; [reflexivity|].
    unfold check_qubit_locks in K. destruct (existsb _ _); [congruence|]. destruct (positions _ _ _); [discriminate|]. destruct (permeable _ _); congruence.
Qed.

(** * broadcasting *)
Definition lists_of {A} (l : list (arg A)) : list nat := map (fun a => length (items a)) (filter is_many l).
Fixpoint run_loop (f : nat -> circuit -> outcome) (todo : list nat) (c : circuit) : outcome :=
  match todo with
  | [] => Ok c
  | i :: todo => match f i c with Ok c => run_loop f todo c | Raise e c => Raise e c end
  end.
Lemma append_args_eq : forall fuel c op qs cs, append_args fuel c op qs cs =
  match lists_of qs ++ lists_of cs with
  | [] => append_single c op (leaves qs) (leaves cs)
  | n :: _ =>
      if forallb (Nat.eqb n) (lists_of qs ++ lists_of cs) then
        match fuel with
        | 0 => Raise EFuel c
        | S fuel => run_loop (fun i c => append_args fuel c op (map (pick i) qs) (map (pick i) cs)) (seq 0 n) c
        end
      else Raise ECombine c
  end.
Proof.
  intros fuel c op qs cs. destruct fuel as [|fuel]; cbn [append_args]; unfold lists_of; [reflexivity|].
  destruct (map _ (filter is_many qs) ++ map _ (filter is_many cs)) as [|n l]; [reflexivity|].
  destruct (forallb _ _); [|reflexivity]. generalize (seq 0 n) as todo. intros todo. revert c.
  induction todo as [|i todo IH]; intros c; cbn [run_loop]; [reflexivity|].
  destruct (append_args fuel c op (map (pick i) qs) (map (pick i) cs)); [apply IH|reflexivity].
Qed.

(** flat arguments *)
Definition conv {A} (f : flat_arg A) : arg A := match f with One a => Leaf a | Some_of l => Many (map Leaf l) end.
Lemma convert_iter : forall A (reg : list A) l m, Forall2 (fun u a => convert_item reg u = Some a) l m -> convert_item reg (UIter l) = Some (Many m).
Proof.
  intros A reg l m H. cbn [convert_item].
  assert (G : (fix go l := match l with [] => Some [] | u :: l => match convert_item reg u, go l with Some b, Some m => Some (b :: m) | _, _ => None end end) l = Some m).
  { induction H as [|u a l m E H IH]; [reflexivity|]. rewrite E, IH. reflexivity. }
  rewrite G. reflexivity.
Qed.
Lemma convert_given : forall A (reg : list A) f, convert_item reg (given f) = Some (conv f).
Proof.
  intros A reg [a|l]; [reflexivity|]. cbn [given conv]. apply convert_iter. induction l as [|a l IH]; cbn [map]; constructor; auto.
Qed.
Lemma convert_all : forall A (reg : list A) l, convert_to_list reg (UIter (map given l)) = Some (map conv l).
Proof.
  intros A reg l. unfold convert_to_list. rewrite (convert_iter _ _ _ (map conv l)); [reflexivity|].
  induction l as [|f l IH]; cbn [map]; constructor; auto using convert_given.
Qed.
Lemma row_pick : forall A i (l : list (flat_arg A)) r, row i l r -> map (pick i) (map conv l) = map Leaf r.
Proof.
  intros A i l r H; induction H as [|a l r H IH|m a l r E H IH]; cbn [map]; [reflexivity| |]; rewrite IH; [reflexivity|].
  f_equal. cbn [conv pick]. apply nth_error_nth. rewrite nth_error_map, E. reflexivity.
Qed.
Lemma leaves_leaf : forall A (r : list A), leaves (map Leaf r) = r.
Proof. intros A r; induction r as [|a r IH]; [reflexivity|]. cbn [map leaves flat_map app]. f_equal. exact IH. Qed.
Lemma lists_leaf : forall A (r : list A), lists_of (map Leaf r) = [].
Proof. intros A r; induction r as [|a r IH]; [reflexivity|exact IH]. Qed.
Lemma lists_conv : forall A n (l : list (flat_arg A)), lists_have_length n l -> forall k, In k (lists_of (map conv l)) -> k = n.
Proof.
  intros A n l H k I. unfold lists_of in I. apply in_map_iff in I as (a & E & I). apply filter_In in I as [I M].
  apply in_map_iff in I as (f & F & I). destruct f as [x|m]; subst a; [discriminate|]. cbn in E. rewrite map_length in E. rewrite <- E. apply H, I.
Qed.
Lemma lists_conv_In : forall A (l : list (flat_arg A)) m, In (Some_of m) l -> In (length m) (lists_of (map conv l)).
Proof.
  intros A l m I. unfold lists_of. apply in_map_iff. exists (conv (Some_of m)). split; [cbn; apply map_length|]. apply filter_In. split; [apply in_map, I|reflexivity].
Qed.
Lemma depth_list : forall A (l : list A), depth (Many (map Leaf l)) = 1%nat.
Proof. intros A l. cbn [depth]. f_equal. induction l as [|a l IH]; [reflexivity|]. cbn [map list_max]. cbn. exact IH. Qed.
Lemma list_max_In : forall l k, In k l -> (k <= list_max l)%nat.
Proof. intros l k I. pose proof (proj1 (list_max_le l (list_max l)) (le_n _)) as F. rewrite Forall_forall in F. auto. Qed.
Lemma fuel_pos : forall (qs : list (flat_arg qubit)) (cs : list (flat_arg clbit)), some_list qs \/ some_list cs -> exists f, list_max (map depth (map conv qs) ++ map depth (map conv cs)) = S f.
Proof.
  intros qs cs H. assert (P : (1 <= list_max (map depth (map conv qs) ++ map depth (map conv cs)))%nat).
  { destruct H as [[m I]|[m I]]; (eapply Nat.le_trans; [|apply list_max_In; apply in_or_app]).
    - rewrite <- (depth_list _ m) at 1. apply le_n.
    - left. rewrite map_map. apply in_map_iff. exists (Some_of m). split; [reflexivity|exact I].
    - rewrite <- (depth_list _ m) at 1. apply le_n.
    - right. rewrite map_map. apply in_map_iff. exists (Some_of m). split; [reflexivity|exact I]. }
  exists (list_max (map depth (map conv qs) ++ map depth (map conv cs)) - 1)%nat. lia.
Qed.
Lemma leaf_args : forall fuel c op qs cs, append_args fuel c op (map Leaf qs) (map Leaf cs) = append_single c op qs cs.
Proof. intros. rewrite append_args_eq, !lists_leaf, !leaves_leaf. reflexivity. Qed.
Lemma fits_extend : forall c op qs cs l, fits c op qs cs -> fits (extend_with c l) op qs cs.
Proof. intros c op qs cs l H. exact H. Qed.
Lemma broadcast_ok : forall c op qs cs n rq rc, some_list qs \/ some_list cs -> lists_have_length n qs -> lists_have_length n cs ->
  (forall i, i < n -> row i qs (rq i) /\ row i cs (rc i) /\ fits c op (rq i) (rc i)) ->
  append c op (UIter (map given qs)) (UIter (map given cs)) = Ok (extend_with c (map (fun i => Instruction op (rq i) (rc i)) (seq 0 n))).
Proof.
  intros c op qs cs n rq rc SL Lq Lc R. unfold append. rewrite !convert_all.
  destruct (fuel_pos qs cs SL) as [f F]. rewrite F, append_args_eq.
  assert (All : forall k, In k (lists_of (map conv qs) ++ lists_of (map conv cs)) -> k = n).
  { intros k I. apply in_app_or in I as [I|I]; [eapply (lists_conv _ n qs)|eapply (lists_conv _ n cs)]; eassumption. }
  assert (NE : lists_of (map conv qs) ++ lists_of (map conv cs) <> []).
  { intros E. destruct SL as [[m I]|[m I]]; apply lists_conv_In in I.
    - assert (J : In (length m) []) by (rewrite <- E; apply in_or_app; auto). destruct J.
    - assert (J : In (length m) []) by (rewrite <- E; apply in_or_app; auto). destruct J. }
  destruct (lists_of (map conv qs) ++ lists_of (map conv cs)) as [|k l] eqn:D; [congruence|]. clear NE.
  assert (k = n) by (apply All; cbn; auto). subst k.
  replace (forallb (Nat.eqb n) (n :: l)) with true.
  2: { symmetry. apply forallb_forall. intros k I. apply Nat.eqb_eq. symmetry. apply All, I. }
  assert (G : forall m s c0, (s + m <= n)%nat -> (forall i, i < n -> row i qs (rq i) /\ row i cs (rc i) /\ fits c0 op (rq i) (rc i)) ->
     run_loop (fun i c => append_args f c op (map (pick i) (map conv qs)) (map (pick i) (map conv cs))) (seq s m) c0 = Ok (extend_with c0 (map (fun i => Instruction op (rq i) (rc i)) (seq s m)))).
  { induction m as [|m IH]; intros s c0 L R0; cbn [seq run_loop map].
    - unfold extend_with. rewrite app_nil_r. destruct c0; reflexivity.
    - destruct (R0 s ltac:(lia)) as (Rq & Rc & Fi). rewrite (row_pick _ _ _ _ Rq), (row_pick _ _ _ _ Rc), leaf_args, single_fits by exact Fi.
      rewrite IH; [|lia|exact R0]. unfold extend_with. cbn [cqubits cclbits cdata]. rewrite <- app_assoc. reflexivity. }
  apply (G n 0 c); [lia|exact R].
Qed.
Lemma scalar_eq : forall c op qs cs, append c op (UIter (map UObj qs)) (UIter (map UObj cs)) = append_single c op qs cs.
Proof.
  intros c op qs cs. unfold append.
  assert (E : forall A (reg : list A) l, convert_to_list reg (UIter (map UObj l)) = Some (map Leaf l)).
  { intros A reg l. unfold convert_to_list. rewrite (convert_iter _ _ _ (map Leaf l)); [reflexivity|]. induction l; cbn [map]; constructor; auto. }
  rewrite !E. apply leaf_args.
Qed.
Lemma scalar_ok : forall c op qs cs, (forall q, In q qs -> honest c q) ->
  (fits c op qs cs /\ append c op (UIter (map UObj qs)) (UIter (map UObj cs)) = Ok (extend_with c [Instruction op qs cs])) \/
  (~ fits c op qs cs /\ exists e, append c op (UIter (map UObj qs)) (UIter (map UObj cs)) = Raise e c).
Proof.
  intros c op qs cs H. rewrite scalar_eq. destruct (append_single c op qs cs) as [c'|e c'] eqn:E.
  - left. apply single_inv in E as [F ->]; auto.
  - right. split.
    + intros F. rewrite single_fits in E by exact F. discriminate.
    + apply single_raise in E as [-> _]. exists e; reflexivity.
Qed.
Lemma mismatch_ok : forall c op (qs : list (flat_arg qubit)) (cs : list (flat_arg clbit)),
  (exists k k', (list_length k qs \/ list_length k cs) /\ (list_length k' qs \/ list_length k' cs) /\ k <> k') ->
  append c op (UIter (map given qs)) (UIter (map given cs)) = Raise ECombine c.
Proof.
  intros c op qs cs H. unfold append. rewrite !convert_all, append_args_eq.
  assert (X : exists k k', In k (lists_of (map conv qs) ++ lists_of (map conv cs)) /\ In k' (lists_of (map conv qs) ++ lists_of (map conv cs)) /\ k <> k').
  { destruct H as (k & k' & I & J & N). exists k, k'. rewrite !in_app_iff. split; [|split; [|exact N]].
    - destruct I as [(m & I & <-)|(m & I & <-)]; apply lists_conv_In in I; auto.
    - destruct J as [(m & J & <-)|(m & J & <-)]; apply lists_conv_In in J; auto. }
  destruct X as (k & k' & I & J & N). destruct (lists_of (map conv qs) ++ lists_of (map conv cs)) as [|n l]; [destruct I|].
  replace (forallb (Nat.eqb n) (n :: l)) with false; [reflexivity|]. symmetry. apply not_true_iff_false. intros F. rewrite forallb_forall in F.
  apply F, Nat.eqb_eq in I. apply F, Nat.eqb_eq in J. congruence.
Qed.

(** * all arguments *)
Inductive leaf_of {A} : arg A -> A -> Prop :=
| leaf_here a : leaf_of (Leaf a) a
| leaf_there l b a : In b l -> leaf_of b a -> leaf_of (Many l) a.
Definition from {A} (reg : list A) (u : uarg A) (a : A) : Prop := passed u a \/ In a reg.
Lemma pyindex_In : forall A (l : list A) i a, pyindex l i = Some a -> In a l.
Proof. intros A l i a. unfold pyindex. destruct (Z.leb 0 i); [apply nth_error_In|]. destruct (Z.leb _ i); [apply nth_error_In|discriminate]. Qed.
Lemma uarg_ind' : forall A (P : uarg A -> Prop), (forall a, P (UObj a)) -> (forall i, P (UInt i)) -> (forall l, Forall P l -> P (UIter l)) -> forall u, P u.
Proof.
  intros A P H1 H2 H3. fix IH 1. intros [a|i|l]; [apply H1|apply H2|apply H3]. induction l as [|u l IHl]; constructor; auto.
Qed.
Lemma convert_leaf : forall A (reg : list A) u a, convert_item reg u = Some a -> forall q, leaf_of a q -> from reg u q.
Proof.
  intros A reg u. induction u as [x|i|l IH] using uarg_ind'; intros a E q L; cbn [convert_item] in E.
  - injection E as <-. inversion L; subst. left; constructor.
  - destruct (pyindex reg i) eqn:P; [|discriminate]. injection E as <-. inversion L; subst. right. eapply pyindex_In; eassumption.
  - destruct ((fix go l := match l with [] => Some [] | u :: l => match convert_item reg u, go l with Some b, Some m => Some (b :: m) | _, _ => None end end) l) as [m|] eqn:G; [|discriminate].
    injection E as <-. inversion L; subst.
    assert (X : forall b, In b m -> exists u, In u l /\ convert_item reg u = Some b).
    { clear - G. revert m G. induction l as [|u l IHl]; intros m G b I; [injection G as <-; destruct I|].
      destruct (convert_item reg u) eqn:C; [|discriminate]. destruct ((fix go l := match l with [] => Some [] | u :: l => match convert_item reg u, go l with Some b, Some m => Some (b :: m) | _, _ => None end end) l) eqn:G'; [|discriminate].
      injection G as <-. destruct I as [<-|I]; [exists u; cbn; auto|]. destruct (IHl _ eq_refl b I) as (v & J & E). exists v; cbn; auto. }
    destruct (X b H0) as (u & I & E). rewrite Forall_forall in IH. destruct (IH u I b E q H1) as [P|P]; [left; econstructor; eassumption|right; exact P].
Qed.
Lemma convert_list_leaf : forall A (reg : list A) u l, convert_to_list reg u = Some l -> forall b q, In b l -> leaf_of b q -> from reg u q.
Proof.
  intros A reg u l E b q I L. unfold convert_to_list in E. destruct (convert_item reg u) as [[a|m]|] eqn:C; [| |discriminate].
  - injection E as <-. destruct I as [<-|[]]. eapply convert_leaf; eassumption.
  - injection E as <-. eapply convert_leaf; [eassumption|]. econstructor; eassumption.
Qed.
Lemma pick_leaf : forall A i (a : arg A) q, leaf_of (pick i a) q -> leaf_of a q.
Proof.
  intros A i [x|l] q L; cbn [pick] in L; [exact L|]. destruct (nth_in_or_default i l (Many [])) as [I|E].
  - econstructor; eassumption.
  - rewrite E in L. inversion L; subst. destruct H0.
Qed.
Lemma leaves_In : forall A (l : list (arg A)) q, In q (leaves l) -> exists b, In b l /\ leaf_of b q.
Proof.
  intros A l q I. unfold leaves in I. apply in_flat_map in I as (b & J & K). exists b. split; [exact J|]. destruct b; [|destruct K]. destruct K as [->|[]]. constructor.
Qed.
Definition final (o : outcome) : circuit := match o with Ok c => c | Raise _ c => c end.
Lemma append_args_inv : forall fuel c op qs cs, (forall b q, In b qs -> leaf_of b q -> honest c q) ->
  exists new, final (append_args fuel c op qs cs) = extend_with c new /\ Forall (fun i => iop i = op /\ fits c op (iqubits i) (iclbits i)) new.
Proof.
  induction fuel as [|fuel IH]; intros c op qs cs H; rewrite append_args_eq.
  - destruct (lists_of qs ++ lists_of cs) as [|n l].
    + destruct (append_single c op (leaves qs) (leaves cs)) as [c'|e c'] eqn:E; cbn [final].
      * apply single_inv in E as [F ->]; [|intros q I; apply leaves_In in I as (b & I & L); eauto]. exists [Instruction op (leaves qs) (leaves cs)]. split; [reflexivity|]. constructor; [split; [reflexivity|exact F]|constructor].
      * apply single_raise in E as [-> _]. exists []. split; [|constructor]. unfold extend_with. rewrite app_nil_r. destruct c; reflexivity.
    + exists []. split; [|constructor]. unfold extend_with. rewrite app_nil_r. destruct (forallb _ _); destruct c; reflexivity.
  - destruct (lists_of qs ++ lists_of cs) as [|n l].
    + destruct (append_single c op (leaves qs) (leaves cs)) as [c'|e c'] eqn:E; cbn [final].
      * apply single_inv in E as [F ->]; [|intros q I; apply leaves_In in I as (b & I & L); eauto]. exists [Instruction op (leaves qs) (leaves cs)]. split; [reflexivity|]. constructor; [split; [reflexivity|exact F]|constructor].
      * apply single_raise in E as [-> _]. exists []. split; [|constructor]. unfold extend_with. rewrite app_nil_r. destruct c; reflexivity.
    + destruct (forallb _ _).
      2: { exists []. split; [|constructor]. unfold extend_with. rewrite app_nil_r. destruct c; reflexivity. }
      generalize (seq 0 n) as todo. intros todo. revert c H. induction todo as [|i todo IHt]; intros c H; cbn [run_loop].
      * exists []. split; [|constructor]. unfold extend_with. rewrite app_nil_r. destruct c; reflexivity.
      * destruct (IH c op (map (pick i) qs) (map (pick i) cs)) as (new & E & F).
        { intros b q I L. apply in_map_iff in I as (a & <- & I). apply (H a q I). eapply pick_leaf; eassumption. }
        destruct (append_args fuel c op (map (pick i) qs) (map (pick i) cs)) as [c'|e c']; cbn [final] in E; subst c'.
        -- destruct (IHt (extend_with c new) H) as (new' & E' & F'). exists (new ++ new'). rewrite E'. split.
           ++ unfold extend_with. cbn [cqubits cclbits cdata]. rewrite <- app_assoc. reflexivity.
           ++ apply Forall_app. split; [exact F|exact F'].
        -- exists new. split; [reflexivity|exact F].
Qed.
Lemma append_inv : forall c op qubits clbits, (forall q, passed qubits q -> honest c q) ->
  exists new, final (append c op qubits clbits) = extend_with c new /\ Forall (fun i => iop i = op /\ fits c op (iqubits i) (iclbits i)) new.
Proof.
  intros c op qubits clbits H. unfold append.
  assert (N : exists new, c = extend_with c new /\ Forall (fun i => iop i = op /\ fits c op (iqubits i) (iclbits i)) new).
  { exists []. split; [|constructor]. unfold extend_with. rewrite app_nil_r. destruct c; reflexivity. }
  destruct (convert_to_list (cqubits c) qubits) as [qs|] eqn:Q; [|exact N].
  destruct (convert_to_list (cclbits c) clbits) as [cs|] eqn:C; [|exact N].
  apply append_args_inv. intros b q I L. destruct (convert_list_leaf _ _ _ _ Q b q I L) as [P|P]; [apply H, P|left; exact P].
Qed.
(** the fuel is sufficient *)
Lemma depth_pick : forall A i (a : arg A) f, (is_many a = true -> i < length (items a)) -> depth a <= S f -> depth (pick i a) <= f.
Proof.
  intros A i [x|l] f H D; cbn [pick]; [cbn; lia|]. specialize (H eq_refl). cbn [items] in H. cbn [depth] in D.
  pose proof (list_max_In (map depth l) _ (in_map depth l _ (nth_In l (Many []) H))). lia.
Qed.
Lemma append_args_fuel : forall fuel c op qs cs, (forall a, In a qs -> depth a <= fuel) -> (forall a, In a cs -> depth a <= fuel) ->
  forall e c', append_args fuel c op qs cs = Raise e c' -> e <> EFuel.
Proof.
  induction fuel as [|fuel IH]; intros c op qs cs Hq Hc e c' E; rewrite append_args_eq in E.
  - assert (N : forall A (l : list (arg A)), (forall a, In a l -> depth a <= 0) -> lists_of l = []).
    { intros A l H. unfold lists_of. induction l as [|[x|m] l IHl]; [reflexivity| |]; cbn [filter is_many].
      - apply IHl. intros; apply H; cbn; auto.
      - specialize (H (Many m) (or_introl eq_refl)). cbn [depth] in H. lia. }
    rewrite (N _ qs Hq), (N _ cs Hc) in E. cbn [app] in E. apply single_raise in E. tauto.
  - destruct (lists_of qs ++ lists_of cs) as [|n l] eqn:D; [apply single_raise in E; tauto|].
    destruct (forallb _ _) eqn:F; [|congruence].
    assert (A : forall k, In k (lists_of qs ++ lists_of cs) -> k = n).
    { intros k I. rewrite D in I. rewrite forallb_forall in F. apply F, Nat.eqb_eq in I. auto. }
    assert (T : forall i, In i (seq 0 n) -> i < n) by (intros i I; apply in_seq in I; lia). revert E T. generalize (seq 0 n) as todo. intros todo. revert c.
    induction todo as [|i todo IHt]; intros c E T; cbn [run_loop] in E; [discriminate|].
    destruct (append_args fuel c op (map (pick i) qs) (map (pick i) cs)) as [c0|e0 c0] eqn:X.
    + eapply IHt; [exact E|]. intros; apply T; cbn; auto.
    + injection E as <- <-. assert (Hi : i < n) by (apply T; cbn; auto). eapply IH; [| |exact X].
      * intros a I. apply in_map_iff in I as (b & <- & I). apply depth_pick; [|apply Hq, I]. intros M. rewrite (A (length (items b))); [exact Hi|].
        apply in_or_app; left. unfold lists_of. apply (in_map (fun a => length (items a))). apply filter_In; auto.
      * intros a I. apply in_map_iff in I as (b & <- & I). apply depth_pick; [|apply Hc, I]. intros M. rewrite (A (length (items b))); [exact Hi|].
        apply in_or_app; right. unfold lists_of. apply (in_map (fun a => length (items a))). apply filter_In; auto.
Qed.
Lemma append_fuel : forall c op qubits clbits e c', append c op qubits clbits = Raise e c' -> e <> EFuel.
Proof.
  intros c op qubits clbits e c' E. unfold append in E.
  destruct (convert_to_list (cqubits c) qubits) as [qs|]; [|congruence]. destruct (convert_to_list (cclbits c) clbits) as [cs|]; [|congruence].
  eapply append_args_fuel; [| |exact E]; intros a I; apply list_max_In, in_or_app; [left|right]; apply in_map, I.
Qed.

(** integers *)
Lemma convert_ext : forall A (reg : list A) l m, Forall2 (fun u v => convert_item reg u = convert_item reg v) l m -> convert_item reg (UIter l) = convert_item reg (UIter m).
Proof.
  intros A reg l m H. cbn [convert_item].
  assert (G : forall l m, Forall2 (fun u v => convert_item reg u = convert_item reg v) l m ->
   (fix go l := match l with [] => Some [] | u :: l => match convert_item reg u, go l with Some b, Some m => Some (b :: m) | _, _ => None end end) l =
   (fix go l := match l with [] => Some [] | u :: l => match convert_item reg u, go l with Some b, Some m => Some (b :: m) | _, _ => None end end) m).
  { intros l0 m0 F. induction F as [|u v l0 m0 E F IH]; [reflexivity|]. rewrite E, IH. reflexivity. }
  rewrite (G l m H). reflexivity.
Qed.
Lemma integers_ok : forall c op (is : list Z) (qs : list qubit) clbits,
  Forall2 (fun i q => (0 <= i)%Z /\ nth_error (cqubits c) (Z.to_nat i) = Some q \/ (i < 0)%Z /\ exists k, nth_error (cqubits c) k = Some q /\ (Z.of_nat k = Z.of_nat (length (cqubits c)) + i)%Z) is qs ->
  append c op (UIter (map UInt is)) clbits = append c op (UIter (map UObj qs)) clbits.
Proof.
  intros c op is qs clbits H. unfold append, convert_to_list. rewrite (convert_ext _ _ (map UInt is) (map UObj qs)); [reflexivity|].
  induction H as [|i q is qs E H IH]; cbn [map]; constructor; [|exact IH]. cbn [convert_item]. unfold pyindex.
  destruct E as [[P E]|[P (k & E & K)]].
  - apply Z.leb_le in P. rewrite P, E. reflexivity.
  - replace (Z.leb 0 i) with false by (symmetry; apply Z.leb_gt; exact P).
    assert (k < length (cqubits c))%nat by (apply nth_error_Some; congruence).
    replace (Z.leb (- Z.of_nat (length (cqubits c))) i) with true by (symmetry; apply Z.leb_le; lia).
    replace (Z.to_nat (Z.of_nat (length (cqubits c)) + i)) with k by lia. rewrite E. reflexivity.
Qed.
Lemma integers_out : forall c op (is : list Z) clbits i, In i is -> (Z.of_nat (length (cqubits c)) <= i \/ i < - Z.of_nat (length (cqubits c)))%Z ->
  append c op (UIter (map UInt is)) clbits = Raise EConvert c.
Proof.
  intros c op is clbits i I O. unfold append, convert_to_list.
  assert (N : convert_item (cqubits c) (UIter (map UInt is)) = None).
  { cbn [convert_item].
    assert (G : (fix go l := match l with [] => Some [] | u :: l => match convert_item (cqubits c) u, go l with Some b, Some m => Some (b :: m) | _, _ => None end end) (map UInt is) = None).
    { induction is as [|j is IH]; [destruct I|]. cbn [map]. destruct I as [->|I].
      - cbn [convert_item]. replace (pyindex (cqubits c) i) with (@None qubit); [reflexivity|]. symmetry. unfold pyindex.
        destruct (Z.leb_spec 0 i); [apply nth_error_None; lia|]. destruct (Z.leb_spec (- Z.of_nat (length (cqubits c))) i); [lia|reflexivity].
      - rewrite (IH I). destruct (convert_item _ _); reflexivity. }
    rewrite G. reflexivity. }
  rewrite N. reflexivity.
Qed.

(** * statements *)
Lemma broadcast_ext : forall c op qs cs n rq rc, some_list qs \/ some_list cs -> lists_have_length n qs -> lists_have_length n cs ->
  (forall i, i < n -> row i qs (rq i) /\ row i cs (rc i) /\ fits c op (rq i) (rc i)) ->
  exists c', append c op (UIter (map given qs)) (UIter (map given cs)) = Ok c' /\ extended c c' (map (fun i => Instruction op (rq i) (rc i)) (seq 0 n)).
Proof. intros. eexists. split; [apply broadcast_ok; eassumption|]. unfold extended. auto. Qed.
Lemma scalar_ext : forall c op qs cs, (forall q, In q qs -> honest c q) ->
  (fits c op qs cs -> exists c', append c op (UIter (map UObj qs)) (UIter (map UObj cs)) = Ok c' /\ extended c c' [Instruction op qs cs]) /\
  (~ fits c op qs cs -> exists e, append c op (UIter (map UObj qs)) (UIter (map UObj cs)) = Raise e c).
Proof.
  intros c op qs cs H. destruct (scalar_ok c op qs cs H) as [[F E]|[F E]]; [|tauto].
  split; [|tauto]. intros _. eexists. split; [exact E|]. unfold extended; auto.
Qed.
Lemma append_ext : forall c op qubits clbits, (forall q, passed qubits q -> honest c q) ->
  exists new, extended c (left_behind (append c op qubits clbits)) new /\ Forall (fun i => iop i = op /\ fits c op (iqubits i) (iclbits i)) new.
Proof.
  intros c op qubits clbits H. destruct (append_inv c op qubits clbits H) as (new & E & F). exists new. split; [|exact F].
  change (left_behind (append c op qubits clbits)) with (final (append c op qubits clbits)). rewrite E. unfold extended; auto.
Qed.
