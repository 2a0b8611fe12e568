(** The gates of change_of_basis turn commuting Pauli terms into products of Z. *)
From Coq Require Import Permutation Ring.
From Verif.Operators Require Import PauliProofs CommuteProofs OpProofs.
From Verif.Commuting Require Import Gf2Proofs BasisProofs BasisMain DiagSpec PauliAct.
Local Open Scope nat_scope.
Add Ring gaussianE : gring.

(** ** sums and products *)
Lemma parity_xsum m f : parity m f = xsum m f.
Proof. unfold parity. induction m as [|m IH]; [reflexivity|]. rewrite seq_S, fold_left_app. cbn [fold_left plus xsum]. rewrite IH. reflexivity. Qed.
Fixpoint lx {A} (l : list A) (f : A -> bool) : bool := match l with [] => false | x :: l => xorb (f x) (lx l f) end.
Lemma lx_app {A} (a b : list A) f : lx (a ++ b) f = xorb (lx a f) (lx b f).
Proof. induction a as [|y a IH]; cbn; [destruct (lx b f); reflexivity|]. rewrite IH. apply eq_sym, xorb_assoc. Qed.
Lemma lx_flat {A B} (g : A -> list B) l f : lx (flat_map g l) f = lx l (fun a => lx (g a) f).
Proof. induction l as [|a l IH]; cbn; [reflexivity|]. rewrite lx_app, IH. reflexivity. Qed.
Lemma lx_seq m f : lx (seq 0 m) f = xsum m f.
Proof. induction m as [|m IH]; [reflexivity|]. rewrite seq_S, lx_app, IH. cbn [lx plus xsum]. rewrite xorb_false_r. reflexivity. Qed.
Lemma lx_ext {A} (l : list A) f g : (forall x, In x l -> f x = g x) -> lx l f = lx l g.
Proof. induction l as [|a l IH]; intros H; cbn; [reflexivity|]. rewrite (H a) by (left; reflexivity). rewrite IH by (intros x Hx; apply H; right; exact Hx). reflexivity. Qed.
Lemma lx_lxsum l f : lx l f = lxsum l f. Proof. induction l as [|a l IH]; cbn; [reflexivity|]. rewrite IH. reflexivity. Qed.
Lemma lx_0 {A} (l : list A) f : (forall x, In x l -> f x = false) -> lx l f = false.
Proof. induction l as [|a l IH]; intros H; cbn; [reflexivity|]. rewrite (H a) by (left; reflexivity). rewrite xorb_false_l. apply IH. intros x Hx. apply H. right. exact Hx. Qed.
Lemma lx_map {A B} (g : A -> B) l f : lx (map g l) f = lx l (fun x => f (g x)).
Proof. induction l as [|a l IH]; cbn; [reflexivity|]. rewrite IH. reflexivity. Qed.
Lemma xsum_prefix m i g : i <= m -> xsum i g = xsum m (fun j => (j <? i) && g j).
Proof.
  induction m as [|m IH]; intros H; [replace i with 0 by lia; reflexivity|]. cbn [xsum]. destruct (Nat.eq_dec i (S m)) as [->|N].
  - cbn [xsum]. f_equal; [apply xsum_ext; intros j Hj; destruct (Nat.ltb_spec j (S m)); [reflexivity|lia]|]. destruct (Nat.ltb_spec m (S m)); [reflexivity|lia].
  - rewrite IH by lia. destruct (Nat.ltb_spec m i); [lia|]. cbn. rewrite xorb_false_r. reflexivity.
Qed.
Lemma gprod_map (g : nat -> nat) l f : gprod (map g l) f = gprod l (fun i => f (g i)).
Proof. induction l as [|a l IH]; cbn; [reflexivity|]. rewrite IH. reflexivity. Qed.
Lemma gprod_ext l f g : (forall x, In x l -> f x = g x) -> gprod l f = gprod l g.
Proof. induction l as [|a l IH]; intros H; cbn; [reflexivity|]. rewrite (H a) by (left; reflexivity). rewrite IH by (intros x Hx; apply H; right; exact Hx). reflexivity. Qed.
Lemma gprod_mul l f g : gprod l (fun i => gmul (f i) (g i)) = gmul (gprod l f) (gprod l g).
Proof. induction l as [|a l IH]; cbn; [ring|]. rewrite IH. ring. Qed.
Lemma gprod_sg l (b : nat -> bool) : gprod l (fun i => sg (b i)) = sg (lx l b).
Proof. induction l as [|a l IH]; cbn; [reflexivity|]. rewrite IH, sg_xor. reflexivity. Qed.
Lemma gprod_ipow l (b : nat -> bool) : gprod l (fun i => if b i then gi else g1) = ipow (length (filter b l)).
Proof. induction l as [|a l IH]; cbn; [reflexivity|]. rewrite IH. destruct (b a); cbn [length ipow]; [reflexivity|ring]. Qed.
Lemma gprod_mem m l f : NoDup l -> (forall i, In i l -> i < m) -> gprod l f = gprod (seq 0 m) (fun i => if mem i l then f i else g1).
Proof.
  intros N B. rewrite (gprod_sub m l (fun i => if mem i l then f i else g1) N B).
  - apply gprod_ext. intros i Hi. apply mem_In in Hi. rewrite Hi. reflexivity.
  - intros k Hk. apply mem_false in Hk. rewrite Hk. reflexivity.
Qed.
Lemma lx_mem m l f : NoDup l -> (forall i, In i l -> i < m) -> lx l f = xsum m (fun i => mem i l && f i).
Proof.
  intros N B. rewrite (xsum_support m l _ N B).
  - rewrite <- lx_lxsum. apply lx_ext. intros i Hi. apply mem_In in Hi. rewrite Hi. reflexivity.
  - intros q _ Hq. apply mem_false in Hq. rewrite Hq. reflexivity.
Qed.

(** ** the blocks of the circuit *)
Lemma h_block l : NoDup l -> forall p xs zs, exists xs' zs', fold_left tstep (map GH l) (p, xs, zs) = (gmul p (sg (lx l (fun q => xs q && zs q))), xs', zs') /\
  (forall q, xs' q = if mem q l then zs q else xs q) /\ (forall q, zs' q = if mem q l then xs q else zs q).
Proof.
  induction l as [|h l IH]; intros N p xs zs.
  - exists xs, zs. cbn. split; [|split; reflexivity]. do 2 f_equal. destruct p; unfold gmul, g1; cbn [fst snd]; f_equal; ring.
  - inversion N as [|? ? Hh Nl]; subst. cbn [map fold_left tstep lx]. destruct (IH Nl (gmul p (sg (xs h && zs h))) (updf xs h (zs h)) (updf zs h (xs h))) as (xs' & zs' & E & X & Z).
    exists xs', zs'. rewrite E. split; [|split; intros q; rewrite ?X, ?Z; unfold updf, mem; cbn [existsb]; destruct (Nat.eqb_spec q h) as [->|D]; cbn [orb]; try reflexivity; fold (mem h l); replace (mem h l) with false by (symmetry; apply mem_false; exact Hh); reflexivity].
    do 2 f_equal. rewrite sg_xor. rewrite (lx_ext l _ (fun q => xs q && zs q)); [ring|]. intros q Hq. unfold updf. destruct (Nat.eqb_spec q h) as [->|D]; [contradiction|reflexivity].
Qed.
Lemma s_block l : NoDup l -> forall p xs zs, exists zs', fold_left tstep (map GS l) (p, xs, zs) = (gmul p (gprod l (fun q => if xs q then gi else g1)), xs, zs') /\
  (forall q, zs' q = xorb (zs q) (mem q l && xs q)).
Proof.
  induction l as [|h l IH]; intros N p xs zs.
  - exists zs. cbn. split; [|intros q; rewrite xorb_false_r; reflexivity]. do 2 f_equal. destruct p; unfold gmul, g1; cbn [fst snd]; f_equal; ring.
  - inversion N as [|? ? Hh Nl]; subst. cbn [map fold_left tstep gprod]. destruct (IH Nl (gmul p (if xs h then gi else g1)) xs (updf zs h (xorb (zs h) (xs h)))) as (zs' & E & Z).
    exists zs'. rewrite E. split; [do 2 f_equal; ring|]. intros q. rewrite Z. unfold updf, mem. cbn [existsb]. destruct (Nat.eqb_spec q h) as [->|D]; cbn [orb]; [|reflexivity].
    fold (mem h l). replace (mem h l) with false by (symmetry; apply mem_false; exact Hh). rewrite xorb_false_r. reflexivity.
Qed.
Definition cz (e : nat * nat) : gate := GCZ (fst e) (snd e).
Lemma cz_block es : (forall e, In e es -> fst e <> snd e) -> forall p xs zs, exists zs', fold_left tstep (map cz es) (p, xs, zs) = (gmul p (sg (lx es (fun e => xs (fst e) && xs (snd e)))), xs, zs') /\
  (forall q, zs' q = xorb (zs q) (lx es (fun e => xorb ((q =? fst e) && xs (snd e)) ((q =? snd e) && xs (fst e))))).
Proof.
  induction es as [|[a b] es IH]; intros N p xs zs.
  - exists zs. cbn. split; [|intros q; rewrite xorb_false_r; reflexivity]. do 2 f_equal. destruct p; unfold gmul, g1; cbn [fst snd]; f_equal; ring.
  - cbn [map fold_left cz tstep lx fst snd]. assert (D := N (a, b) (or_introl eq_refl)). cbn in D.
    destruct (IH (fun e H => N e (or_intror H)) (gmul p (sg (xs a && xs b))) xs (updf (updf zs a (xorb (zs a) (xs b))) b (xorb (zs b) (xs a)))) as (zs' & E & Z).
    exists zs'. rewrite E. split; [do 2 f_equal; rewrite sg_xor; ring|]. intros q. rewrite Z. unfold updf.
    destruct (Nat.eqb_spec q b) as [->|Db]; [destruct (Nat.eqb_spec b a); [congruence|]|destruct (Nat.eqb_spec q a) as [->|Da]]; cbn [andb]; rewrite ?xorb_false_l, ?xorb_false_r, ?xorb_assoc; reflexivity.
Qed.

(** ** one term *)
Lemma map_nth_NoDup qb l : NoDup qb -> NoDup l -> (forall i, In i l -> i < length qb) -> NoDup (map (fun i => nth i qb 0) l).
Proof.
  intros Nqb. induction l as [|a l IH]; intros N H; cbn; constructor; inversion N as [|? ? Ha Nl]; subst.
  - intros C. apply in_map_iff in C. destruct C as (i & E & Hi). apply (proj1 (NoDup_nth qb 0) Nqb) in E; [subst; contradiction| |]; apply H; [right; exact Hi|left; reflexivity].
  - apply IH; [exact Nl|]. intros i Hi. apply H. right. exact Hi.
Qed.
Section one.
Variables (n : nat) (qb : list nat) (B : basis) (x0 z0 : nat -> bool) (c : nat).
Let m := length qb.
Hypothesis Nqb : NoDup qb.
Hypothesis Bqb : forall q, In q qb -> q < n.
Hypothesis off : forall q, ~ In q qb -> x0 q = false /\ z0 q = false.
Hypothesis Pm : is_perm m (perm B).
Hypothesis Nh : NoDup (h_list B).
Hypothesis Bh : forall i, In i (h_list B) -> i < m.
Hypothesis Ns : NoDup (s_list B).
Hypothesis Bs : forall i, In i (s_list B) -> i < m.
Hypothesis Sym : forall i j, i < m -> j < m -> adj B i j = adj B j i.
Hypothesis Dia : forall i, i < m -> adj B i i = false.
Let pm i := nth i (perm B) 0.
Let at_ i := nth (pm i) qb 0.
Let S : mat := fun i _ => if i <? m then z0 (nth i qb 0) else x0 (nth (i - m) qb 0).
Hypothesis Rx : forall i, i < m -> r_inv B i c = x_after m (h_list B) S (pm i) c.
Hypothesis Rz : forall i, i < m -> xsum m (fun j => adj B i j && r_inv B j c) = xorb (z_after m (h_list B) S (pm i) c) (mem i (s_list B) && r_inv B i c).

Lemma pm_lt i : i < m -> pm i < m. Proof. apply Pm. Qed.
Lemma at_In i : i < m -> In (at_ i) qb. Proof. intros H. apply nth_In, pm_lt, H. Qed.
Lemma at_lt i : i < m -> at_ i < n. Proof. intros H. apply Bqb, at_In, H. Qed.
Lemma at_inj i j : i < m -> j < m -> at_ i = at_ j -> i = j.
Proof. intros Hi Hj E. destruct Pm as (_ & _ & I). apply I; auto. apply (proj1 (NoDup_nth qb 0) Nqb); auto; apply pm_lt; assumption. Qed.
Lemma at_onto q : In q qb -> exists i, i < m /\ at_ i = q.
Proof. intros H. apply (In_nth _ _ 0) in H. destruct H as (u & Hu & <-). destruct (is_perm_onto m (perm B) u Pm Hu) as (i & Hi & E). exists i. split; [exact Hi|]. unfold at_, pm. rewrite E. reflexivity. Qed.
Lemma at_NoDup l : NoDup l -> (forall i, In i l -> i < m) -> NoDup (map at_ l).
Proof.
  induction l as [|a l IH]; intros N H; cbn; constructor; inversion N as [|? ? Ha Nl]; subst.
  - intros C. apply in_map_iff in C. destruct C as (i & E & Hi). apply Ha. apply at_inj in E; [subst; exact Hi| |]; apply H; [right; exact Hi|left; reflexivity].
  - apply IH; [exact Nl|]. intros i Hi. apply H. right. exact Hi.
Qed.
Lemma mem_at l i : (forall j, In j l -> j < m) -> i < m -> mem (at_ i) (map at_ l) = mem i l.
Proof.
  intros H Hi. destruct (mem i l) eqn:E.
  - apply mem_In, in_map. apply mem_In. exact E.
  - apply mem_false. intros C. apply in_map_iff in C. destruct C as (j & Ej & Hj). apply at_inj in Ej; [|apply H; exact Hj|exact Hi]. subst. apply mem_false in E. contradiction.
Qed.
Let hq := map (fun i => nth i qb 0) (h_list B).
Lemma hq_NoDup : NoDup hq. Proof. exact (map_nth_NoDup qb (h_list B) Nqb Nh Bh). Qed.
Lemma mem_hq i : i < m -> mem (nth i qb 0) hq = mem i (h_list B).
Proof.
  intros Hi. unfold hq. destruct (mem i (h_list B)) eqn:E.
  - apply mem_In, (in_map (fun i => nth i qb 0)), mem_In, E.
  - apply mem_false. intros C. apply in_map_iff in C. destruct C as (j & Ej & Hj). apply (proj1 (NoDup_nth qb 0) Nqb) in Ej; [|apply Bh; exact Hj|exact Hi]. subst. apply mem_false in E. contradiction.
Qed.
Lemma hq_in q : mem q hq = true -> In q qb.
Proof. intros H. apply mem_In in H. unfold hq in H. apply in_map_iff in H. destruct H as (i & <- & Hi). apply nth_In, Bh, Hi. Qed.

(* the bits after the Hadamard gates *)
Let x1 q := if mem q hq then z0 q else x0 q.
Let z1 q := if mem q hq then x0 q else z0 q.
Lemma x1_at i : i < m -> x1 (at_ i) = r_inv B i c.
Proof.
  intros Hi. rewrite Rx by exact Hi. unfold x1, x_after, at_. rewrite mem_hq by (apply pm_lt, Hi). unfold S.
  destruct (mem (pm i) (h_list B)).
  - destruct (Nat.ltb_spec (pm i) m); [reflexivity|]. assert (H0 := pm_lt i Hi). lia.
  - destruct (Nat.ltb_spec (m + pm i) m); [lia|]. replace (m + pm i - m) with (pm i) by lia. reflexivity.
Qed.
Lemma z1_at i : i < m -> z1 (at_ i) = xorb (xsum m (fun j => adj B i j && r_inv B j c)) (mem i (s_list B) && r_inv B i c).
Proof.
  intros Hi. rewrite Rz by exact Hi. rewrite xorb_assoc, xorb_nilpotent, xorb_false_r. unfold z1, z_after, at_. rewrite mem_hq by (apply pm_lt, Hi). unfold S.
  destruct (mem (pm i) (h_list B)).
  - destruct (Nat.ltb_spec (m + pm i) m); [lia|]. replace (m + pm i - m) with (pm i) by lia. reflexivity.
  - destruct (Nat.ltb_spec (pm i) m); [reflexivity|]. assert (H0 := pm_lt i Hi). lia.
Qed.
Lemma off1 q : ~ In q qb -> x1 q = false /\ z1 q = false.
Proof. intros H. unfold x1, z1. destruct (mem q hq) eqn:E; [apply hq_in in E; contradiction|]. apply off, H. Qed.
Lemma xz1 q : x1 q && z1 q = x0 q && z0 q. Proof. unfold x1, z1. destruct (mem q hq); [apply andb_comm|reflexivity]. Qed.

(* the edges of the graph *)
Let es := flat_map (fun i => flat_map (fun j => if adj B i j then [(at_ i, at_ j)] else []) (seq 0 i)) (seq 0 m).
Lemma gates_split : gates qb B = map GH hq ++ map GS (map at_ (s_list B)) ++ map cz es ++ map GH qb.
Proof.
  unfold gates. fold m. unfold hq. rewrite !map_map. f_equal. f_equal. f_equal. unfold es.
  assert (FM : forall {X Y Z} (g : Y -> Z) (f : X -> list Y) l, map g (flat_map f l) = flat_map (fun x => map g (f x)) l) by (intros X Y Z g f l; induction l as [|a l IH]; cbn; [reflexivity|rewrite map_app, IH; reflexivity]).
  rewrite FM. apply flat_map_ext. intros i. rewrite FM. apply flat_map_ext. intros j. destruct (adj B i j); reflexivity.
Qed.
Lemma es_In e : In e es -> exists i j, j < i /\ i < m /\ e = (at_ i, at_ j).
Proof.
  intros H. unfold es in H. apply in_flat_map in H. destruct H as (i & Hi & H). apply in_flat_map in H. destruct H as (j & Hj & H). apply in_seq in Hi, Hj.
  destruct (adj B i j); [|contradiction]. destruct H as [<-|[]]. exists i, j. repeat split; lia.
Qed.
Lemma gates_ok g : In g (gates qb B) -> gate_ok n g.
Proof.
  rewrite gates_split, !in_app_iff. intros [H|[H|[H|H]]]; apply in_map_iff in H; destruct H as (q & <- & H); cbn [gate_ok cz].
  - apply Bqb, hq_in, mem_In, H.
  - apply in_map_iff in H. destruct H as (i & <- & Hi). apply at_lt, Bs, Hi.
  - destruct (es_In q H) as (i & j & Hj & Hi & ->). cbn [fst snd]. repeat split; try (apply at_lt; lia). intros E. apply at_inj in E; lia.
  - apply Bqb, H.
Qed.
Lemma es_sum f : lx es f = xsum m (fun i => xsum m (fun j => (j <? i) && (adj B i j && f (at_ i, at_ j)))).
Proof.
  unfold es. rewrite lx_flat, lx_seq. apply xsum_ext. intros i Hi. rewrite lx_flat, lx_seq, (xsum_prefix m i) by lia. apply xsum_ext. intros j Hj.
  destruct (j <? i), (adj B i j); cbn; rewrite ?xorb_false_r; reflexivity.
Qed.
Lemma es_neighbours i : i < m -> lx es (fun e => xorb ((at_ i =? fst e) && x1 (snd e)) ((at_ i =? snd e) && x1 (fst e))) = xsum m (fun j => adj B i j && x1 (at_ j)).
Proof.
  intros Hi. rewrite es_sum. cbn [fst snd].
  assert (Ea : forall j, j < m -> (at_ i =? at_ j) = (i =? j)).
  { intros j Hj. destruct (Nat.eqb_spec i j) as [->|D]; [apply Nat.eqb_refl|]. apply Nat.eqb_neq. intros E. apply D, at_inj; assumption. }
  rewrite (xsum_ext m _ (fun a => xorb ((i =? a) && xsum m (fun j => (j <? a) && (adj B a j && x1 (at_ j)))) (xsum m (fun j => (i =? j) && ((j <? a) && (adj B a j && x1 (at_ a))))))).
  2:{ intros a Ha. rewrite <- xsum_and, <- xsum_xor. apply xsum_ext. intros j Hj. rewrite !Ea by assumption. destruct (j <? a), (adj B a j), (i =? a), (i =? j), (x1 (at_ a)), (x1 (at_ j)); reflexivity. }
  rewrite xsum_xor, xsum_delta by exact Hi. rewrite (xsum_ext m (fun a => xsum m _) (fun a => (i <? a) && (adj B a i && x1 (at_ a)))) by (intros a Ha; rewrite xsum_delta by exact Hi; reflexivity).
  rewrite <- xsum_xor. apply xsum_ext. intros j Hj. rewrite (Sym j i) by assumption. destruct (Nat.ltb_spec j i), (Nat.ltb_spec i j); try lia; cbn [andb]; [apply xorb_false_r|apply xorb_false_l|].
  assert (j = i) by lia. subst. rewrite Dia by exact Hi. reflexivity.
Qed.
(* the correct sign *)
Definition true_sign : bool := xorb (xsum m (fun i => mem i (s_list B) && (x0 (at_ i) && z0 (at_ i)))) (xsum m (fun q => mem q (h_list B) && (x0 (nth q qb 0) && z0 (nth q qb 0)))).
Definition result_phase : G := let z i := r_inv B i c in gmul (minus1 true_sign) (gmul (minus1 (n1 m (adj B) z)) (ipow (n2 m (adj B) z))).
Lemma phase_ok : gmul (gmul (gmul (gprod (seq 0 n) (fun q => if x0 q && z0 q then gi else g1)) (sg (lx hq (fun q => x0 q && z0 q)))) (gprod (map at_ (s_list B)) (fun q => if x1 q then gi else g1)))
  (sg (lx es (fun e => x1 (fst e) && x1 (snd e)))) = result_phase.
Proof.
  assert (P0 : gprod (seq 0 n) (fun q => if x0 q && z0 q then gi else g1) = gprod (seq 0 m) (fun i => if x1 (at_ i) && z1 (at_ i) then gi else g1)).
  { rewrite (gprod_sub n (map at_ (seq 0 m))).
    - rewrite gprod_map. apply gprod_ext. intros i _. rewrite xz1. reflexivity.
    - apply at_NoDup; [apply seq_NoDup|]. intros i Hi. apply in_seq in Hi. lia.
    - intros k Hk. apply in_map_iff in Hk. destruct Hk as (i & <- & Hi). apply in_seq in Hi. apply at_lt. lia.
    - intros k Hk. destruct (off k) as [-> _]; [|reflexivity]. intros C. apply Hk. destruct (at_onto k C) as (i & Hi & <-). apply in_map, in_seq. lia. }
  assert (H1 : lx hq (fun q => x0 q && z0 q) = xsum m (fun q => mem q (h_list B) && (x0 (nth q qb 0) && z0 (nth q qb 0)))) by (unfold hq; rewrite lx_map; apply lx_mem; assumption).
  rewrite gprod_map, (gprod_mem m (s_list B)) by assumption.
  assert (N1 : lx es (fun e => x1 (fst e) && x1 (snd e)) = n1 m (adj B) (fun i => r_inv B i c)).
  { rewrite es_sum. unfold n1. rewrite parity_xsum. rewrite xsum_swap. apply xsum_ext. intros j Hj. rewrite parity_xsum, <- xsum_and_r. apply xsum_ext. intros i Hi. cbn [fst snd]. rewrite !x1_at by assumption.
    destruct (Nat.ltb_spec j i), (Nat.leb_spec j i); try lia; try (destruct (adj B i j), (r_inv B i c), (r_inv B j c); reflexivity). assert (i = j) by lia. subst. rewrite Dia by exact Hj. cbn. rewrite andb_false_r. reflexivity. }
  rewrite N1, P0, H1. unfold result_phase. unfold n2. rewrite <- gprod_ipow.
  set (s1 := gprod (seq 0 m) (fun i => if x1 (at_ i) && z1 (at_ i) then gi else g1)). set (s2 := gprod (seq 0 m) (fun i => if mem i (s_list B) then if x1 (at_ i) then gi else g1 else g1)).
  assert (E : gmul s1 s2 = gmul (sg (xsum m (fun i => mem i (s_list B) && (x0 (at_ i) && z0 (at_ i))))) (gprod (seq 0 m) (fun i => if parity m (fun i0 => r_inv B i0 c && adj B i0 i) && r_inv B i c then gi else g1))).
  { rewrite <- lx_seq, <- gprod_sg, <- gprod_mul. unfold s1, s2. rewrite <- gprod_mul. apply gprod_ext. intros i Hi. apply in_seq in Hi. assert (Hi' : i < m) by lia.
    rewrite <- xz1, z1_at, x1_at by exact Hi'. rewrite parity_xsum. rewrite (xsum_ext m (fun j => r_inv B j c && adj B j i) (fun j => adj B i j && r_inv B j c)) by (intros j Hj; rewrite (Sym j i) by assumption; apply andb_comm).
    generalize (xsum m (fun j => adj B i j && r_inv B j c)). intros u. destruct u, (r_inv B i c), (mem i (s_list B)); reflexivity. }
  unfold true_sign. change minus1 with sg. rewrite sg_xor. set (a := sg (xsum m (fun q => _ && _))). set (b := sg (n1 _ _ _)).
  transitivity (gmul (gmul s1 s2) (gmul a b)); [ring|]. rewrite E. unfold a, b. ring.
Qed.
Lemma final_tab : teq n (fold_left tstep (gates qb B) (gprod (seq 0 n) (fun q => if x0 q && z0 q then gi else g1), x0, z0)) (result_phase, fun _ => false, x1).
Proof.
  rewrite gates_split, !fold_left_app. set (p0 := gprod _ _).
  destruct (h_block hq hq_NoDup p0 x0 z0) as (xs1 & zs1 & E1 & X1 & Z1). rewrite E1. set (p1 := gmul p0 _).
  destruct (s_block (map at_ (s_list B)) (at_NoDup _ Ns Bs) p1 xs1 zs1) as (zs2 & E2 & Z2). rewrite E2. set (p2 := gmul p1 _).
  assert (De : forall e, In e es -> fst e <> snd e) by (intros e H; destruct (es_In e H) as (i & j & Hj & Hi & ->); cbn [fst snd]; intros C; apply at_inj in C; lia).
  destruct (cz_block es De p2 xs1 zs2) as (zs3 & E3 & Z3). rewrite E3. set (p3 := gmul p2 _).
  destruct (h_block qb Nqb p3 xs1 zs3) as (xs4 & zs4 & E4 & X4 & Z4). rewrite E4.
  assert (Ex : forall q, xs1 q = x1 q) by exact X1. assert (Ez : forall q, zs1 q = z1 q) by exact Z1.
  assert (Z3at : forall q, zs3 q = false).
  { intros q. destruct (in_dec Nat.eq_dec q qb) as [Hq|Hq].
    - destruct (at_onto q Hq) as (i & Hi & <-). rewrite Z3, Z2, Ez, Ex. rewrite mem_at by assumption.
      rewrite (lx_ext es _ (fun e => xorb ((at_ i =? fst e) && x1 (snd e)) ((at_ i =? snd e) && x1 (fst e)))) by (intros e _; rewrite !Ex; reflexivity). rewrite es_neighbours by exact Hi.
      rewrite z1_at, x1_at by exact Hi. rewrite (xsum_ext m (fun j => adj B i j && x1 (at_ j)) (fun j => adj B i j && r_inv B j c)) by (intros j Hj; rewrite x1_at by exact Hj; reflexivity).
      generalize (xsum m (fun j => adj B i j && r_inv B j c)). intros u. destruct u, (mem i (s_list B)), (r_inv B i c); reflexivity.
    - rewrite Z3, Z2, Ez, Ex. destruct (off1 q Hq) as [-> ->]. rewrite andb_false_r, !xorb_false_l. apply lx_0. intros e He. destruct (es_In e He) as (i & j & Hj & Hi & ->). cbn [fst snd].
      destruct (Nat.eqb_spec q (at_ i)) as [->|_]; [exfalso; apply Hq, at_In, Hi|]. destruct (Nat.eqb_spec q (at_ j)) as [->|_]; [exfalso; apply Hq, at_In; lia|]. reflexivity. }
  split.
  - rewrite (lx_0 qb) by (intros q _; rewrite Z3at; apply andb_false_r). rewrite <- phase_ok. unfold p3, p2, p1, p0. cbn [sg].
    rewrite (gprod_ext (map at_ (s_list B)) _ (fun q => if x1 q then gi else g1)) by (intros q _; rewrite Ex; reflexivity).
    rewrite (lx_ext es _ (fun e => x1 (fst e) && x1 (snd e))) by (intros e _; rewrite !Ex; reflexivity). ring.
  - intros q Hq. rewrite X4, Z4, Z3at, Ex. destruct (mem q qb) eqn:M; [split; reflexivity|]. apply mem_false in M. destruct (off1 q M) as [-> _]. split; reflexivity.
Qed.
(* the new term *)
Lemma get_flat l q : (forall i, In i l -> i < m) -> get (flat_map (fun i => if r_inv B i c then [(at_ i, FZ)] else []) l) q = if existsb (fun i => (at_ i =? q) && r_inv B i c) l then FZ else FI.
Proof.
  induction l as [|i l IH]; intros H; [reflexivity|]. cbn [flat_map existsb]. specialize (IH (fun j Hj => H j (or_intror Hj))). destruct (r_inv B i c).
  - cbn [app get]. destruct (at_ i =? q); [reflexivity|]. exact IH.
  - rewrite andb_false_r. exact IH.
Qed.
Lemma new_get q : get (new_factors qb B c) q = if x1 q then FZ else FI.
Proof.
  unfold new_factors. fold m. change (fun i => if r_inv B i c then [(nth (nth i (perm B) 0) qb 0, FZ)] else []) with (fun i => if r_inv B i c then [(at_ i, FZ)] else []).
  rewrite get_flat by (intros i Hi; apply in_seq in Hi; lia). destruct (existsb _ _) eqn:E.
  - apply existsb_exists in E. destruct E as (i & Hi & E). apply in_seq in Hi. apply andb_true_iff in E. destruct E as [E R]. apply Nat.eqb_eq in E. subst q. rewrite x1_at by lia. rewrite R. reflexivity.
  - destruct (x1 q) eqn:X; [|reflexivity]. exfalso. destruct (in_dec Nat.eq_dec q qb) as [Hq|Hq]; [|destruct (off1 q Hq); congruence].
    destruct (at_onto q Hq) as (i & Hi & <-). rewrite x1_at in X by exact Hi. assert (T : existsb (fun i0 => (at_ i0 =? at_ i) && r_inv B i0 c) (seq 0 m) = true); [|congruence].
    apply existsb_exists. exists i. rewrite X, Nat.eqb_refl. split; [apply in_seq; lia|reflexivity].
Qed.
Lemma new_diagonal : diagonal (new_factors qb B c). Proof. intros q. rewrite new_get. destruct (x1 q); auto. Qed.
End one.
