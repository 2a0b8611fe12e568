(** Basis-state semantics of the gates that Qrisp's arithmetic circuits are built from.

    A classical basis state assigns a bit to every qubit; every gate below maps a basis state to
    a basis state times a phase, so by linearity a statement proved for every basis state with
    its phase determines the action on all superpositions.  Qubits are named (register, index);
    different registers are different QuantumVariables and hence disjoint.
    Phases are counted in units of pi/4 (eighth roots of unity).

    Gates and what they model (under /repo/src/qrisp):
    - [X], [CX], [MCX]: core/gate_application_functions.py x, cx, mcx (methods other than
      gidney / gray_pt, taken as exact multi-controlled X).
    - [MCP k cs]: phase exp(i pi k / 4) on the all-ones state of [cs] (z, s, t, cz, mcz, ...).
    - [GAND]: mcx(.., method="gidney"), alg_primitives/mcx_algs/gidney.py 86-100 and
      circuit_library.py 95-105.  On a clean target it computes the AND; on a target in state 1
      the same circuit leaves the phases i (no control set) or -i (some control set).  These
      values are derived from the gate-by-gate circuit in CliffordT (gidney_qc_action).
    - [GUNAND]: method="gidney_inv", gidney.py 103-109: measurement-based uncomputation.  It is
      deterministic (and resets the target) exactly when the target holds the AND of the
      controls; otherwise the outcome is random and the run is stuck ([None]).
    - [SWAP].
    - [DEL q]: QuantumVariable.delete of a qubit; correct programs only delete qubits in
      state 0, anything else is stuck ([None]). *)
From Coq Require Export List Bool Arith ZArith Lia.
Export ListNotations.
Local Open Scope nat_scope.

Definition qubit := (nat * nat)%type.
Definition qeq (p q : qubit) : bool := (fst p =? fst q) && (snd p =? snd q).
Definition bstate := qubit -> bool.
Definition upd (s : bstate) (q : qubit) (v : bool) : bstate := fun p => if qeq p q then v else s p.

Inductive gate :=
| X (q : qubit)
| CX (c t : qubit)
| MCX (cs : list qubit) (t : qubit)
| MCP (k : Z) (cs : list qubit)
| GAND (c1 c2 t : qubit)
| GUNAND (c1 c2 t : qubit)
| SWAP (a b : qubit)
| DEL (q : qubit).

Definition CCX (c1 c2 t : qubit) : gate := MCX [c1; c2] t.

Definition all_set (s : bstate) (cs : list qubit) : bool := forallb s cs.

(** [(phase, bits)] *)
Definition qstate := (Z * bstate)%type.

Definition gand_phase (c1 c2 t : bool) : Z := if t then (if c1 || c2 then 6 else 2)%Z else 0%Z.

Definition step (g : gate) (st : qstate) : option qstate :=
  let '(p, s) := st in
  match g with
  | X q => Some (p, upd s q (negb (s q)))
  | CX c t => Some (p, upd s t (xorb (s c) (s t)))
  | MCX cs t => Some (p, upd s t (xorb (all_set s cs) (s t)))
  | MCP k cs => Some ((p + (if all_set s cs then k else 0))%Z, s)
  | GAND c1 c2 t => Some ((p + gand_phase (s c1) (s c2) (s t))%Z, upd s t (xorb (s c1 && s c2) (s t)))
  | GUNAND c1 c2 t => if eqb (s t) (s c1 && s c2) then Some (p, upd s t false) else None
  | SWAP a b => Some (p, upd (upd s a (s b)) b (s a))
  | DEL q => if s q then None else Some (p, s)
  end.

Fixpoint run (l : list gate) (st : qstate) : option qstate :=
  match l with
  | [] => Some st
  | g :: l => match step g st with Some st' => run l st' | None => None end
  end.

(** loops: [for k in range(lo, lo+n): body k], and the same with k descending *)
Definition loop (lo n : nat) (body : nat -> list gate) : list gate := flat_map body (seq lo n).
Definition loop_rev (lo n : nat) (body : nat -> list gate) : list gate := flat_map body (rev (seq lo n)).
(** [for i in range(n): x(reg[i])] style helpers *)
Definition del_reg (r n : nat) : list gate := loop 0 n (fun i => [DEL (r, i)]).

(** little-endian value of [n] bits *)
Definition b2z (b : bool) : Z := if b then 1%Z else 0%Z.
Fixpoint val (n : nat) (f : nat -> bool) : Z :=
  match n with
  | O => 0%Z
  | S n => (val n f + b2z (f n) * 2 ^ Z.of_nat n)%Z
  end.
(** value of register [r] of width [n] *)
Definition regval (s : bstate) (r n : nat) : Z := val n (fun i => s (r, i)).

(** ** elementary facts *)
Lemma qeq_spec p q : reflect (p = q) (qeq p q).
Proof.
  destruct p as [r i], q as [r' i']. unfold qeq. cbn.
  destruct (Nat.eqb_spec r r'), (Nat.eqb_spec i i'); constructor; congruence.
Qed.
Lemma qeq_refl q : qeq q q = true.
Proof. destruct (qeq_spec q q); congruence. Qed.
Lemma upd_same s q v : upd s q v q = v.
Proof. unfold upd. rewrite qeq_refl. reflexivity. Qed.
Lemma upd_other s q v p : p <> q -> upd s q v p = s p.
Proof. intros H. unfold upd. destruct (qeq_spec p q); congruence. Qed.

Lemma upd_ext (s s' : bstate) q v v' : (forall p, s p = s' p) -> v = v' -> forall p, upd s q v p = upd s' q v' p.
Proof. intros H -> p. unfold upd. destruct (qeq p q); auto. Qed.
Lemma all_set_ext (s s' : bstate) cs : (forall p, s p = s' p) -> all_set s cs = all_set s' cs.
Proof. intros H. unfold all_set. induction cs as [|c cs IH]; cbn; [reflexivity|]. rewrite H, IH. reflexivity. Qed.

Definition seqv (st st' : option qstate) : Prop :=
  match st, st' with
  | Some (p, s), Some (p', s') => p = p' /\ forall q, s q = s' q
  | None, None => True
  | _, _ => False
  end.
Lemma step_ext g (p : Z) (s s' : bstate) : (forall q, s q = s' q) -> seqv (step g (p, s)) (step g (p, s')).
Proof.
  intros H. destruct g; cbn [step]; rewrite <- ?H, <- ?(all_set_ext _ _ _ H).
  all: repeat match goal with |- context[if ?b then _ else _] => destruct b end; cbn; auto using upd_ext.
Qed.
Lemma run_ext l : forall (p : Z) (s s' : bstate), (forall q, s q = s' q) -> seqv (run l (p, s)) (run l (p, s')).
Proof.
  induction l as [|g l IH]; intros p s s' H; cbn [run]; [cbn; auto|].
  pose proof (step_ext g p s s' H) as E.
  destruct (step g (p, s)) as [[p1 s1]|], (step g (p, s')) as [[p2 s2]|]; cbn in E; try contradiction; auto.
  destruct E as [-> E]. apply IH; exact E.
Qed.

(** [exec l st st']: [l] runs without getting stuck from [st] and ends in (pointwise) [st'] *)
(* st' is compared pointwise, so no extensionality axiom is needed *)
Definition exec (l : list gate) (st st' : qstate) : Prop :=
  exists s'', run l st = Some (fst st', s'') /\ forall q, s'' q = snd st' q.

Lemma run_app l1 l2 st : run (l1 ++ l2) st = match run l1 st with Some st' => run l2 st' | None => None end.
Proof. revert st. induction l1 as [|g l IH]; intros st; cbn; [reflexivity|]. destruct (step g st); auto. Qed.

Lemma exec_nil (p : Z) (s s' : bstate) : (forall q, s q = s' q) -> exec [] (p, s) (p, s').
Proof. intros H. exists s. auto. Qed.

Lemma exec_app l1 l2 st1 st2 st3 : exec l1 st1 st2 -> exec l2 st2 st3 -> exec (l1 ++ l2) st1 st3.
Proof.
  destruct st2 as [p2 s2]. intros (sa & Ra & Ea) (sb & Rb & Eb). cbn [fst snd] in *. unfold exec. rewrite run_app, Ra.
  pose proof (run_ext l2 p2 sa s2 Ea) as E. rewrite Rb in E. destruct (run l2 (p2, sa)) as [[p3 s3]|]; cbn in E; [|contradiction].
  destruct E as [-> E]. exists s3. split; [reflexivity|]. intros q. rewrite E. apply Eb.
Qed.

Lemma exec_run l (p : Z) (s : bstate) st' : exec l (p, s) st' -> exists s', run l (p, s) = Some (fst st', s') /\ forall q, s' q = snd st' q.
Proof. intros H. exact H. Qed.

Lemma exec_pre l (p : Z) (s0 s : bstate) st' : (forall q, s0 q = s q) -> exec l (p, s) st' -> exec l (p, s0) st'.
Proof. intros H E. change l with ([] ++ l). eapply exec_app; [apply exec_nil; exact H|exact E]. Qed.
Lemma exec_post l st (p : Z) (s s' : bstate) : (forall q, s q = s' q) -> exec l st (p, s) -> exec l st (p, s').
Proof. intros H (s'' & R & E). exists s''. split; [exact R|]. intros q. rewrite E. apply H. Qed.

(** straight-line gates *)
Lemma exec_cons g l st st1 st2 : step g st = Some st1 -> exec l st1 st2 -> exec (g :: l) st st2.
Proof. intros Hs (s & R & E). exists s. cbn [run]. rewrite Hs. auto. Qed.

Lemma loop_S lo n body : loop lo (S n) body = loop lo n body ++ body (lo + n).
Proof. unfold loop. rewrite seq_S, flat_map_app. cbn. rewrite app_nil_r. reflexivity. Qed.
Lemma loop_rev_S lo n body : loop_rev lo (S n) body = body (lo + n) ++ loop_rev lo n body.
Proof. unfold loop_rev. rewrite seq_S, rev_app_distr. reflexivity. Qed.

Lemma exec_loop lo n body (F : nat -> qstate) :
  (forall k, lo <= k < lo + n -> exec (body k) (F k) (F (S k))) ->
  exec (loop lo n body) (F lo) (F (lo + n)).
Proof.
  induction n as [|n IH]; intros H.
  - rewrite Nat.add_0_r. exists (snd (F lo)). destruct (F lo); auto.
  - rewrite loop_S. eapply exec_app; [apply IH; intros; apply H; lia|].
    replace (lo + S n) with (S (lo + n)) by lia. apply H. lia.
Qed.
(** descending: [F k] is the state when all indices >= k have been processed *)
Lemma exec_loop_rev lo n body (F : nat -> qstate) :
  (forall k, lo <= k < lo + n -> exec (body k) (F (S k)) (F k)) ->
  exec (loop_rev lo n body) (F (lo + n)) (F lo).
Proof.
  induction n as [|n IH]; intros H.
  - rewrite Nat.add_0_r. exists (snd (F lo)). destruct (F lo); auto.
  - rewrite loop_rev_S. replace (lo + S n) with (S (lo + n)) by lia.
    eapply exec_app; [apply H; lia|]. apply IH. intros; apply H; lia.
Qed.

Lemma exec_loop_to lo n hi body (F : nat -> qstate) : hi = lo + n ->
  (forall k, lo <= k < hi -> exec (body k) (F k) (F (S k))) -> exec (loop lo n body) (F lo) (F hi).
Proof. intros -> H. apply exec_loop. exact H. Qed.
Lemma exec_loop_rev_to lo n hi body (F : nat -> qstate) : hi = lo + n ->
  (forall k, lo <= k < hi -> exec (body k) (F (S k)) (F k)) -> exec (loop_rev lo n body) (F hi) (F lo).
Proof. intros -> H. apply exec_loop_rev. exact H. Qed.

(** deletion of clean registers *)
Lemma exec_del_reg r n (p : Z) (s : bstate) : (forall i, i < n -> s (r, i) = false) -> exec (del_reg r n) (p, s) (p, s).
Proof.
  intros H. unfold del_reg. apply (exec_loop 0 n (fun i => [DEL (r, i)]) (fun _ => (p, s))).
  intros k Hk. exists s. cbn [run step]. rewrite H by lia. auto.
Qed.

(** ** renaming of qubits *)
Definition ren (f : qubit -> qubit) (g : gate) : gate :=
  match g with
  | X q => X (f q) | CX c t => CX (f c) (f t) | MCX cs t => MCX (map f cs) (f t) | MCP k cs => MCP k (map f cs)
  | GAND a b t => GAND (f a) (f b) (f t) | GUNAND a b t => GUNAND (f a) (f b) (f t)
  | SWAP a b => SWAP (f a) (f b) | DEL q => DEL (f q)
  end.

Lemma all_set_map s f cs : all_set s (map f cs) = all_set (fun q => s (f q)) cs.
Proof. unfold all_set. induction cs as [|c cs IH]; cbn; [reflexivity|]. rewrite IH. reflexivity. Qed.

(** [s'] agrees with [t] on the renamed qubits and with [s] elsewhere *)
Definition embeds (f : qubit -> qubit) (s s' t : bstate) : Prop :=
  (forall q, s' (f q) = t q) /\ (forall x, (forall q, x <> f q) -> s' x = s x).

Lemma embeds_upd f s s' t q v : (forall x y, f x = f y -> x = y) -> embeds f s s' t -> embeds f s (upd s' (f q) v) (upd t q v).
Proof.
  intros Hf [H1 H2]. split.
  - intros x. unfold upd. destruct (qeq_spec (f x) (f q)) as [E|E], (qeq_spec x q) as [E'|E']; auto; [apply Hf in E|subst]; congruence.
  - intros x Hx. rewrite upd_other by apply Hx. apply H2, Hx.
Qed.

Lemma step_ren f s : (forall x y, f x = f y -> x = y) -> forall g p s' t, embeds f s s' t ->
  match step g (p, t) with
  | Some (p1, t1) => exists s1, step (ren f g) (p, s') = Some (p1, s1) /\ embeds f s s1 t1
  | None => step (ren f g) (p, s') = None
  end.
Proof.
  intros Hf g p s' t [H1 H2]. pose proof (conj H1 H2 : embeds f s s' t) as He.
  assert (Ha : forall cs, all_set s' (map f cs) = all_set t cs).
  { intros cs. rewrite all_set_map. apply all_set_ext. exact H1. }
  destruct g; cbn [step ren]; rewrite ?H1, ?Ha; try (eexists; split; [reflexivity|]); auto using embeds_upd.
  - destruct (eqb (t t0) (t c1 && t c2)); [|reflexivity]. eexists; split; [reflexivity|]. auto using embeds_upd.
  - destruct (t q); [reflexivity|]. eexists; split; [reflexivity|]. exact He.
Qed.

Lemma run_ren f s : (forall x y, f x = f y -> x = y) -> forall l p s' t, embeds f s s' t ->
  match run l (p, t) with
  | Some (p1, t1) => exists s1, run (map (ren f) l) (p, s') = Some (p1, s1) /\ embeds f s s1 t1
  | None => run (map (ren f) l) (p, s') = None
  end.
Proof.
  intros Hf l. induction l as [|g l IH]; intros p s' t He; cbn [run map]; [eauto|].
  pose proof (step_ren f s Hf g p s' t He) as Hs. destruct (step g (p, t)) as [[p1 t1]|].
  - destruct Hs as (s1 & -> & He1). apply IH, He1.
  - rewrite Hs. reflexivity.
Qed.

Definition pullback (f : qubit -> qubit) (s : bstate) : bstate := fun q => s (f q).
Lemma exec_ren f l p s p' t' : (forall x y, f x = f y -> x = y) -> exec l (p, pullback f s) (p', t') ->
  exists s', run (map (ren f) l) (p, s) = Some (p', s') /\ (forall q, s' (f q) = t' q) /\ (forall x, (forall q, x <> f q) -> s' x = s x).
Proof.
  intros Hf (t & R & E). cbn [fst snd] in *. pose proof (run_ren f s Hf l p s (pullback f s) (conj (fun _ => eq_refl) (fun _ _ => eq_refl))) as H.
  rewrite R in H. destruct H as (s1 & R1 & H1 & H2). exists s1. split; [exact R1|]. split; [|exact H2].
  intros q. rewrite H1. apply E.
Qed.

Lemma exec_ren_inv f g l p s p' t' : (forall x, g (f x) = x) -> (forall x, f (g x) = x) -> exec l (p, pullback f s) (p', t') ->
  exists s', run (map (ren f) l) (p, s) = Some (p', s') /\ forall x, s' x = t' (g x).
Proof.
  intros H1 H2 E. destruct (exec_ren f l p s p' t') as (s' & R & Es & _); [|exact E|].
  - intros x y Exy. rewrite <- (H1 x), Exy. apply H1.
  - exists s'. split; [exact R|]. intros x. rewrite <- (Es (g x)), H2. reflexivity.
Qed.
Lemma map_loop f lo n body : map (ren f) (loop lo n body) = loop lo n (fun k => map (ren f) (body k)).
Proof. unfold loop. induction (seq lo n) as [|k l IH]; cbn; [reflexivity|]. rewrite map_app, IH. reflexivity. Qed.
Lemma map_loop_rev f lo n body : map (ren f) (loop_rev lo n body) = loop_rev lo n (fun k => map (ren f) (body k)).
Proof. unfold loop_rev. induction (rev (seq lo n)) as [|k l IH]; cbn; [reflexivity|]. rewrite map_app, IH. reflexivity. Qed.
Lemma loop_ext lo n b b' : (forall k, lo <= k < lo + n -> b k = b' k) -> loop lo n b = loop lo n b'.
Proof.
  intros H. induction n as [|n IH]; [reflexivity|]. rewrite !loop_S, IH, H by lia || (intros; apply H; lia). reflexivity.
Qed.
Lemma loop_rev_ext lo n b b' : (forall k, lo <= k < lo + n -> b k = b' k) -> loop_rev lo n b = loop_rev lo n b'.
Proof.
  intros H. induction n as [|n IH]; [reflexivity|]. rewrite !loop_rev_S, IH, H by lia || (intros; apply H; lia). reflexivity.
Qed.

(** ** values *)
Lemma val_ext n f g : (forall i, i < n -> f i = g i) -> val n f = val n g.
Proof. induction n as [|n IH]; intros H; cbn; [reflexivity|]. rewrite IH, H; auto. Qed.
Lemma b2z_bounds b : (0 <= b2z b <= 1)%Z.
Proof. destruct b; cbn; lia. Qed.
Lemma val_bounds n f : (0 <= val n f < 2 ^ Z.of_nat n)%Z.
Proof.
  induction n as [|n IH]; [cbn; lia|]. cbn [val]. rewrite Nat2Z.inj_succ, Z.pow_succ_r by lia.
  destruct (f n); cbn [b2z]; lia.
Qed.
Lemma val_inj n f g : val n f = val n g -> forall i, i < n -> f i = g i.
Proof.
  induction n as [|n IH]; intros H i Hi; [lia|]. cbn [val] in H.
  pose proof (val_bounds n f). pose proof (val_bounds n g).
  assert (f n = g n) by (destruct (f n), (g n); cbn [b2z] in H; try reflexivity; lia).
  destruct (Nat.eq_dec i n) as [->|]; [assumption|]. apply IH; [|lia]. rewrite H2 in H. lia.
Qed.
Lemma val_testbit n f i : i < n -> Z.testbit (val n f) (Z.of_nat i) = f i.
Proof.
  induction n as [|n IH]; intros Hi; [lia|]. cbn [val]. pose proof (val_bounds n f) as B.
  destruct (Nat.eq_dec i n) as [->|Hne].
  - rewrite Z.testbit_eqb by lia. rewrite Z.div_add by lia. rewrite Z.div_small by lia.
    destruct (f n); reflexivity.
  - rewrite <- IH by lia. rewrite !Z.testbit_eqb by lia.
    replace (b2z (f n) * 2 ^ Z.of_nat n)%Z with ((b2z (f n) * 2 ^ (Z.of_nat n - Z.of_nat i - 1)) * 2 * 2 ^ Z.of_nat i)%Z.
    2:{ rewrite <- !Z.mul_assoc. f_equal. replace (2 * 2 ^ Z.of_nat i)%Z with (2 ^ (Z.of_nat i + 1))%Z by (rewrite Z.pow_add_r by lia; lia).
        rewrite <- Z.pow_add_r by lia. f_equal. lia. }
    rewrite Z.div_add by lia. rewrite Z.mod_add by lia. reflexivity.
Qed.

Lemma val_mod n m f : m <= n -> (val n f mod 2 ^ Z.of_nat m)%Z = val m f.
Proof.
  induction 1 as [|n H IH]; [apply Z.mod_small, val_bounds|]. cbn [val].
  replace (2 ^ Z.of_nat n)%Z with (2 ^ (Z.of_nat n - Z.of_nat m) * 2 ^ Z.of_nat m)%Z by (rewrite <- Z.pow_add_r by lia; f_equal; lia).
  rewrite Z.mul_assoc, Z.mod_add by lia. exact IH.
Qed.
Lemma val_zero_ext n m f : m <= n -> (forall i, m <= i < n -> f i = false) -> val n f = val m f.
Proof.
  induction 1 as [|n H IH]; intros Hz; [reflexivity|]. cbn [val]. rewrite IH by (intros; apply Hz; lia). rewrite Hz by lia. cbn. lia.
Qed.

(** ** ripple-carry arithmetic *)
Definition maj (a b c : bool) : bool := (a && b) || (c && (xorb a b)).
Fixpoint carry (a b : nat -> bool) (c : bool) (n : nat) : bool :=
  match n with O => c | S n => maj (a n) (b n) (carry a b c n) end.
Definition sumbit (a b : nat -> bool) (c : bool) (i : nat) : bool := xorb (xorb (a i) (b i)) (carry a b c i).

Lemma adder_value a b c n :
  (val n (sumbit a b c) + 2 ^ Z.of_nat n * b2z (carry a b c n) = val n a + val n b + b2z c)%Z.
Proof.
  induction n as [|n IH]; [cbn; destruct c; reflexivity|].
  cbn [val carry]. rewrite Nat2Z.inj_succ, Z.pow_succ_r by lia. unfold sumbit at 2, maj.
  destruct (a n), (b n), (carry a b c n); cbn [xorb andb orb b2z] in *; lia.
Qed.
Lemma adder_mod a b c n : val n (sumbit a b c) = ((val n a + val n b + b2z c) mod 2 ^ Z.of_nat n)%Z.
Proof.
  pose proof (adder_value a b c n) as E. pose proof (val_bounds n (sumbit a b c)) as B.
  rewrite <- E. rewrite Z.mul_comm, Z.mod_add by lia. symmetry. apply Z.mod_small; lia.
Qed.
Lemma adder_carry a b c n : carry a b c n = (2 ^ Z.of_nat n <=? val n a + val n b + b2z c)%Z.
Proof.
  pose proof (adder_value a b c n) as E. pose proof (val_bounds n (sumbit a b c)) as B.
  destruct (Z.leb_spec (2 ^ Z.of_nat n) (val n a + val n b + b2z c)), (carry a b c n); cbn [b2z] in E; try reflexivity; lia.
Qed.

Lemma carry_ext a b a' b' c n : (forall i, i < n -> a i = a' i) -> (forall i, i < n -> b i = b' i) -> carry a b c n = carry a' b' c n.
Proof. induction n as [|n IH]; intros Ha Hb; cbn; [reflexivity|]. rewrite IH, Ha, Hb; auto. Qed.

(** bits of a non-negative integer as a function *)
Lemma val_of_bits n x : (0 <= x)%Z -> val n (fun i => Z.testbit x (Z.of_nat i)) = (x mod 2 ^ Z.of_nat n)%Z.
Proof.
  intros Hx. induction n as [|n IH]; [cbn; rewrite Z.mod_1_r; reflexivity|].
  cbn [val]. rewrite IH. rewrite Nat2Z.inj_succ. rewrite Z.pow_succ_r by lia.
  rewrite (Z.mul_comm 2). rewrite Z.rem_mul_r by lia.
  rewrite Z.testbit_eqb by lia. rewrite (Z.mul_comm (b2z _)). do 2 f_equal.
  pose proof (Z.mod_pos_bound (x / 2 ^ Z.of_nat n) 2 ltac:(lia)).
  destruct (Z.eqb_spec ((x / 2 ^ Z.of_nat n) mod 2) 1); cbn [b2z]; lia.
Qed.

(** ** tactics *)
Global Arguments Nat.eqb !_ !_ : simpl nomatch.
(** decide [qeq] and index comparisons, case by case *)
Ltac bcase :=
  repeat (match goal with
  | |- context[Nat.eqb ?a ?b] => destruct (Nat.eqb_spec a b); subst; try lia
  | |- context[Nat.ltb ?a ?b] => destruct (Nat.ltb_spec a b); subst; try lia
  | |- context[Nat.leb ?a ?b] => destruct (Nat.leb_spec a b); subst; try lia
  end; cbn [andb orb negb xorb fst snd]).

(** boolean case analysis over all atoms [f i], [carry ..] and variables *)
Ltac bdestruct_atoms :=
  repeat match goal with
  | |- context[carry ?a ?b ?c ?k] => destruct (carry a b c k)
  | |- context[?f ?i] => is_var f; match type of (f i) with bool => destruct (f i) end
  | |- context[?c] => is_var c; match type of c with bool => destruct c end
  end.
Ltac bsolve := unfold sumbit; cbn [carry]; unfold maj; bdestruct_atoms; reflexivity.

Lemma step_unand c1 c2 t p (s : bstate) : s t = s c1 && s c2 -> step (GUNAND c1 c2 t) (p, s) = Some (p, upd s t false).
Proof. intros H. cbn [step]. rewrite H, eqb_reflx. reflexivity. Qed.
Lemma step_gand_clean c1 c2 t p (s : bstate) : s t = false -> step (GAND c1 c2 t) (p, s) = Some (p, upd s t (s c1 && s c2)).
Proof. intros H. cbn [step]. rewrite H. cbn [gand_phase]. rewrite Z.add_0_r, xorb_false_r. reflexivity. Qed.
Lemma step_del q p (s : bstate) : s q = false -> step (DEL q) (p, s) = Some (p, s).
Proof. intros H. cbn [step]. rewrite H. reflexivity. Qed.

(** execute gate by gate; [side] proves the side conditions of [GAND], [GUNAND], [DEL] *)
Ltac gstep side :=
  eapply exec_cons; [first [apply step_gand_clean; solve [side] | apply step_unand; solve [side] | apply step_del; solve [side] | reflexivity]|].
Ltac gsteps side := repeat gstep side.
(** [i < S k] and [k <= i] fix [i] *)
Ltac pin :=
  repeat match goal with
  | H : ?i < S ?k |- _ => is_var i; assert (i = k) by lia; subst i
  | H : ?i <= ?k |- _ => is_var i; assert (i = k) by lia; subst i
  end.
