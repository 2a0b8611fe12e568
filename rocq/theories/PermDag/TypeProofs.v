(** Proofs: the type checker is sound. *)
From Verif.PermDag Require Import PermModel PermSpec PermProofs AmpSpec TypeModel TypeSpec.
From Verif.Toposort Require Import TopoProofs.
From Coq Require Import List Bool Ring Lia Arith.
Import ListNotations.

Section type_proofs.
Context {R : Type} (rO rI : R) (radd rmul rsub : R -> R -> R) (ropp : R -> R) (RT : ring_theory rO rI radd rmul rsub ropp eq).
Add Ring Rr : RT.
Notation matrix := (@matrix R).
Notation zperm := (zperm rO).
Notation mul := (mul rO radd rmul).
Notation embed := (embed rO).
Notation ident := (ident rO rI).
Notation product := (product rO rI radd rmul).
Notation consistent := (consistent rO rI radd rmul).

Lemma strings_length n : forall z, In z (strings n) -> length z = n.
Proof.
  induction n as [|n IH]; intros z H; cbn in H; [destruct H as [<-|[]]; reflexivity|]. apply in_app_iff in H.
  destruct H as [H|H]; apply in_map_iff in H; destruct H as (t & <- & H); cbn; now rewrite (IH t H).
Qed.
Lemma beq_spec : forall x y, beq x y = true <-> x = y.
Proof.
  induction x as [|a x IH]; intros [|b y]; cbn; try (split; congruence). rewrite andb_true_iff, eqb_true_iff, IH. split; [intros [-> ->]; reflexivity|]. intros E. injection E as -> ->. now split.
Qed.
Lemma sum_zeros {A} (f : A -> R) l : (forall t, In t l -> f t = rO) -> fold_right radd rO (map f l) = rO.
Proof. intros H. induction l as [|t l IH]; cbn; [reflexivity|]. rewrite H by now left. rewrite IH; [ring|]. intros. apply H. now right. Qed.

Lemma mul_zperm n i A B : zperm n i A -> zperm n i B -> zperm n i (mul n A B).
Proof.
  intros HA HB y x Ly Lx NE. unfold mul. apply sum_zeros. intros z Hz. apply strings_length in Hz.
  destruct (bool_dec (nth i y false) (nth i z false)) as [E|E].
  - rewrite (HB z x Hz Lx) by congruence. ring.
  - rewrite (HA y z Ly Hz E). ring.
Qed.
Lemma ident_zperm n i : zperm n i ident.
Proof. intros y x _ _ NE. unfold ident. destruct (beq y x) eqn:E; [|reflexivity]. apply beq_spec in E. congruence. Qed.
Lemma agree_spec qubits : forall y x k i, length y = length x -> agree k qubits y x = true -> ~ In (k + i) qubits -> nth i y false = nth i x false.
Proof.
  induction y as [|b y IH]; intros [|a x] k i L H NI; cbn in *; try discriminate; [reflexivity|]. apply andb_true_iff in H. destruct H as [H1 H2]. destruct i as [|i].
  - rewrite Nat.add_0_r in NI. apply orb_true_iff in H1. destruct H1 as [H1|H1]; [exfalso; now apply NI, mem_In|apply eqb_prop in H1; exact H1].
  - cbn. apply (IH x (S k) i); [lia|exact H2|]. now replace (S k + i) with (k + S i) by lia.
Qed.
Lemma nth_restrict qubits x k : k < length qubits -> nth k (restrict qubits x) false = nth (nth k qubits 0) x false.
Proof. intros L. unfold restrict. rewrite (nth_indep _ false (nth 0 x false)) by now rewrite map_length. apply (map_nth (fun q => nth q x false)). Qed.
Lemma embed_zperm n m i qubits A : length qubits = m -> (In i qubits -> zperm m (index_of qubits i) A) -> zperm n i (embed qubits A).
Proof.
  intros Lq H y x Ly Lx NE. unfold embed. destruct (agree 0 qubits y x) eqn:AG; [|reflexivity].
  destruct (in_dec Nat.eq_dec i qubits) as [I|I].
  - destruct (index_of_nth qubits i I) as [E L]. apply (H I); [unfold restrict; now rewrite map_length|unfold restrict; now rewrite map_length|].
    rewrite !nth_restrict by exact L. now rewrite E.
  - exfalso. apply NE. apply (agree_spec qubits y x 0 i); [lia|exact AG|exact I].
Qed.
Lemma product_zperm n i : forall l, (forall A qubits, In (A, qubits) l -> zperm n i (embed qubits A)) -> zperm n i (product n l).
Proof.
  unfold product. intros l. assert (K : forall l acc, zperm n i acc -> (forall A qubits, In (A, qubits) l -> zperm n i (embed qubits A)) ->
     zperm n i (fold_left (fun acc '(A, qubits) => mul n (embed qubits A) acc) l acc)).
  { clear l. induction l as [|[A qubits] l IH]; intros acc HA HL; [exact HA|]. cbn [fold_left]. apply IH.
    - apply mul_zperm; [apply HL; now left|exact HA].
    - intros A' q' H. apply HL. now right. }
  intros H. apply K; [apply ident_zperm|exact H].
Qed.

Lemma by_attribute_true p : forall idx, by_attribute p idx = Some true -> forall i, In i idx -> nth i p None = Some true.
Proof.
  induction idx as [|j idx IH]; intros H i [].
  - subst. cbn in H. destruct (nth i p None) as [[|]|]; congruence.
  - cbn in H. destruct (nth j p None) as [[|]|]; try congruence. now apply IH.
Qed.

Section gate_ind.
Context (P : gate matrix -> Prop).
Hypothesis H : forall g, (forall l, body g = Some l -> forall h q, In (h, q) l -> P h) -> (forall s b, ctrl g = Some (s, b) -> P b) -> P g.
Fixpoint gate_ind' (g : gate matrix) : P g.
Proof.
  apply H.
  - destruct g as [? ? ? ? [l|] ? ? ?]; cbn; intros l' E; [|discriminate]. injection E as <-. revert l. fix F 1. intros [|[h q] l] h' q' I; [destruct I|].
    destruct I as [I|I]; [injection I as <- _; apply gate_ind'|exact (F l h' q' I)].
  - destruct g as [? ? ? ? ? [[s b]|] ? ?]; cbn; intros s' b' E; [|discriminate]. injection E as _ <-. apply gate_ind'.
Qed.
End gate_ind.

Theorem is_permeable_sound : forall g, consistent g -> forall idx, is_permeable g idx = true -> forall i, In i idx -> i < nq g -> zperm (nq g) i (u g).
Proof.
  induction g as [g IHb _] using gate_ind'. intros C idx HP i Hi Li. inversion_clear C as [? CA CT _ CB _].
  destruct g as [name n pm sym bd ct bt un]. cbn [nq u perm block_test body nm ctrl] in *.
  unfold is_permeable in HP. fold (@is_permeable matrix) in HP. cbn [perm symbolic block_test] in HP.
  destruct (by_attribute pm idx) as [b|] eqn:BA.
  - subst b. apply CA; [exact Li|]. exact (by_attribute_true pm idx BA i Hi).
  - assert (NUM : (if sym then false else bt idx) = true -> zperm n i un).
    { destruct sym; [discriminate|]. intros T. exact (CT idx T i Hi Li). }
    destruct bd as [l|]; [|now apply NUM]. destruct (CB l eq_refl) as [CL EQ]. specialize (IHb l eq_refl).
    match type of HP with (match ?L l with Some _ => _ | None => _ end) = true => set (loop := L) in HP end.
    destruct (loop l) as [b|] eqn:EL; [|now apply NUM]. subst b.
    intros y x Ly Lx NE. rewrite EQ by assumption. apply (product_zperm n i); [|exact Ly|exact Lx|exact NE].
    intros A qubits HA. apply in_map_iff in HA. destruct HA as ([h q'] & E & HA). injection E as <- <-. destruct (CL h q' HA) as (CH & LQ & BQ).
    apply (embed_zperm n (nq h) i q' (u h) LQ). intros Iq.
    assert (LOC : In (index_of q' i) (local_indices idx q')).
    { unfold local_indices. apply in_map. apply filter_In. split; [now apply nodup_In|]. now apply mem_In. }
    assert (PH : is_permeable h (local_indices idx q') = true).
    { clear - EL HA LOC. induction l as [|[h' p'] l IH]; [destruct HA|]. cbn in EL. fold loop in EL. destruct HA as [HA|HA].
      - injection HA as -> ->. destruct (local_indices idx q') as [|a t] eqn:E; [destruct LOC|]. destruct (is_measure h); [discriminate|]. destruct (is_permeable h (a :: t)); [reflexivity|discriminate].
      - apply IH; [|exact HA]. destruct (local_indices idx p') as [|a t]; [exact EL|]. destruct (is_measure h'); [discriminate|]. destruct (is_permeable h' (a :: t)); [exact EL|discriminate]. }
    apply (IHb h q' HA CH _ PH); [exact LOC|]. rewrite <- LQ. now apply index_of_nth.
Qed.

Lemma nth_skipn {A} (l : list A) k i d : nth i (skipn k l) d = nth (k + i) l d.
Proof. revert l. induction k as [|k IH]; intros [|a l]; cbn; try reflexivity; [now destruct i|apply IH]. Qed.
Lemma nth_firstn {A} (l : list A) k i d : i < k -> nth i (firstn k l) d = nth i l d.
Proof. revert l i. induction k as [|k IH]; intros [|a l] [|i] H; cbn; try reflexivity; try lia. apply IH. lia. Qed.
Lemma flip_app : forall (a b : list bool) i, flip_at (length a + i) (a ++ b) = a ++ flip_at i b.
Proof. induction a as [|c a IH]; intros b i; cbn; [reflexivity|]. now rewrite IH. Qed.
Lemma flip_length : forall x i, length (flip_at i x) = length x.
Proof. induction x as [|a x IH]; intros [|i]; cbn; try reflexivity. now rewrite IH. Qed.
Lemma flip_firstn x k i : k <= length x -> firstn k (flip_at (k + i) x) = firstn k x /\ skipn k (flip_at (k + i) x) = flip_at i (skipn k x).
Proof.
  revert x. induction k as [|k IH]; intros [|a x] L; cbn in *; try lia; [split; reflexivity|split; reflexivity|].
  destruct (IH x ltac:(lia)) as [-> ->]. split; reflexivity.
Qed.
Lemma flip_inj : forall y x i, length y = length x -> beq (flip_at i y) (flip_at i x) = beq y x.
Proof. induction y as [|b y IH]; intros [|a x] [|i] L; cbn in *; try reflexivity; try discriminate; [destruct b, a; reflexivity|]. rewrite IH by lia. reflexivity. Qed.

Lemma get_perm_dic_length : forall g : gate matrix, consistent g -> length (get_perm_dic g) = nq g.
Proof.
  induction g as [g _ IHc] using gate_ind'. intros C. inversion_clear C as [? _ _ _ _ CC].
  destruct g as [name n pm sym bd ct bt un]. cbn [nq ctrl u] in *.
  assert (K : length (match ct with Some (_, base) => firstn (n - nq base) (map (fun i => if is_permeable (Gate name n pm sym bd ct bt un) [i] then PZ else PN) (seq 0 n)) ++ get_perm_dic base
     | None => map (fun i => if is_permeable (Gate name n pm sym bd ct bt un) [i] then PZ else PN) (seq 0 n) end) = n).
  { destruct ct as [[s b]|]; [|now rewrite map_length, seq_length]. destruct (CC s b eq_refl) as (Cb & E & _). rewrite app_length, (IHc s b eq_refl Cb), firstn_length, map_length, seq_length. lia. }
  destruct name; cbn [get_perm_dic nm nq]; try apply repeat_length; destruct ct as [[s b]|]; exact K.
Qed.

(** the dictionary tells the truth *)
Theorem get_perm_dic_sound : forall g, consistent g -> forall i, i < nq g ->
  (nth i (get_perm_dic g) PN = PZ -> zperm (nq g) i (u g)) /\ (nth i (get_perm_dic g) PN = PX -> xperm (nq g) i (u g)).
Proof.
  induction g as [g _ IHc] using gate_ind'. intros C i Li. pose proof C as C'. inversion_clear C as [? _ _ CX _ CC].
  assert (XC : In (nm g) [NameX; NameRX; NameRXX] -> (nth i (repeat PX (nq g)) PN = PZ -> zperm (nq g) i (u g)) /\ (nth i (repeat PX (nq g)) PN = PX -> xperm (nq g) i (u g))).
  { intros I. split; [|intros _; now apply CX]. intros E. assert (K : nth i (repeat PX (nq g)) PN = PX) by (apply (repeat_spec (nq g)), nth_In; now rewrite repeat_length). congruence. }
  set (res := map (fun i => if is_permeable g [i] then PZ else PN) (seq 0 (nq g))).
  assert (RS : forall k, k < nq g -> (nth k res PN = PZ -> zperm (nq g) k (u g)) /\ nth k res PN <> PX).
  { intros k Lk. unfold res. rewrite (nth_indep _ PN (if is_permeable g [0] then PZ else PN)) by now rewrite map_length, seq_length.
    rewrite (map_nth (fun i => if is_permeable g [i] then PZ else PN)), seq_nth by exact Lk. cbn [Nat.add].
    destruct (is_permeable g [k]) eqn:E; split; try congruence. intros _. apply (is_permeable_sound g C' [k] E k); [now left|exact Lk]. }
  assert (GEN : (nth i (match ctrl g with Some (_, base) => firstn (nq g - nq base) res ++ get_perm_dic base | None => res end) PN = PZ -> zperm (nq g) i (u g)) /\
                (nth i (match ctrl g with Some (_, base) => firstn (nq g - nq base) res ++ get_perm_dic base | None => res end) PN = PX -> xperm (nq g) i (u g))).
  { destruct (ctrl g) as [[s b]|] eqn:Ec.
    - destruct (CC s b eq_refl) as (Cb & En & EQ). set (k := length s) in *. replace (nq g - nq b) with k by lia.
      assert (LF : length (firstn k res) = k) by (rewrite firstn_length; unfold res; rewrite map_length, seq_length; lia).
      destruct (Nat.lt_ge_cases i k) as [Lk|Lk].
      + rewrite app_nth1 by lia. rewrite nth_firstn by exact Lk. destruct (RS i Li) as [R1 R2]. split; [exact R1|intros; contradiction].
      + rewrite app_nth2 by lia. rewrite LF. destruct (IHc s b eq_refl Cb (i - k) ltac:(lia)) as [IZ IX]. split.
        * intros E. specialize (IZ E). intros y x Ly Lx NE. rewrite EQ by assumption. unfold controlled. fold k.
          destruct (beq (firstn k y) (firstn k x)); [|reflexivity].
          assert (NE' : nth (i - k) (skipn k y) false <> nth (i - k) (skipn k x) false) by (rewrite !nth_skipn; now replace (k + (i - k)) with i by lia).
          destruct (beq (firstn k x) s); [apply IZ; [rewrite skipn_length; lia|rewrite skipn_length; lia|exact NE']|].
          apply (ident_zperm (nq b) (i - k)); [rewrite skipn_length; lia|rewrite skipn_length; lia|exact NE'].
        * intros E. specialize (IX E). intros y x Ly Lx. rewrite (EQ y x Ly Lx), (EQ (flip_at i y) (flip_at i x)) by (now rewrite flip_length).
          unfold controlled. fold k. replace i with (k + (i - k)) by lia.
          destruct (flip_firstn y k (i - k) ltac:(lia)) as [-> ->]. destruct (flip_firstn x k (i - k) ltac:(lia)) as [-> ->].
          destruct (beq (firstn k y) (firstn k x)); [|reflexivity]. destruct (beq (firstn k x) s).
          -- apply IX; rewrite skipn_length; lia.
          -- unfold ident. rewrite flip_inj; [reflexivity|]. rewrite !skipn_length. lia.
    - destruct (RS i Li) as [R1 R2]. split; [exact R1|intros; contradiction]. }
  unfold res in GEN. destruct g as [name n pm sym bd ct bt un]. cbn [nm nq ctrl u] in *.
  destruct name; cbn [get_perm_dic nm nq]; try (apply XC; cbn; tauto); destruct ct as [[s b]|]; exact GEN.
Qed.

(** the operator of a gate implements the instruction with the checker's dictionary *)
Lemma lookup_index : forall ql pl q, In q ql -> length pl = length ql -> lookup ql pl q = nth (index_of ql q) pl PN.
Proof.
  induction ql as [|x ql IH]; intros [|p pl] q H L; cbn in *; try discriminate; [destruct H|]. destruct (Nat.eqb_spec q x) as [->|NE]; [reflexivity|]. apply IH; [destruct H; [congruence|assumption]|lia].
Qed.
Lemma xorl_length : forall x d, length x = length d -> length (xorl x d) = length x.
Proof. induction x as [|a x IH]; intros [|b d] H; cbn in *; try reflexivity; try discriminate. now rewrite IH by lia. Qed.
Lemma xorl_nth : forall x d i, length x = length d -> i < length x -> nth i (xorl x d) false = xorb (nth i x false) (nth i d false).
Proof. induction x as [|a x IH]; intros [|b d] [|i] H L; cbn in *; try lia; [reflexivity|]. apply IH; lia. Qed.
Lemma xorl_flip : forall x d i, length x = length d -> xorl (flip_at i x) d = flip_at i (xorl x d).
Proof. induction x as [|a x IH]; intros [|b d] [|i] H; cbn in *; try reflexivity; try discriminate; [now destruct a, b|]. now rewrite IH by lia. Qed.
Lemma flip_at_nth : forall x k, k < length x -> flip_at k x = firstn k x ++ negb (nth k x false) :: skipn (S k) x.
Proof. induction x as [|a x IH]; intros [|k] L; cbn in *; try lia; [reflexivity|]. rewrite IH by lia. reflexivity. Qed.
Lemma xperm_agree n (A : matrix) d (X : nat -> bool) : (forall i, i < n -> X i = true -> xperm n i A) -> length d = n ->
  forall x y, length x = n -> length y = n -> (forall i, i < n -> X i = false -> nth i x false = nth i y false) ->
  A x (xorl x d) = A y (xorl y d).
Proof.
  intros HX Ld x y Lx Ly AG.
  assert (K : forall k, k <= n -> A x (xorl x d) = A (firstn k y ++ skipn k x) (xorl (firstn k y ++ skipn k x) d)).
  { induction k as [|k IH]; intros Lk; [reflexivity|]. rewrite IH by lia. set (z := firstn k y ++ skipn k x). set (z' := firstn (S k) y ++ skipn (S k) x).
    assert (Lz : length z = n) by (unfold z; rewrite app_length, firstn_length, skipn_length; lia).
    assert (Lz' : length z' = n) by (unfold z'; rewrite app_length, firstn_length, skipn_length; lia).
    assert (NZ : forall i, nth i z false = if i <? k then nth i y false else nth i x false).
    { intros i. unfold z. destruct (Nat.ltb_spec i k).
      - rewrite app_nth1 by (rewrite firstn_length; lia). now apply nth_firstn.
      - rewrite app_nth2 by (rewrite firstn_length; lia). rewrite firstn_length, nth_skipn. f_equal. lia. }
    assert (NZ' : forall i, nth i z' false = if i <? S k then nth i y false else nth i x false).
    { intros i. unfold z'. destruct (Nat.ltb_spec i (S k)).
      - rewrite app_nth1 by (rewrite firstn_length; lia). now apply nth_firstn.
      - rewrite app_nth2 by (rewrite firstn_length; lia). rewrite firstn_length, nth_skipn. f_equal. lia. }
    destruct (bool_dec (nth k x false) (nth k y false)) as [E|E].
    - replace z' with z; [reflexivity|]. apply (nth_ext _ _ false false); [lia|]. intros i _. rewrite NZ, NZ'.
      destruct (Nat.ltb_spec i k), (Nat.ltb_spec i (S k)); try reflexivity; try lia. now replace i with k by lia.
    - assert (XK : X k = true). { destruct (X k) eqn:EX; [reflexivity|]. exfalso. apply E. apply AG; [lia|exact EX]. }
      replace z' with (flip_at k z).
      + rewrite xorl_flip by lia. symmetry. apply (HX k ltac:(lia) XK); [exact Lz|]. rewrite xorl_length; lia.
      + rewrite flip_at_nth by lia. apply (nth_ext _ _ false false).
        * rewrite app_length, firstn_length. cbn [length]. rewrite skipn_length. lia.
        * intros i _. rewrite NZ'. destruct (Nat.lt_trichotomy i k) as [H|[->|H]].
          -- rewrite app_nth1 by (rewrite firstn_length; lia). rewrite nth_firstn, NZ by exact H. destruct (Nat.ltb_spec i k), (Nat.ltb_spec i (S k)); try lia. reflexivity.
          -- rewrite app_nth2 by (rewrite firstn_length; lia). rewrite firstn_length. replace (k - Nat.min k (length z)) with 0 by lia. cbn [nth]. rewrite NZ, Nat.ltb_irrefl.
             destruct (Nat.ltb_spec k (S k)); [|lia]. destruct (nth k x false), (nth k y false); cbn; congruence.
          -- rewrite app_nth2 by (rewrite firstn_length; lia). rewrite firstn_length. replace (i - Nat.min k (length z)) with (S (i - S k)) by lia. cbn [nth]. rewrite nth_skipn, NZ.
             replace (S k + (i - S k)) with i by lia. destruct (Nat.ltb_spec i k), (Nat.ltb_spec i (S k)); try lia. reflexivity. }
  rewrite (K n) by lia. rewrite skipn_all2 by lia. rewrite firstn_all2 by lia. now rewrite app_nil_r.
Qed.
Lemma nth_ket qubits x k : k < length qubits -> nth k (ket_bits qubits x) false = x (Ket (nth k qubits 0)).
Proof. intros L. unfold ket_bits. rewrite (nth_indep _ false (x (Ket 0))) by now rewrite map_length. apply (map_nth (fun q => x (Ket q))). Qed.

Theorem gate_implements g qubits clbits : consistent g -> NoDup qubits -> length qubits = nq g ->
  implements rO (Instr KGate qubits clbits (get_perm_dic g)) (gate_operator qubits (u g)).
Proof.
  intros C ND Lq d f H. unfold gate_operator in H. apply in_map_iff in H. destruct H as (ds & E & Hd). injection E as <- <-. apply strings_length in Hd.
  pose proof (get_perm_dic_length g C) as LP. assert (LB : forall x, length (ket_bits qubits x) = length qubits) by (intros; unfold ket_bits; apply map_length).
  assert (ET : forall q, In q qubits -> etype (Instr KGate qubits clbits (get_perm_dic g)) q = nth (index_of qubits q) (get_perm_dic g) PN).
  { intros q Hq. unfold etype. cbn [ikind qs pt]. apply lookup_index; [exact Hq|lia]. }
  split; [|split].
  - intros [q|q|b] K; cbn in K |- *; try discriminate. apply andb_true_iff in K. now apply mem_In.
  - intros x y AG. apply (xperm_agree (nq g) (u g) ds (fun i => match nth i (get_perm_dic g) PN with PX => true | _ => false end)).
    + intros i Li EX. apply (get_perm_dic_sound g C i Li). now destruct (nth i (get_perm_dic g) PN).
    + lia.
    + rewrite LB. lia.
    + rewrite LB. lia.
    + intros i Li EX. rewrite !nth_ket by lia. apply AG. unfold reads. cbn [qs]. assert (Iq : In (nth i qubits 0) qubits) by (apply nth_In; lia). split; [exact Iq|].
      rewrite (ET _ Iq), nth_index_of by (try exact ND; lia). intros K. rewrite K in EX. discriminate.
  - intros q Hq EZ [K|K] x; [|discriminate K]. cbn [qs] in Hq. rewrite (ET q Hq) in EZ. destruct (index_of_nth qubits q Hq) as [EI LI]. cbn in K. apply andb_true_iff in K. destruct K as [_ K].
    destruct (get_perm_dic_sound g C (index_of qubits q) ltac:(lia)) as [Z _]. apply (Z EZ).
    + rewrite LB. lia.
    + rewrite xorl_length by (rewrite LB; lia). rewrite LB. lia.
    + rewrite xorl_nth by (rewrite LB; lia). rewrite K. now destruct (nth (index_of qubits q) (ket_bits qubits x) false).
Qed.
End type_proofs.
