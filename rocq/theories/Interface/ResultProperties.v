(** C23 for derived results, C24. *)
From Verif.Interface Require Import ResultModel ResultSpec ResultProofs.
Local Open Scope nat_scope.

(** C23 for derived results: the first successful read evaluates the result at most once; from then on every read gives the
    same mapping and the object (its number of evaluations included) never changes again, whatever happens to its source. *)
Theorem C23_lazy_stable {M E : Type} (hp hp1 : @heap M E) (h : nat) (m : M) (o : lobj) (evs : list event) :
  nth_error hp h = Some o -> src o <> None -> step hp (Read h) = (hp1, Mapping m) ->
  (exists o1, nth_error hp1 h = Some o1 /\ evals o1 <= S (evals o)) /\
  let hp2 := exec evs hp1 in step hp2 (Read h) = (hp2, Mapping m) /\ nth_error hp2 h = nth_error hp1 h.
Proof.
  intros N S H. split; [|exact (lazy_stable hp h hp1 m evs o N S H)].
  destruct (read_settles hp h hp1 m o N S H) as (o1 & A & _ & _ & B). exists o1. split; assumption.
Qed.
Print Assumptions C23_lazy_stable.
Example C23_ex : let hp0 := exec [NewRaw; NewDerived 0 (fun m : nat => if m =? 0 then inr tt else inl (10 * m))] [] in
  snd (step hp0 (Read 1)) = Raise NotReady /\ let hp1 := exec [Inject 0 3; Read 1] hp0 in snd (step hp1 (Read 1)) = Mapping 30 /\
  snd (step (exec [Inject 0 4; Read 0; InjectError 0 tt] hp1) (Read 1)) = Mapping 30.
Proof. split; [reflexivity|]. split; reflexivity. Qed.

Local Open Scope Q_scope.
(** C24. Decoding: the value of a label is the sum of the values of the outcomes it decodes; every label occurs once, the
    labels are those of the outcomes, the total is preserved and the items are in descending order. *)
Theorem C24_decoded {L : Type} (leqb : L -> L -> bool) (decoder : Z -> L) (raw : list (Z * Q)) : (forall a b, leqb a b = true <-> a = b) ->
  let d := decoded leqb decoder raw in
  NoDup (map fst d) /\ (forall l, In l (map fst d) <-> exists k, In k (map fst raw) /\ decoder k = l) /\
  (forall l v, In (l, v) d -> v == mass (fun k => leqb (decoder k) l) raw) /\ total d == total raw /\ descending d.
Proof.
  intros OK. cbn zeta. assert (N := decoded_nodup leqb OK decoder raw). split; [exact N|]. split; [exact (decoded_keys leqb OK decoder raw)|]. split; [|split; [exact (decoded_mass leqb OK decoder (fun _ => true) raw)|exact (decoded_desc leqb decoder raw)]].
  intros l v H. rewrite <- (decoded_mass leqb OK decoder (fun x => leqb x l) raw). set (d := decoded leqb decoder raw) in *. clearbody d.
  assert (Z : forall d : list (L * Q), ~ In l (map fst d) -> mass (fun x => leqb x l) d == 0).
  { clear - OK. intros d. induction d as [|[l' v'] d IH]; cbn [map fst In mass]; intros N; [reflexivity|]. rewrite IH by tauto. destruct (leqb l' l) eqn:E; [|ring]. exfalso. apply N. left. apply OK, E. }
  induction d as [|[l' v'] d IH]; [destruct H|]. cbn [map fst] in N. inversion N as [|? ? N1 N2]; subst. cbn [mass]. destruct H as [E|H].
  - injection E as -> ->. assert (E : leqb l l = true) by (apply OK; reflexivity). rewrite E, Z by exact N1. ring.
  - rewrite <- IH by assumption. destruct (leqb l' l) eqn:E; [|ring]. apply OK in E. subst l'. exfalso. apply N1. apply (in_map fst) in H. exact H.
Qed.
Print Assumptions C24_decoded.
(** get_measurement: counts of bit strings become relative frequencies of labels, adding up to one. *)
Theorem C24_frequencies {L : Type} (leqb : L -> L -> bool) (decoder : Z -> L) (n : nat) (counts : list (list char * Q)) (ints : list (Z * Q)) : (forall a b, leqb a b = true <-> a = b) ->
  (forall s c, In (s, c) counts -> exists z, c = inject_Z z) -> 0 < total counts -> int_keyed n counts = Some ints ->
  let d := decoded leqb decoder ints in total d == 1 /\ forall l, mass (fun x => leqb x l) d == mass (fun s => leqb (decoder (outcome n s)) l) counts / total counts.
Proof.
  intros OK I P H. cbn zeta. assert (A := int_keyed_counts n counts ints H I P). split.
  - unfold total at 1. rewrite (decoded_mass leqb OK), A. unfold total. field. intros E. unfold total in P. rewrite E in P. discriminate.
  - intros l. rewrite (decoded_mass leqb OK), A. reflexivity.
Qed.
Print Assumptions C24_frequencies.
(** Probabilities (total within 1/1000 of one) are passed through. *)
Theorem C24_probabilities (n : nat) (probs : list (list char * Q)) (ints : list (Z * Q)) : int_keyed n probs = Some ints ->
  Qabs (1 - total probs) <= 1 # 1000 -> NoDup (map fst ints) /\ total ints == total probs /\ forall k, mass (Z.eqb k) ints == mass (fun s => Z.eqb k (outcome n s)) probs.
Proof. intros H T. destruct (int_keyed_ok n probs ints H) as (N & _ & B). split; [exact N|]. split; [exact (B T (fun _ => true))|]. intros k. exact (B T (Z.eqb k)). Qed.
Print Assumptions C24_probabilities.
(** Several variables: relative frequencies adding up to one, if different bit strings have different labels. *)
Theorem C24_multi_partial {L : Type} (leqb : list L -> list L -> bool) (decs : list (Z -> L)) (regs : list nat) (raw : list (list bool * Q)) (d : list (list L * Q)) : (forall a b, leqb a b = true <-> a = b) ->
  multi leqb decs regs raw = Some d -> NoDup (map fst raw) -> ~ total raw == 0 ->
  (forall s s' l, In s (map fst raw) -> In s' (map fst raw) -> labels decs regs s = Some l -> labels decs regs s' = Some l -> s = s') ->
  total d == 1 /\ descending d /\ forall l, mass (fun x => leqb x l) d == mass (fun s => match labels decs regs s with Some l' => leqb l' l | None => false end) raw / total raw.
Proof.
  intros OK H N T Inj. destruct (multi_ok leqb OK decs regs raw d H N Inj) as (M & S). split; [|split; [exact S|intros l; apply M]].
  unfold total at 1. rewrite M. assert (X : mass (fun s => match labels decs regs s with Some _ => true | None => false end) raw == total raw).
  { assert (A := multi_labels leqb decs regs raw d H). clear - A. unfold total. induction raw as [|[s c] raw IH]; cbn [mass]; [reflexivity|].
    rewrite IH by (intros s' Hs'; apply A; right; exact Hs'). destruct (labels decs regs s) eqn:E; [reflexivity|]. exfalso. apply (A s); [left; reflexivity|exact E]. }
  rewrite X. field. exact T.
Qed.
Print Assumptions C24_multi_partial.
Definition ll_eqb (a b : list Z) : bool := if list_eq_dec Z.eq_dec a b then true else false.
Lemma ll_eqb_ok a b : ll_eqb a b = true <-> a = b. Proof. unfold ll_eqb. destruct (list_eq_dec Z.eq_dec a b); split; congruence. Qed.
Example C24_ex : decoded Z.eqb (fun k => k / 2)%Z [(3%Z, 1 # 4); (0%Z, 1 # 8); (2%Z, 1 # 2); (1%Z, 1 # 8)] = [(1%Z, 6 # 8); (0%Z, 16 # 64)] /\
  int_keyed 2 [([B0; B1; Sp; B1], 3); ([B1; B0; B0], 5); ([B0; B1; B0], 2)] = Some [(1%Z, 5 / 10); (2%Z, 5 / 10)].
Proof. split; reflexivity. Qed.
Example C24_multi_ex : multi ll_eqb [fun k => k; fun k => (10 * k)%Z] [1; 2]%nat [([true; false; true], 1); ([false; true; true], 3)] = Some [([0; 30]%Z, 3 / 4); ([1; 10]%Z, 1 / 4)].
Proof. reflexivity. Qed.
(** The deviation: with a decoder that is not injective the later outcome overwrites the earlier one and the frequencies do
    not add up to one. *)
Theorem C24_multi_refuted : exists (decs : list (Z -> Z)) raw d, multi ll_eqb decs [2]%nat raw = Some d /\ NoDup (map fst raw) /\ total raw == 4 /\ total d == 3 # 4.
Proof.
  exists [fun k => k / 2]%Z, [([true; false], 1); ([true; true], 3)]. eexists. split; [reflexivity|]. split; [|split; reflexivity].
  repeat constructor; cbn; intuition congruence.
Qed.
Print Assumptions C24_multi_refuted.
