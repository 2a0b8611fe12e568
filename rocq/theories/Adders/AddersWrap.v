(** Adder lemmas in the vocabulary of AddersSpec. *)
From Verif.Lib Require Import Rev.
From Verif.Adders Require Import CuccaroModel CuccaroProofs GidneyModel GidneyProofs AddersSpec.

Lemma rest_of n (s s' : bstate) : (forall q, (fst q = 1 -> n <= snd q) -> q <> (5, 0) -> s' q = s q) -> rest_unchanged n s s'.
Proof. intros H r i H1 H5. apply H; [cbn; intros ->|exact H5]. destruct (le_lt_dec n i); [assumption|]. exfalso; apply H1; auto. Qed.

Lemma c14_adder da db (cin cout ctrl : bool) p (s : bstate) :
  1 <= db -> clean s 3 (max da db) -> clean s 2 (db - da) ->
  exists s', run (cuccaro_adder da db cin cout ctrl) (p, s) = Some (p, s') /\
    num s' 1 db = (if active ctrl s then (num s 0 da + num s 1 db + carry_in cin s) mod 2 ^ Z.of_nat db else num s 1 db)%Z /\
    (active ctrl s = true \/ cout = false -> s' (5, 0) = if cout then xorb (s (5, 0)) (2 ^ Z.of_nat db <=? num s 0 da mod 2 ^ Z.of_nat db + num s 1 db + carry_in cin s)%Z
                 else s (5, 0)) /\
    rest_unchanged db s s'.
Proof.
  intros H1 H3 H2. destruct (cuccaro_adder_spec da db cin cout ctrl p s H1 H3 H2) as (s' & R & Hb & Hc & Hr).
  exists s'. repeat split; auto. apply rest_of; exact Hr.
Qed.
Lemma c14_classical v db (cin cout ctrl : bool) p (s : bstate) :
  1 <= db -> (0 <= v < 2 ^ Z.of_nat db)%Z -> clean s 0 db -> clean s 3 db ->
  exists s', run (cuccaro_adder_classical v db cin cout ctrl) (p, s) = Some (p, s') /\
    num s' 1 db = (if active ctrl s then (v + num s 1 db + carry_in cin s) mod 2 ^ Z.of_nat db else num s 1 db)%Z /\
    (active ctrl s = true \/ cout = false -> s' (5, 0) = if cout then xorb (s (5, 0)) (2 ^ Z.of_nat db <=? v + num s 1 db + carry_in cin s)%Z else s (5, 0)) /\
    rest_unchanged db s s'.
Proof.
  intros H1 Hv H0 H3. destruct (cuccaro_classical_spec v db cin cout ctrl p s H1 Hv H0 H3) as (s' & R & Hb & Hc & Hr).
  exists s'. repeat split; auto. apply rest_of; exact Hr.
Qed.
Lemma c14_cout_refuted :
  exists s s', active true s = false /\ run (cuccaro_adder 1 1 false true true) (0%Z, s) = Some (0%Z, s') /\ s' (5, 0) <> s (5, 0).
Proof. exists (mk 1 1 false false false). eexists. split; [reflexivity|]. split; [cbv; reflexivity|]. vm_compute. discriminate. Qed.

Lemma c15_quantum da db (cin cout : bool) p (s : bstate) :
  1 <= db -> clean s 3 (db - 1 + bit1 cout) -> clean s 2 (db - da) ->
  exists s', run (gidney_adder da db cin cout false) (p, s) = Some (p, s') /\
    num s' 1 db = ((num s 0 da + num s 1 db + carry_in cin s) mod 2 ^ Z.of_nat db)%Z /\
    s' (5, 0) = (if cout then xorb (s (5, 0)) (2 ^ Z.of_nat db <=? num s 0 da mod 2 ^ Z.of_nat db + num s 1 db + carry_in cin s)%Z
                 else s (5, 0)) /\
    rest_unchanged db s s'.
Proof.
  intros H1 H3 H2. destruct (gidney_adder_spec da db cin cout false p s H1 H3 H2) as (p' & s' & R & Hp & Hb & Hc & Hr).
  rewrite (Hp eq_refl) in R. exists s'. cbn [andb] in Hc. rewrite andb_true_r in Hc. repeat split; auto. apply rest_of; exact Hr.
Qed.
Lemma c15_controlled da db (cin cout : bool) p (s : bstate) :
  1 <= db -> clean s 3 (db - 1 + bit1 cout) -> clean s 2 (db - da) ->
  exists p' s', run (gidney_adder da db cin cout true) (p, s) = Some (p', s') /\
    num s' 1 db = (if active true s then (num s 0 da + num s 1 db + carry_in cin s) mod 2 ^ Z.of_nat db else num s 1 db)%Z /\
    s' (5, 0) = (if cout && active true s
                 then xorb (s (5, 0)) (2 ^ Z.of_nat db <=? num s 0 da mod 2 ^ Z.of_nat db + num s 1 db + carry_in cin s)%Z
                 else s (5, 0)) /\
    rest_unchanged db s s'.
Proof.
  intros H1 H3 H2. destruct (gidney_adder_spec da db cin cout true p s H1 H3 H2) as (p' & s' & R & Hp & Hb & Hc & Hr).
  exists p', s'. repeat split; auto. apply rest_of; exact Hr.
Qed.
Lemma c15_phase_refuted : exists s1 s2 p1 p2 t1 t2,
  active true s1 = false /\ active true s2 = false /\
  run (gidney_adder 1 1 false false true) (0%Z, s1) = Some (p1, t1) /\
  run (gidney_adder 1 1 false false true) (0%Z, s2) = Some (p2, t2) /\
  (p1 mod 8 <> p2 mod 8)%Z.
Proof.
  exists (mk 0 0 false false false), (mk 0 1 false false false). do 4 eexists.
  split; [reflexivity|]. split; [reflexivity|]. split; [cbv; reflexivity|]. split; [cbv; reflexivity|]. vm_compute. discriminate.
Qed.
Lemma c15_classical v db (cin cout ctrl : bool) p (s : bstate) :
  1 <= db -> clean s 3 (db - 1 + bit1 cin + bit1 cout) ->
  exists s', run (gidney_adder_int v db cin cout ctrl) (p, s) = Some (p, s') /\
    num s' 1 db = (if active ctrl s then (v + num s 1 db + carry_in cin s) mod 2 ^ Z.of_nat db else num s 1 db)%Z /\
    s' (5, 0) = (if cout && active ctrl s
                 then xorb (s (5, 0)) (2 ^ Z.of_nat db <=? v mod 2 ^ Z.of_nat db + num s 1 db + carry_in cin s)%Z
                 else s (5, 0)) /\
    rest_unchanged db s s'.
Proof.
  intros H1 H3. assert (Hm := Z.mod_pos_bound v (2 ^ Z.of_nat db) ltac:(lia)).
  destruct (gidney_int_spec (v mod 2 ^ Z.of_nat db) db cin cout ctrl p s H1 (proj1 Hm) H3) as (s' & R & Hb & Hc & Hr).
  exists s'. split; [exact R|]. split; [|split].
  - unfold num. rewrite Hb. unfold active, carry_in. destruct (if ctrl then s (6, 0) else true); [|reflexivity].
    rewrite <- Z.add_assoc, Z.add_mod_idemp_l, Z.add_assoc by lia. reflexivity.
  - rewrite Hc. unfold active, carry_in, num. rewrite Z.mod_mod by lia.
    rewrite Z.testbit_eqb, Z.div_small by lia. change (0 mod 2 =? 1)%Z with false. rewrite xorb_false_l. reflexivity.
  - apply rest_of; exact Hr.
Qed.
Lemma c15_traced v db (cin ctrl : bool) p (s : bstate) :
  1 <= db -> (0 <= v)%Z -> clean s 3 (db - 1 + bit1 cin) ->
  exists s', run (gidney_adder_traced_int v db cin false ctrl) (p, s) = Some (p, s') /\
    num s' 1 db = (if active ctrl s then (v + num s 1 db + carry_in cin s) mod 2 ^ Z.of_nat db else num s 1 db)%Z /\
    rest_unchanged db s s' /\ s' (5, 0) = s (5, 0).
Proof.
  intros H1 Hv H3. destruct (gidney_int_spec v db cin false ctrl p s H1 Hv) as (s' & R & Hb & Hc & Hr).
  { intros i Hi. apply H3. cbn [bit1] in Hi. lia. }
  exists s'. split; [exact R|]. split; [exact Hb|]. split; [apply rest_of; exact Hr|exact Hc].
Qed.
Lemma c15_traced_refuted : exists v s p1 t1 p2 t2,
  run (gidney_adder_int v 2 false true false) (0%Z, s) = Some (p1, t1) /\
  run (gidney_adder_traced_int v 2 false true false) (0%Z, s) = Some (p2, t2) /\ t1 (5, 0) <> t2 (5, 0).
Proof.
  exists 5%Z, (mk 0 0 false false false). do 4 eexists. split; [cbv; reflexivity|]. split; [cbv; reflexivity|]. vm_compute. discriminate.
Qed.
