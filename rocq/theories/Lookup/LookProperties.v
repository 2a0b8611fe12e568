(** C91: truth tables and quantum dictionaries load the right values. *)
From Coq Require Import Reals Lia.
From Verif.Gray Require Import GraySpec.
From Verif.CtrlOps Require Import CtrlComplex.
From Verif.Lookup Require Import LookModel LookSpec LookProofs LookPprm LookDict.
Local Open Scope nat_scope.

(** synthesis by polynomials: on any superposition, the row of the table for the inputs is added to the outputs, without phases *)
Theorem C91_pprm : forall ins outs tt s, s = Pprm \/ s = PprmPt -> table_of (length ins) (length outs) tt -> NoDup (ins ++ outs) ->
  exists c, q_synth ins outs tt s = Some c /\ forall psi x, run c psi x = psi (looked_up tt ins outs x).
Proof.
  intros ins outs tt s S T ND. destruct (q_synth_some ins outs tt s T) as (c & E & C). exists c. split; [exact E|]. intros psi x. rewrite C. destruct S as [->| ->]; apply pprm_ok; assumption.
Qed.
Print Assumptions C91_pprm.
(** phase tolerant Gray synthesis of several outputs: the same up to phases, which depend on the inputs only *)
Theorem C91_gray_pt : forall ins outs tt, table_of (length ins) (length outs) tt -> NoDup (ins ++ outs) -> length outs <> 1 ->
  exists c, q_synth ins outs tt GrayPt = Some c /\
    forall psi x, run c psi x = cmul (cexpi ((weight tt 0 - weight tt (value ins x)) * half)%Qc) (psi (looked_up tt ins outs x)).
Proof.
  intros ins outs tt T ND M. destruct (q_synth_some ins outs tt GrayPt T) as (c & E & C). exists c. split; [exact E|]. intros psi x. rewrite C. apply gray_pt_ok; assumption.
Qed.
Print Assumptions C91_gray_pt.
(** Gray synthesis (the default) of one output, on at most two inputs *)
Theorem C91_gray_one : forall ins o tt s, s = Gray \/ s = GrayPt -> table_of (length ins) 1 tt -> NoDup (ins ++ [o]) -> length ins <= 2 ->
  exists c, q_synth ins [o] tt s = Some c /\ forall psi x, run c psi x = psi (looked_up tt ins [o] x).
Proof.
  intros ins o tt s S T ND H. destruct (q_synth_some ins [o] tt s T) as (c & E & C). exists c. split; [exact E|]. intros psi x. rewrite C. destruct (parts _ _ ND) as (NI & _ & NO).
  assert (G : run (single_qb ins o tt 0 false) psi x = psi (looked_up tt ins [o] x)); [|destruct S as [->| ->]; exact G].
  destruct T as (L & F). rewrite single_exact; [|exact L|exact NI|apply NO; left; reflexivity|intros b Hb; apply column_small; assumption].
  unfold looked_up. rewrite <- (map_cell 1) by (try exact F; rewrite L; apply value_lt). unfold add_bits. cbn [seq map combine fold_right fst snd]. reflexivity.
Qed.
Print Assumptions C91_gray_one.
(** the same for any number of inputs; missing: tables for which the least set of qubits condition of C64 fails, for which see
    [C91_gray_parity_refuted] *)
Theorem C91_gray_one_partial : forall ins o tt s, s = Gray \/ s = GrayPt -> table_of (length ins) 1 tt -> NoDup (ins ++ [o]) ->
  (forall b, b <= length ins -> least_pair (S (length ins)) (column_phases (length ins) tt 0) b) ->
  exists c, q_synth ins [o] tt s = Some c /\ forall psi x, run c psi x = psi (looked_up tt ins [o] x).
Proof.
  intros ins o tt s S T ND H. destruct (q_synth_some ins [o] tt s T) as (c & E & C). exists c. split; [exact E|]. intros psi x. rewrite C. destruct (parts _ _ ND) as (NI & _ & NO).
  assert (G : run (single_qb ins o tt 0 false) psi x = psi (looked_up tt ins [o] x)); [|destruct S as [->| ->]; exact G].
  destruct T as (L & F). rewrite single_exact; [|exact L|exact NI|apply NO; left; reflexivity|exact H].
  unfold looked_up. rewrite <- (map_cell 1) by (try exact F; rewrite L; apply value_lt). unfold add_bits. cbn [seq map combine fold_right fst snd]. reflexivity.
Qed.
Print Assumptions C91_gray_one_partial.
(** for the conjunction of any number of inputs there is no condition *)
Theorem C91_gray_and : forall ins o, NoDup (ins ++ [o]) -> exists c, q_synth ins [o] (and_table (length ins)) GrayPt = Some c /\
  forall psi x, run c psi x = psi (if forallb (tb x) ins then flip o x else x).
Proof.
  intros ins o ND. assert (T : table_of (length ins) 1 (and_table (length ins))).
  { split; [apply and_length|]. unfold and_table. apply Forall_app. split; [|repeat constructor]. apply Forall_forall. intros r Hr. apply repeat_spec in Hr. subst r. reflexivity. }
  destruct (C91_gray_one_partial ins o _ GrayPt (or_intror eq_refl) T ND (and_least (length ins))) as (c & E & R). exists c. split; [exact E|]. intros psi x. rewrite R. f_equal.
  destruct T as (L & F). unfold looked_up. rewrite <- (map_cell 1) by (try exact F; rewrite L; apply value_lt). unfold add_bits. cbn [seq map combine fold_right fst snd]. rewrite and_cell by apply value_lt.
  assert (V : (value ins x =? 2 ^ length ins - 1) = forallb (tb x) ins); [|rewrite V; reflexivity]. unfold value. rewrite <- (map_length (tb x) ins), number_full. apply forallb_id_map.
Qed.
Print Assumptions C91_gray_and.
(** Gray synthesis of several outputs: the values are right, and the states get phases unless the rows for an input and for the
    input with its bits reversed have equally many ones; missing: right phases (see [C91_gray_phases_refuted]) and residual phases that
    Gray synthesis gets wrong (see C64) *)
Theorem C91_gray_partial : forall ins outs tt, table_of (length ins) (length outs) tt -> NoDup (ins ++ outs) -> length outs <> 1 ->
  (forall b, b < length ins -> least_pair (length ins) (residual_phases tt) b) ->
  exists c, q_synth ins outs tt Gray = Some c /\
    forall psi x, run c psi x = cmul (cexpi ((weight tt (value (rev ins) x) - weight tt (value ins x)) * half)%Qc) (psi (looked_up tt ins outs x)).
Proof.
  intros ins outs tt T ND M LP. destruct (q_synth_some ins outs tt Gray T) as (c & E & C). exists c. split; [exact E|]. intros psi x. rewrite C. apply gray_ok; assumption.
Qed.
Print Assumptions C91_gray_partial.
(** hence one input qubit is no problem *)
Theorem C91_gray_one_input : forall i outs tt, table_of 1 (length outs) tt -> NoDup (i :: outs) -> length outs <> 1 ->
  exists c, q_synth [i] outs tt Gray = Some c /\ forall psi x, run c psi x = psi (looked_up tt [i] outs x).
Proof.
  intros i outs tt T ND M. destruct (C91_gray_partial [i] outs tt T ND M) as (c & E & R); [intros b Hb; apply low_pair; cbn in Hb; lia|].
  exists c. split; [exact E|]. intros psi x. rewrite R. cbn [rev app]. replace ((weight tt (value [i] x) - weight tt (value [i] x)) * half)%Qc with 0%Qc by ring.
  rewrite LookProofs.exp_0. apply cplx_eq; cbn; ring.
Qed.
Print Assumptions C91_gray_one_input.
(** the phases are wrong: the first output copies the first of two inputs, the second one is zero *)
Theorem C91_gray_phases_refuted : exists ins outs tt c, table_of (length ins) (length outs) tt /\ NoDup (ins ++ outs) /\ q_synth ins outs tt Gray = Some c /\
  ~ exists k : cplx, forall psi x, run c psi x = cmul k (psi (looked_up tt ins outs x)).
Proof.
  exists [0; 1], [2; 3], copy_table. destruct (q_synth_some [0; 1] [2; 3] copy_table Gray copy_fits) as (c & E & C). exists c. split; [exact copy_fits|].
  split; [repeat constructor; cbn; intuition lia|]. split; [exact E|]. rewrite C. exact copy_wrong.
Qed.
Print Assumptions C91_gray_phases_refuted.
(** the values are wrong: the parity of three inputs. An outcome that should have amplitude 1 has amplitude 0 *)
Theorem C91_gray_parity_refuted : exists ins outs tt c psi x, table_of (length ins) (length outs) tt /\ NoDup (ins ++ outs) /\ q_synth ins outs tt Gray = Some c /\
  run c psi x = c0 /\ psi (looked_up tt ins outs x) = c1.
Proof.
  destruct parity_wrong as (psi & x & A & B). assert (T : table_of 3 1 parity_table) by (split; [reflexivity|repeat constructor]).
  exists [0; 1; 2], [3], parity_table. destruct (q_synth_some [0; 1; 2] [3] parity_table Gray T) as (c & E & C). exists c, psi, x. split; [exact T|].
  split; [repeat constructor; cbn; intuition lia|]. split; [exact E|]. rewrite C. auto.
Qed.
Print Assumptions C91_gray_parity_refuted.
(** registers of other sizes than the table are refused *)
Theorem C91_sizes : forall ins outs tt s n m, table_of n m tt -> length ins <> n \/ length outs <> m -> q_synth ins outs tt s = None.
Proof.
  intros ins outs tt s n m T H. destruct (width_ok n m tt T) as (W & B). unfold q_synth. rewrite W, B. destruct (Nat.eqb_spec (length outs) m); [|reflexivity]. destruct (Nat.eqb_spec (length ins) n); [tauto|reflexivity].
Qed.
Print Assumptions C91_sizes.
(** a dictionary with quantum keys, loaded by polynomials: for each superposition of keys, the code of the value for the key is added
    to the result (nothing for keys that are not in the dictionary) *)
Theorem C91_dictionary : forall V keys kregs (d : label -> option V) venc vreg s, s = Pprm \/ s = PprmPt ->
  Forall proper keys -> plain_keys keys -> registers keys kregs -> NoDup (concat kregs ++ vreg) -> encodable keys d venc (length vreg) ->
  exists c, load keys kregs d venc vreg s = Some c /\
    forall psi x, run c psi x = psi (add_bits vreg (word d venc (length vreg) (key_label keys (map (fun r => value r x) kregs))) x).
Proof.
  intros V keys kregs d venc vreg s S P PK R ND EN. destruct (load_ok keys kregs d venc vreg s P PK R ND EN) as (tt & c & E & Q & T & W). exists c. split; [exact E|]. intros psi x. rewrite <- W.
  destruct (C91_pprm (concat kregs) vreg tt s S T ND) as (c' & Q' & H). rewrite Q in Q'. injection Q' as <-. apply H.
Qed.
Print Assumptions C91_dictionary.
(** loaded phase tolerantly: the same up to phases that depend on the keys *)
Theorem C91_dictionary_pt : forall V keys kregs (d : label -> option V) venc vreg,
  Forall proper keys -> plain_keys keys -> registers keys kregs -> NoDup (concat kregs ++ vreg) -> encodable keys d venc (length vreg) -> length vreg <> 1 ->
  exists c (phase : nat -> Qc), load keys kregs d venc vreg GrayPt = Some c /\
    forall psi x, run c psi x = cmul (cexpi (phase (value (concat kregs) x))) (psi (add_bits vreg (word d venc (length vreg) (key_label keys (map (fun r => value r x) kregs))) x)).
Proof.
  intros V keys kregs d venc vreg P PK R ND EN M. destruct (load_ok keys kregs d venc vreg GrayPt P PK R ND EN) as (tt & c & E & Q & T & W).
  exists c, (fun v => ((weight tt 0 - weight tt v) * half)%Qc). split; [exact E|]. intros psi x. rewrite <- W.
  destruct (C91_gray_pt (concat kregs) vreg tt T ND M) as (c' & Q' & H). rewrite Q in Q'. injection Q' as <-. apply H.
Qed.
Print Assumptions C91_dictionary_pt.
(** the default for values of several qubits: the values are right if Gray synthesis gets the residual phases right (always for keys
    with at most two qubits); missing: phases, and other keys *)
Theorem C91_dictionary_gray_partial : forall V keys kregs (d : label -> option V) venc vreg,
  Forall proper keys -> plain_keys keys -> registers keys kregs -> NoDup (concat kregs ++ vreg) -> encodable keys d venc (length vreg) -> length vreg <> 1 -> length (concat kregs) <= 2 ->
  exists c (phase : N -> Qc), load keys kregs d venc vreg Gray = Some c /\
    forall psi x, run c psi x = cmul (cexpi (phase x)) (psi (add_bits vreg (word d venc (length vreg) (key_label keys (map (fun r => value r x) kregs))) x)).
Proof.
  intros V keys kregs d venc vreg P PK R ND EN M K. destruct (load_ok keys kregs d venc vreg Gray P PK R ND EN) as (tt & c & E & Q & T & W).
  exists c, (fun x => ((weight tt (value (rev (concat kregs)) x) - weight tt (value (concat kregs) x)) * half)%Qc). split; [exact E|]. intros psi x. rewrite <- W.
  destruct (C91_gray_partial (concat kregs) vreg tt T ND M) as (c' & Q' & H); [intros b Hb; apply low_pair; lia|]. rewrite Q in Q'. injection Q' as <-. apply H.
Qed.
Print Assumptions C91_dictionary_gray_partial.
(** a key whose labels are tuples is refused although they are keys of the dictionary *)
Theorem C91_dictionary_tuple_refuted : exists (k : qv) (reg vreg : list nat) (d : label -> option nat), proper k /\ length reg = qsize k /\ NoDup (reg ++ vreg) /\
  encodable [k] d Some (length vreg) /\ (forall i, i < 2 ^ qsize k -> d (decoder k i) = Some i) /\ forall s, load [k] [reg] d Some vreg s = None.
Proof.
  exists (custom_qv [Tuple [Atom 1; Atom 2]; Tuple [Atom 3; Atom 4]]), [0], [1],
    (fun l => if label_eqb l (Tuple [Atom 1; Atom 2]) then Some 0 else if label_eqb l (Tuple [Atom 3; Atom 4]) then Some 1 else None).
  assert (Q : qsize (custom_qv [Tuple [Atom 1; Atom 2]; Tuple [Atom 3; Atom 4]]) = 1) by reflexivity. rewrite Q. split; [|split; [reflexivity|split; [repeat constructor; cbn; intuition lia|split; [|split]]]].
  - intros i Hi. rewrite Q in Hi. destruct i as [|[|i]]; [reflexivity|reflexivity|cbn in Hi; lia].
  - intros vs v F D. exists v. split; [reflexivity|]. destruct (label_eqb _ _); [injection D as <-; cbn; lia|]. destruct (label_eqb _ _); [injection D as <-; cbn; lia|discriminate].
  - intros i Hi. destruct i as [|[|i]]; [reflexivity|reflexivity|cbn in Hi; lia].
  - intros s. reflexivity.
Qed.
Print Assumptions C91_dictionary_tuple_refuted.

(** the half adder: two inputs, sum and carry *)
Definition half_adder : table := [[false; false]; [true; false]; [true; false]; [false; true]].
Example C91_ex_table : table_of 2 2 half_adder /\ NoDup ([0; 1] ++ [2; 3]).
Proof. split; [split; [reflexivity|repeat constructor]|repeat constructor; cbn; intuition lia]. Qed.
Example C91_ex_synth : q_synth [0; 1] [2; 3] half_adder Pprm = Some [LCX 0 2; LCX 1 2; LMCX [0; 1] 3] /\ looked_up half_adder [0; 1] [2; 3] 3 = 11%N.
Proof. split; reflexivity. Qed.
(** a dictionary 5 -> 2, 7 -> 1 with keys of two variables with the labels 5, 6, 7 and 0, 1; the second must be 1 *)
Definition ex_keys : list qv := [custom_qv [Atom 5; Atom 6; Atom 7]; custom_qv [Atom 0; Atom 1]].
Definition ex_dict (l : label) : option nat := if label_eqb l (Tuple [Atom 5; Atom 1]) then Some 2 else if label_eqb l (Tuple [Atom 7; Atom 1]) then Some 1 else None.
Example C91_ex_dictionary : Forall proper ex_keys /\ plain_keys ex_keys /\ registers ex_keys [[0; 1]; [2]] /\ encodable ex_keys ex_dict Some 2 /\
  load_table ex_keys ex_dict Some 2 = Some (map (fun i => if i =? 4 then [false; true] else if i =? 6 then [true; false] else [false; false]) (seq 0 8)).
Proof.
  assert (Q1 : qsize (custom_qv [Atom 5; Atom 6; Atom 7]) = 2) by reflexivity. assert (Q2 : qsize (custom_qv [Atom 0; Atom 1]) = 1) by reflexivity.
  split; [|split; [exact I|split; [repeat constructor|split; [|reflexivity]]]].
  - constructor; [|constructor; [|constructor]]; intros i Hi; [rewrite Q1 in Hi|rewrite Q2 in Hi]; cbn in Hi; destruct i as [|[|[|[|i]]]]; try reflexivity; lia.
  - intros vs v F D. exists v. split; [reflexivity|]. unfold ex_dict in D. destruct (label_eqb _ _); [injection D as <-; cbn; lia|]. destruct (label_eqb _ _); [injection D as <-; cbn; lia|discriminate].
Qed.
