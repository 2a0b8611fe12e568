(** C14, C15: in-place adders. *)
From Verif.Lib Require Import Rev.
From Verif.Adders Require Import CuccaroModel CuccaroProofs GidneyModel GidneyProofs AddersSpec AddersWrap.

(** ** C14: Cuccaro adder *)
(** quantum summand of any width [da], target of any width [db]; the control, carry-in and
    carry-out are optional.  The phase never changes, so the statement carries over to superpositions. *)
Theorem C14_adder_partial : forall da db (cin cout ctrl : bool) p (s : bstate),
  1 <= db -> clean s 3 (max da db) -> clean s 2 (db - da) ->
  exists s', run (cuccaro_adder da db cin cout ctrl) (p, s) = Some (p, s') /\
    num s' 1 db = (if active ctrl s then (num s 0 da + num s 1 db + carry_in cin s) mod 2 ^ Z.of_nat db else num s 1 db)%Z /\
    (active ctrl s = true \/ cout = false -> s' (5, 0) = if cout then xorb (s (5, 0)) (2 ^ Z.of_nat db <=? num s 0 da mod 2 ^ Z.of_nat db + num s 1 db + carry_in cin s)%Z
                 else s (5, 0)) /\
    rest_unchanged db s s'.
Proof. exact c14_adder. Qed.
Print Assumptions C14_adder_partial.

Theorem C14_classical_partial : forall v db (cin cout ctrl : bool) p (s : bstate),
  1 <= db -> (0 <= v < 2 ^ Z.of_nat db)%Z -> clean s 0 db -> clean s 3 db ->
  exists s', run (cuccaro_adder_classical v db cin cout ctrl) (p, s) = Some (p, s') /\
    num s' 1 db = (if active ctrl s then (v + num s 1 db + carry_in cin s) mod 2 ^ Z.of_nat db else num s 1 db)%Z /\
    (active ctrl s = true \/ cout = false -> s' (5, 0) = if cout then xorb (s (5, 0)) (2 ^ Z.of_nat db <=? v + num s 1 db + carry_in cin s)%Z else s (5, 0)) /\
    rest_unchanged db s s'.
Proof. exact c14_classical. Qed.
Print Assumptions C14_classical_partial.

(** With a control that is off, the carry-out qubit is flipped all the same. *)
Theorem C14_controlled_carry_out_refuted :
  exists s s', active true s = false /\ run (cuccaro_adder 1 1 false true true) (0%Z, s) = Some (0%Z, s') /\ s' (5, 0) <> s (5, 0).
Proof. exact c14_cout_refuted. Qed.
Print Assumptions C14_controlled_carry_out_refuted.

(** 11 + 6 + 1 = 18 = 2 mod 16 with carry, a five bit summand and a four bit target *)
Example C14_ex : clean (mk 11 6 true false false) 3 5 /\
  observe 4 (run (cuccaro_adder 5 4 true true false) (0%Z, mk 11 6 true false false)) = Some (0, 11, 2, true)%Z /\
  observe 4 (run (cuccaro_adder 3 4 false false true) (0%Z, mk 7 6 false false true)) = Some (0, 7, 13, false)%Z /\
  observe 4 (run (cuccaro_adder_classical 9 4 false true false) (0%Z, mk 0 9 false false false)) = Some (0, 0, 2, true)%Z.
Proof. split; [intros i _; reflexivity|]. vm_compute. repeat split. Qed.

(** ** C15: Gidney adders *)
(** uncontrolled, quantum summand: bits and phase *)
Theorem C15_quantum_adder : forall da db (cin cout : bool) p (s : bstate),
  1 <= db -> clean s 3 (db - 1 + bit1 cout) -> clean s 2 (db - da) ->
  exists s', run (gidney_adder da db cin cout false) (p, s) = Some (p, s') /\
    num s' 1 db = ((num s 0 da + num s 1 db + carry_in cin s) mod 2 ^ Z.of_nat db)%Z /\
    s' (5, 0) = (if cout then xorb (s (5, 0)) (2 ^ Z.of_nat db <=? num s 0 da mod 2 ^ Z.of_nat db + num s 1 db + carry_in cin s)%Z
                 else s (5, 0)) /\
    rest_unchanged db s s'.
Proof. exact c15_quantum. Qed.
Print Assumptions C15_quantum_adder.

(** controlled, quantum summand: all bits are right, the phase is not claimed (it is wrong, see below) *)
Theorem C15_controlled_quantum_adder_partial : forall da db (cin cout : bool) p (s : bstate),
  1 <= db -> clean s 3 (db - 1 + bit1 cout) -> clean s 2 (db - da) ->
  exists p' s', run (gidney_adder da db cin cout true) (p, s) = Some (p', s') /\
    num s' 1 db = (if active true s then (num s 0 da + num s 1 db + carry_in cin s) mod 2 ^ Z.of_nat db else num s 1 db)%Z /\
    s' (5, 0) = (if cout && active true s
                 then xorb (s (5, 0)) (2 ^ Z.of_nat db <=? num s 0 da mod 2 ^ Z.of_nat db + num s 1 db + carry_in cin s)%Z
                 else s (5, 0)) /\
    rest_unchanged db s s'.
Proof. exact c15_controlled. Qed.
Print Assumptions C15_controlled_quantum_adder_partial.

(** The controlled adder with a quantum summand, control off: the inputs b = 0 and b = 1 (a = 0) come
    back with a relative phase of i, so the operation is not the identity. *)
Theorem C15_controlled_phase_refuted : exists s1 s2 p1 p2 t1 t2,
  active true s1 = false /\ active true s2 = false /\
  run (gidney_adder 1 1 false false true) (0%Z, s1) = Some (p1, t1) /\
  run (gidney_adder 1 1 false false true) (0%Z, s2) = Some (p2, t2) /\
  (p1 mod 8 <> p2 mod 8)%Z.
Proof. exact c15_phase_refuted. Qed.
Print Assumptions C15_controlled_phase_refuted.

(** classical summand (reduced modulo 2^len b first), with or without control: bits and phase *)
Theorem C15_classical_adder : forall v db (cin cout ctrl : bool) p (s : bstate),
  1 <= db -> clean s 3 (db - 1 + bit1 cin + bit1 cout) ->
  exists s', run (gidney_adder_int v db cin cout ctrl) (p, s) = Some (p, s') /\
    num s' 1 db = (if active ctrl s then (v + num s 1 db + carry_in cin s) mod 2 ^ Z.of_nat db else num s 1 db)%Z /\
    s' (5, 0) = (if cout && active ctrl s
                 then xorb (s (5, 0)) (2 ^ Z.of_nat db <=? v mod 2 ^ Z.of_nat db + num s 1 db + carry_in cin s)%Z
                 else s (5, 0)) /\
    rest_unchanged db s s'.
Proof. exact c15_classical. Qed.
Print Assumptions C15_classical_adder.

(** traced scalars are not reduced; without carry-out this makes no difference *)
Theorem C15_traced_scalar_adder_partial : forall v db (cin ctrl : bool) p (s : bstate),
  1 <= db -> (0 <= v)%Z -> clean s 3 (db - 1 + bit1 cin) ->
  exists s', run (gidney_adder_traced_int v db cin false ctrl) (p, s) = Some (p, s') /\
    num s' 1 db = (if active ctrl s then (v + num s 1 db + carry_in cin s) mod 2 ^ Z.of_nat db else num s 1 db)%Z /\
    rest_unchanged db s s' /\ s' (5, 0) = s (5, 0).
Proof. exact c15_traced. Qed.
Print Assumptions C15_traced_scalar_adder_partial.
(** ... but with carry-out a too large traced scalar behaves differently from the same Python integer *)
Theorem C15_traced_carry_out_refuted : exists v s p1 t1 p2 t2,
  run (gidney_adder_int v 2 false true false) (0%Z, s) = Some (p1, t1) /\
  run (gidney_adder_traced_int v 2 false true false) (0%Z, s) = Some (p2, t2) /\ t1 (5, 0) <> t2 (5, 0).
Proof. exact c15_traced_refuted. Qed.
Print Assumptions C15_traced_carry_out_refuted.

Example C15_ex : clean (mk 11 6 true false true) 3 4 /\ clean (mk 11 6 true false true) 2 0 /\
  observe 4 (run (gidney_adder 4 4 true true false) (0%Z, mk 11 6 true false false)) = Some (0, 11, 2, true)%Z /\
  observe 4 (run (gidney_adder_int 27 4 true true true) (0%Z, mk 0 6 true false true)) = Some (0, 0, 2, true)%Z /\
  observe 4 (run (gidney_adder_int 27 4 true true true) (0%Z, mk 0 6 true false false)) = Some (0, 0, 6, false)%Z.
Proof. split; [|split]; try (intros i _; reflexivity). vm_compute. repeat split. Qed.
