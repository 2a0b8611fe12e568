(** C34 and C35. *)
From Coq Require Import ZArith.
From Verif.Passes Require Import PassModel PassSpec PassProofs ZeroProofs.
Local Open Scope nat_scope.

(** integer amplitudes, for the examples *)
Definition Zring : comring := {| car := Z; zero := 0%Z; one := 1%Z; add := Z.add; mul := Z.mul; sub := Z.sub; opp := Z.opp; laws := Zth |}.
Definition zmat1 (a b c d : Z) : mat Zring := fun r s => match r, s with
  | [false], [false] => a | [false], [true] => b | [true], [false] => c | [true], [true] => d | _, _ => 0%Z end.
Definition zdiag2 (a b c d : Z) : mat Zring := fun r s => if beqs r s then match r with
  | [false; false] => a | [false; true] => b | [true; false] => c | [true; true] => d | _ => 0%Z end else 0%Z.
Definition xop : op Zring := {| okind := KOther; ctrl := None; base_p := false; omat := zmat1 0 1 1 0 |}.
Definition hop : op Zring := {| okind := KOther; ctrl := None; base_p := false; omat := zmat1 1 1 1 (-1) |}.   (* unnormalised *)
Definition sop : op Zring := {| okind := KDiag1; ctrl := None; base_p := false; omat := zmat1 1 0 0 (-1) |}.
Definition swop : op Zring := {| okind := KSwap; ctrl := None; base_p := false; omat := swapm |}.
Definition czop : op Zring := {| okind := KCPhase; ctrl := Some [true]; base_p := false; omat := zdiag2 1 1 1 (-1) |}.
Definition on (o : op Zring) (qs : list nat) : instr Zring := {| iop := o; iqs := qs; icl := [] |}.
Definition ket (k : list bool) : vec Zring := fun x => if beqs k x then 1%Z else 0%Z.

(** C34. resolve_swaps removes every swap; the new circuit is the old one up to the returned permutation of the qubits. *)
Theorem C34_resolve_swaps (R : comring) (n : nat) (data : list (instr R)) (v : vec R) :
  Forall (named_ok n) data ->
  let '(out, perm) := resolve_swaps n data in
  permutes n (fun q => nth q perm 0) /\ Forall (fun i => is_swap i = false) out /\
  forall x, length x = n -> run out v x = run data v (relist n (fun q => nth q perm 0) x).
Proof. exact (resolve_ok n data v). Qed.
Print Assumptions C34_resolve_swaps.
(** commute_swaps, on circuits without classical bits, has the same action. *)
Theorem C34_commute_swaps (R : comring) (n : nat) (data : list (instr R)) (v : vec R) :
  Forall (fun i => named_ok n i /\ icl i = []) data -> forall x, length x = n -> run (commute_swaps data) v x = run data v x.
Proof. intros F. apply (commute_ok n data v). revert F. apply Forall_impl. intros i [H _]. exact H. Qed.
Print Assumptions C34_commute_swaps.
(** arrange_swaps has the same action on the all-zero register as the circuit without its (de)allocations, and the second
    qubit of every remaining swap occurs in an earlier instruction. *)
Theorem C34_arrange_swaps (R : comring) (n : nat) (data : list (instr R)) (v : vec R) :
  Forall (named_ok n) data -> all_zero n v ->
  (forall x, length x = n -> run (arrange_swaps data) v x = run (filter (fun i => negb (is_alloc i)) data) v x) /\
  (forall l1 s l2, arrange_swaps data = l1 ++ s :: l2 -> is_swap s = true -> exists j, In j l1 /\ In (nth 1 (iqs s) 0) (iqs j)).
Proof. exact (arrange_ok n data v). Qed.
Print Assumptions C34_arrange_swaps.
Definition c34_data := [on hop [0]; on xop [1]; on swop [0; 1]; on czop [1; 2]; on swop [2; 0]; on sop [0]].
Example C34_ex : Forall (fun i => named_ok 3 i /\ icl i = []) c34_data /\ all_zero 3 (ket [false; false; false]) /\
  resolve_swaps 3 c34_data = ([on hop [0]; on xop [1]; on czop [0; 2]; on sop [2]], [2; 0; 1]) /\
  commute_swaps c34_data = [on swop [0; 1]; on hop [1]; on czop [1; 2]; on swop [2; 0]; on xop [2]; on sop [0]] /\
  arrange_swaps [on xop [0]; on swop [0; 1]; on swop [2; 3]] = [on xop [0]; on swop [1; 0]] /\
  run c34_data (ket [false; false; false]) [false; true; true] = 1%Z.
Proof.
  split; [|split; [|repeat split; reflexivity]].
  - unfold c34_data. repeat apply Forall_cons; try apply Forall_nil; (split; [split; [split; [repeat constructor; cbn; intuition discriminate|cbn; intuition lia]|cbn; auto]|reflexivity]).
  - intros q Hq x Lx Hx. unfold ket. destruct x as [|a [|b [|c [|? ?]]]]; try discriminate. destruct q as [|[|[|q]]]; try lia; cbn in Hx; subst; destruct a || idtac; cbn; try reflexivity; destruct b; reflexivity.
Qed.
(** With classical bits commute_swaps may exchange a measurement and a later operation on the same classical bit:
    here the gate conditioned on bit 0 comes to stand before the measurement that writes it. *)
Theorem C34_commute_swaps_classical_refuted : exists (measure cond : op Zring) (data : list (instr Zring)),
  map iop (filter (fun i => mem 0 (icl i)) data) = [measure; cond] /\
  map iop (filter (fun i => mem 0 (icl i)) (commute_swaps data)) = [cond; measure] /\ okind measure <> okind cond.
Proof.
  exists sop, xop, [{| iop := sop; iqs := [0]; icl := [0] |}; {| iop := xop; iqs := [1]; icl := [0] |}; on swop [0; 2]].
  repeat split. discriminate.
Qed.
Print Assumptions C34_commute_swaps_classical_refuted.

(** C35. cancel_zero_controls has the same action on the all-zero register, when the gates named cp / cz are diag(1,1,1,k),
    controlled gates act only if their controls are in the control state, and allocation leaves a qubit in |0>. *)
Theorem C35_cancel_zero_controls_partial (R : comring) (n : nat) (data : list (instr R)) (v : vec R) :
  Forall (controls_ok n) data -> all_zero n v -> forall x, length x = n -> run (cancel_zero_controls n data) v x = run data v x.
Proof. exact (cancel_ok n data v). Qed.
Print Assumptions C35_cancel_zero_controls_partial.
Definition c35_data := [on sop [0]; on hop [1]; on czop [0; 1]; on xop [0]; on czop [0; 1]; on swop [2; 1]].
Example C35_ex : Forall (controls_ok 3) c35_data /\ cancel_zero_controls 3 c35_data = [on sop [0]; on hop [1]; on xop [0]; on czop [0; 1]; on swop [2; 1]].
Proof.
  split; [|reflexivity].
  assert (C1 : cphase (omat czop)).
  { exists (-1)%Z. intros [|[] [|[] [|? ?]]] [|[] [|[] [|? ?]]]; try discriminate; reflexivity. }
  assert (C2 : controlled [true] 2 (omat czop)).
  { split; [cbn; lia|]. intros [|[] [|[] [|? ?]]] [|[] [|[] [|? ?]]]; try discriminate; reflexivity. }
  unfold c35_data. repeat apply Forall_cons; try apply Forall_nil;
    (split; [split; [repeat constructor; cbn; intuition discriminate|cbn; intuition lia]|split; [cbn; intuition discriminate|split; [cbn; intros cs E; try discriminate E; injection E as <-; exact C2|cbn; auto]]]).
Qed.
(** The deviation: cz with an inverted control is still called cz, and is dropped when that control is |0>, although it acts. *)
Theorem C35_cancel_zero_controls_refuted : exists (cz0 : op Zring) (data : list (instr Zring)) (v : vec Zring) (x : list bool),
  okind cz0 = KCPhase /\ ctrl cz0 = Some [false] /\ controlled [false] 2 (omat cz0) /\ (omat cz0 [false; true] [false; true] = -1)%Z /\
  data = [on hop [1]; on cz0 [0; 1]] /\ all_zero 2 v /\ run (cancel_zero_controls 2 data) v x <> run data v x.
Proof.
  exists {| okind := KCPhase; ctrl := Some [false]; base_p := false; omat := zdiag2 1 (-1) 1 1 |}. eexists. exists (ket [false; false]), [false; true].
  split; [reflexivity|]. split; [reflexivity|]. split.
  { split; [cbn; lia|]. intros [|[] [|[] [|? ?]]] [|[] [|[] [|? ?]]]; try discriminate; reflexivity. }
  split; [reflexivity|]. split; [reflexivity|]. split.
  - intros q Hq x Lx Hx. destruct x as [|a [|b [|? ?]]]; try discriminate. destruct q as [|[|q]]; try lia; cbn in Hx; subst; try destruct a; reflexivity.
  - vm_compute. discriminate.
Qed.
Print Assumptions C35_cancel_zero_controls_refuted.
