(** C41: cyclic_shift and permute_iterable. C42: demux, q_indexing and q_swap_into. *)
From Coq Require Import ZArith List Bool Arith Lia.
From Verif.Iterables Require Import IterModel IterSpec IterProofs ShiftProofs DemuxProofs.
Import ListNotations.

(** For every non-empty list of distinct entries, every integer k and every content, cyclic_shift moves entry i to (i+k) mod N, ... *)
Theorem C41_cyclic_shift_partial : forall (A : Type) ids k (st : nat -> A), NoDup ids -> ids <> [] ->
  exists sw, cyclic_shift ids k = Some sw /\ shifted ids k st (run_swaps sw st).
Proof. intros A. exact cyclic_ok. Qed.
Print Assumptions C41_cyclic_shift_partial.
(** ... but the empty one, a shift of which is a shift by nothing, raises. *)
Theorem C41_empty_refuted : forall k, cyclic_shift [] k = None.
Proof. reflexivity. Qed.
Print Assumptions C41_empty_refuted.
(** When tracing, the same for every k. *)
Theorem C41_traced : forall (A : Type) ids k (st : nat -> A), NoDup ids -> ids <> [] -> shifted ids k st (run_swaps (cyclic_shift_jasp ids k) st).
Proof. intros A. exact jasp_ok. Qed.
Print Assumptions C41_traced.
(** A QuantumFloat with a non-negative exponent shifts by its (signed) value. *)
Theorem C41_quantum : forall (A : Type) ids e bits sign (st : nat -> A), NoDup ids -> ids <> [] -> (0 <= e)%Z ->
  exists sw, cyclic_shift_quantum ids e bits sign = Some sw /\
    shifted ids (2 ^ e * (numberZ bits - (match sign with Some true => 2 ^ Z.of_nat (length bits) | _ => 0 end))) st (run_swaps sw st).
Proof. intros A. exact quantum_ok. Qed.
Print Assumptions C41_quantum.
(** permute_iterable puts the content of entry perm[i] into entry i. *)
Theorem C41_permute : forall (A : Type) ids perm (st : nat -> A), NoDup ids -> is_perm perm -> length perm = length ids ->
  exists sw, permute_iterable ids perm = Some sw /\ rearranged ids (fun i => nth i perm 0) st (run_swaps sw st).
Proof. intros A. exact permute_ok. Qed.
Print Assumptions C41_permute.
Example C41_ex_shift : option_map (fun sw => map (run_swaps sw (fun x => 10 * x)) [4; 7; 1; 9; 2; 5; 3]) (cyclic_shift [4; 7; 1; 9; 2; 5; 3] (-2)) = Some [10; 90; 20; 50; 30; 40; 70].
Proof. vm_compute. reflexivity. Qed.
Example C41_ex_permute : option_map (fun sw => map (run_swaps sw (fun x => 10 * x)) [4; 7; 1; 9; 2]) (permute_iterable [4; 7; 1; 9; 2] [3; 2; 0; 1; 4]) = Some [90; 10; 40; 70; 20] /\ is_perm [3; 2; 0; 1; 4].
Proof. split; [vm_compute; reflexivity|]. split; [repeat (constructor; [cbn; lia|]); constructor|]. cbn. lia. Qed.

(** demux puts the input into the output with the number in the control value, for full outputs or, when the sizes may differ,
    outputs not longer than the control value's range. Other qubits are unchanged; if all other outputs are in the same state,
    they and the input stay so; in any case the contents are only permuted. *)
Theorem C42_demux_partial : forall (A : Type) permit ctrl out input (st : nat -> A),
  NoDup out -> out <> [] -> length out <= 2 ^ length ctrl -> (permit = false -> length out = 2 ^ length ctrl) -> ~ In input (tl out) ->
  exists sw, demux_from permit input ctrl out = Some sw /\
    (number ctrl < length out -> run_swaps sw st (nth (number ctrl) out 0) = st input) /\
    (forall x, ~ In x out -> x <> input -> run_swaps sw st x = st x) /\
    (forall z, number ctrl < length out -> (forall x, In x out -> x <> input -> st x = z) ->
       forall x, x = input \/ In x out -> x <> nth (number ctrl) out 0 -> run_swaps sw st x = z) /\
    (exists g, (forall x y, g x = g y -> x = y) /\ forall x, run_swaps sw st x = st (g x)).
Proof. intros A. exact demux_from_ok. Qed.
Print Assumptions C42_demux_partial.
(** With permit_mismatching_size and more outputs than control values, another output than the one asked for receives the input. *)
Theorem C42_long_refuted : exists ctrl out sw, NoDup out /\ number ctrl < length out /\ demux_from true (nth 0 out 0) ctrl out = Some sw /\
  run_swaps sw (fun x => x) (nth (number ctrl) out 0) <> nth 0 out 0.
Proof.
  exists [true], [1; 2; 3; 4], [(1, 3)]. split; [repeat (constructor; [cbn; lia|]); constructor|]. split; [cbn; lia|]. split; [vm_compute; reflexivity|]. vm_compute. discriminate.
Qed.
Print Assumptions C42_long_refuted.
(** q_indexing returns the entry with the given number and changes nothing. *)
Theorem C42_indexing : forall (A : Type) ctrl out (st : nat -> A), NoDup out -> length out = 2 ^ length ctrl ->
  exists st', q_indexing out ctrl st = Some (st (nth (number ctrl) out 0), st') /\ forall x, st' x = st x.
Proof. intros A. exact q_indexing_ok. Qed.
Print Assumptions C42_indexing.
(** q_swap_into exchanges the value with the entry with the given number and changes nothing else. *)
Theorem C42_swap_into : forall (A : Type) ctrl out qv (st : nat -> A), NoDup out -> length out = 2 ^ length ctrl -> ~ In qv out ->
  exists st', q_swap_into out ctrl qv st = Some st' /\ st' (nth (number ctrl) out 0) = st qv /\ st' qv = st (nth (number ctrl) out 0) /\
    forall x, x <> qv -> x <> nth (number ctrl) out 0 -> st' x = st x.
Proof. intros A. exact q_swap_ok. Qed.
Print Assumptions C42_swap_into.
Example C42_ex_demux : option_map (fun sw => map (run_swaps sw (fun x => x =? 9)) [9; 0; 1; 2; 3; 4; 5; 6; 7]) (demux_from false 9 [true; false; true] [0; 1; 2; 3; 4; 5; 6; 7]) =
  Some [false; false; false; false; false; false; true; false; false].
Proof. vm_compute. reflexivity. Qed.
Example C42_ex_short : option_map (fun sw => map (run_swaps sw (fun x => x)) [0; 1; 2; 3; 4]) (demux_from true 0 [true; false; false] [0; 1; 2; 3; 4]) = Some [4; 1; 2; 3; 0].
Proof. vm_compute. reflexivity. Qed.
Example C42_ex_index : option_map fst (q_indexing [10; 11; 12; 13] [true; false] (fun x => 2 * x)) = Some 24.
Proof. vm_compute. reflexivity. Qed.
