(** C64: synthesis of phases given by a list or a function (gray_synth_qc, app_phase_function). *)
From Coq Require Import QArith.
From Verif.Gray Require Import GrayModel GraySpec GrayProofs GrayWalk GrayEmit GrayFinal.
Local Open Scope nat_scope.

(** every state keeps its bits and gets its phase (up to the global phase); missing: lists of phases in which the least set of
    qubits for some highest qubit has three or more elements, for which see the refuted theorem *)
Theorem C64_gray_synth_partial n phases : (forall b, b < n -> least_pair n phases b) -> forall x, state n x ->
  action (gray_synth_qc n phases false) x = ((phase_of n phases x - phase_of n phases 0)%Qc, x).
Proof. exact (gray_correct n phases). Qed.
Print Assumptions C64_gray_synth_partial.

(** no condition is needed for at most two qubits *)
Theorem C64_two_qubits n phases : n <= 2 -> forall x, state n x ->
  action (gray_synth_qc n phases false) x = ((phase_of n phases x - phase_of n phases 0)%Qc, x).
Proof. intros H. apply gray_correct. intros b Hb. apply few_qubits; assumption. Qed.
Print Assumptions C64_two_qubits.

(** nor for the multi-controlled phase, on any number of qubits *)
Theorem C64_multi_controlled_phase n a x : 0 < n -> state n x ->
  action (gray_synth_qc n (repeat 0%Qc (2 ^ n - 1) ++ [a]) false) x = (if N.eqb x (N.ones (N.of_nat n)) then a else 0%Qc, x).
Proof. exact (mcp_correct n a x). Qed.
Print Assumptions C64_multi_controlled_phase.

(** nor for two phases on the last qubit, controlled on all the others (rz and the likes) *)
Theorem C64_controlled_pair n a0 a1 x : 0 < n -> state (S n) x ->
  action (gray_synth_qc (S n) (repeat 0%Qc (2 ^ S n - 2) ++ [a0; a1]) false) x =
  (if forallb (tb x) (seq 0 n) then (if tb x n then a1 else a0) else 0%Qc, x).
Proof. exact (pair_correct n a0 a1 x). Qed.
Print Assumptions C64_controlled_pair.

(** phase tolerant synthesis: states keep their bits, and the two states that differ in the last qubit get the right phase
    difference *)
Theorem C64_phase_tolerant_partial n phases : least_pair (S n) phases n ->
  exists shift, (forall x, action (gray_synth_qc (S n) phases true) x = (shift x, x)) /\
    forall x, state (S n) x -> (shift x - shift (N.lxor x (bit n)) = phase_of (S n) phases x - phase_of (S n) phases (N.lxor x (bit n)))%Qc.
Proof. exact (gray_tolerant n phases). Qed.
Print Assumptions C64_phase_tolerant_partial.

(** app_phase_function: registers of any sizes with values vs get the phase phi vs * t *)
Theorem C64_phase_function_partial sizes phi t : let n := list_sum sizes in let phases := map (fun vs => (phi vs * t)%Qc) (products sizes) in
  (forall b, b < n -> least_pair n phases b) -> forall vs x, fit sizes vs -> holds x (registers sizes vs) ->
  action (app_phase_function sizes phi t) x = ((phi vs * t - phi (map (fun _ => 0%nat) sizes) * t)%Qc, x).
Proof. exact (phase_function_correct sizes phi t). Qed.
Print Assumptions C64_phase_function_partial.

(** the controlled gate has the phases of the gate where the controls match, and none elsewhere *)
Theorem C64_control k n cs phases x : length phases = 2 ^ n ->
  phase_of (k + n) (control_phases k cs phases) x = if index k x =? cs then phase_of n phases (N.shiftr x (N.of_nat k)) else 0%Qc.
Proof. exact (control_phase_of k n cs phases x). Qed.
Print Assumptions C64_control.

(** the phases of the parity of three qubits: the circuit does not even leave the states alone *)
Definition parity_phases : list Qc := map (fun b : bool => if b then 1%Qc else 0%Qc) [false; true; true; false; true; false; false; true].
Theorem C64_parity_refuted : exists n phases x, length phases = 2 ^ n /\ state n x /\ snd (action (gray_synth_qc n phases false) x) <> x.
Proof. exists 3, parity_phases, 2%N. split; [reflexivity|]. split; [reflexivity|]. vm_compute. discriminate. Qed.
Print Assumptions C64_parity_refuted.
(** as a phase function of three one-qubit variables *)
Theorem C64_phase_function_refuted : exists sizes phi t vs x, fit sizes vs /\ holds x (registers sizes vs) /\
  snd (action (app_phase_function sizes phi t) x) <> x.
Proof.
  exists [1; 1; 1], (fun vs => if Nat.odd (list_sum vs) then 1%Qc else 0%Qc), 1%Qc, [0; 1; 0], 2%N.
  split; [repeat constructor|]. split; [split; [reflexivity|]; intros j Hj; cbn in Hj; destruct j as [|[|[|j]]]; try lia; reflexivity|]. vm_compute. discriminate.
Qed.
Print Assumptions C64_phase_function_refuted.

(** three qubits, phase i for state i *)
Definition ex_phases : list Qc := map (fun i => Q2Qc (inject_Z (Z.of_nat i))) (seq 0 8).
Example C64_ex_pairs : forall b, b < 3 -> least_pair 3 ex_phases b.
Proof.
  intros b Hb p Hp D _. assert (C : forall q, In q [3; 5; 6; 7]%N -> coefficient 3 ex_phases q = 0%Qc).
  { intros q Hq. cbn in Hq. destruct Hq as [<-|[<-|[<-|[<-|[]]]]]; apply Qc_is_canon; vm_compute; reflexivity. }
  left. assert (b = 0 \/ b = 1 \/ b = 2) as [->|[->| ->]] by lia; unfold bit in *; cbn in Hp |- *.
  - lia.
  - assert (p = 2 \/ p = 3)%N as [->| ->] by lia; [reflexivity|]. exfalso. apply D, C. cbn; auto.
  - assert (p = 4 \/ p = 5 \/ p = 6 \/ p = 7)%N as [->|[->|[->| ->]]] by lia; [reflexivity| | |]; exfalso; apply D, C; cbn; auto.
Qed.
Example C64_ex : map (fun x => (this (fst (action (gray_synth_qc 3 ex_phases false) x)), snd (action (gray_synth_qc 3 ex_phases false) x))) [0; 1; 2; 4; 7]%N
  = [(inject_Z 0, 0); (inject_Z 4, 1); (inject_Z 2, 2); (inject_Z 1, 4); (inject_Z 7, 7)]%N.
Proof. vm_compute. reflexivity. Qed.
