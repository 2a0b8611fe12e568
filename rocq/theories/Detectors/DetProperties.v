(** Property C48: permute_detectors. [detectors], [same], [same_exact], [permuted], [enough_coords]: DetSpec.v. *)
From Verif.Detectors Require Import DetModel DetSpec DetProofs.
From Coq Require Import ZArith List Bool Permutation Lia Arith Ring.
Import ListNotations.
Local Open Scope nat_scope.

(** the call succeeds exactly for circuits without REPEAT and permutations of all detectors *)
Theorem C48_accepts : forall (R : Type) (rO : R) radd rsub circuit perm,
  (exists out, permute_detectors rO radd rsub circuit perm = Some out) <->
  (forall id, ~ In (Repeat id) circuit) /\ Permutation (seq 0 (length (filter is_detector circuit))) perm.
Proof. exact @permute_accepts. Qed.
Print Assumptions C48_accepts.

(** all other instructions stay in order, followed by the detectors *)
Theorem C48_others : forall (R : Type) (rO : R) radd rsub circuit perm out, permute_detectors rO radd rsub circuit perm = Some out ->
  exists ds, Forall (fun x => is_detector x = true) ds /\ out = filter (fun x => negb (is_detector x)) circuit ++ ds.
Proof.
  intros R rO radd rsub circuit perm out E. apply permute_result in E. destruct E as [P ->]. eexists. split; [|reflexivity].
  apply Forall_forall. intros x I. apply in_map_iff in I. destruct I as (k & <- & I). pose proof (proc_dets_all rO radd rsub circuit) as A.
  rewrite Forall_forall in A. apply A, nth_In. rewrite dets_length. apply (Permutation_in _ (Permutation_sym P)) in I. apply in_seq in I. lia.
Qed.
Print Assumptions C48_others.

(** every detector refers to the same measurement records and has the same coordinates *)
Theorem C48_meaning : forall (R : Type) (rO rI : R) radd rmul rsub ropp, ring_theory rO rI radd rmul rsub ropp eq ->
  forall circuit perm out, permute_detectors rO radd rsub circuit perm = Some out ->
  permuted rO same perm (detectors rO radd 0 [] circuit) (detectors rO radd 0 [] out).
Proof.
  intros R rO rI radd rmul rsub ropp RT circuit perm out E. eapply permute_detectors_meaning; [exact E|].
  exact (proj1 (moved rO rI radd rmul rsub ropp RT circuit 0 [])).
Qed.
Print Assumptions C48_meaning.

(** and as many of them, if no later shift has more entries *)
Theorem C48_exact_partial : forall (R : Type) (rO rI : R) radd rmul rsub ropp, ring_theory rO rI radd rmul rsub ropp eq ->
  forall circuit perm out, enough_coords circuit -> permute_detectors rO radd rsub circuit perm = Some out ->
  permuted rO same_exact perm (detectors rO radd 0 [] circuit) (detectors rO radd 0 [] out).
Proof.
  intros R rO rI radd rmul rsub ropp RT circuit perm out EC E. eapply permute_detectors_meaning; [exact E|].
  exact (proj2 (moved rO rI radd rmul rsub ropp RT circuit 0 []) EC).
Qed.
Print Assumptions C48_exact_partial.

(** otherwise detectors gain coordinates *)
Theorem C48_extra_coordinates_refuted : exists (circuit : list (instr Z)) perm out,
  permute_detectors 0%Z Z.add Z.sub circuit perm = Some out /\
  ~ permuted 0%Z same_exact perm (detectors 0%Z Z.add 0 [] circuit) (detectors 0%Z Z.add 0 [] out).
Proof.
  exists [Other 0 1; Detector [Rec (-1)] []; ShiftCoords [0; 1]%Z], [0]. eexists. split; [reflexivity|].
  intros [_ H]. specialize (H 0 (le_n _)). destruct H as [_ H]. discriminate.
Qed.
Print Assumptions C48_extra_coordinates_refuted.

Definition ex_circuit : list (instr Z) :=
  [Other 0 2; Detector [Rec (-1); Rec (-2)] [1; 5]%Z; ShiftCoords [0; 1]%Z; Other 1 3; Detector [Rec (-3); Opaque 7] [2; 0; 4]%Z;
   ShiftCoords [2]%Z; Other 2 0; Detector [Rec (-5)] [0; 0]%Z; Other 3 1].
Example C48_ex : enough_coords ex_circuit /\
  permute_detectors 0%Z Z.add Z.sub ex_circuit [2; 0; 1] = Some
    [Other 0 2; ShiftCoords [0; 1]%Z; Other 1 3; ShiftCoords [2]%Z; Other 2 0; Other 3 1;
     Detector [Rec (-6)] [0; 0]%Z; Detector [Rec (-5); Rec (-6)] [-1; 4]%Z; Detector [Rec (-4); Opaque 7] [0; 0; 4]%Z] /\
  permute_detectors 0%Z Z.add Z.sub ex_circuit [2; 0; 0] = None.
Proof.
  split; [|vm_compute; split; reflexivity]. cbn.
  repeat split; intros s H; repeat (destruct H as [H|H]; [try discriminate H; injection H as <-; cbn; lia|]); destruct H.
Qed.
