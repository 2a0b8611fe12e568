(** C33: append and broadcasting. *)
From Coq Require Import ZArith List Bool Lia.
From Verif.Append Require Import AppendModel AppendSpec AppendProofs.
Import ListNotations.

(** lists of equal length: one instruction per index, in order; scalars are repeated *)
Theorem C33_broadcast : forall c op qs cs n rq rc, some_list qs \/ some_list cs -> lists_have_length n qs -> lists_have_length n cs ->
  (forall i, i < n -> row i qs (rq i) /\ row i cs (rc i) /\ fits c op (rq i) (rc i)) ->
  exists c', append c op (UIter (map given qs)) (UIter (map given cs)) = Ok c' /\ extended c c' (map (fun i => Instruction op (rq i) (rc i)) (seq 0 n)).
Proof. exact broadcast_ext. Qed.
Print Assumptions C33_broadcast.

(** without lists: one instruction if the arguments fit, otherwise an error and the circuit as before *)
Theorem C33_scalars : forall c op qs cs, (forall q, In q qs -> honest c q) ->
  (fits c op qs cs -> exists c', append c op (UIter (map UObj qs)) (UIter (map UObj cs)) = Ok c' /\ extended c c' [Instruction op qs cs]) /\
  (~ fits c op qs cs -> exists e, append c op (UIter (map UObj qs)) (UIter (map UObj cs)) = Raise e c).
Proof. exact scalar_ext. Qed.
Print Assumptions C33_scalars.

(** lists of different lengths raise and leave the circuit as before *)
Theorem C33_mismatch : forall c op (qs : list (flat_arg qubit)) (cs : list (flat_arg clbit)),
  (exists k k', (list_length k qs \/ list_length k cs) /\ (list_length k' qs \/ list_length k' cs) /\ k <> k') ->
  append c op (UIter (map given qs)) (UIter (map given cs)) = Raise ECombine c.
Proof. exact mismatch_ok. Qed.
Print Assumptions C33_mismatch.

(** any arguments, any nesting, whether it raises or not: instructions are only added, each of them is the given
    operation on arguments that fit *)
Theorem C33_always : forall c op qubits clbits, (forall q, passed qubits q -> honest c q) ->
  exists new, extended c (left_behind (append c op qubits clbits)) new /\ Forall (fun i => iop i = op /\ fits c op (iqubits i) (iclbits i)) new.
Proof. exact append_ext. Qed.
Print Assumptions C33_always.

(** integers stand for the qubits of the circuit, negative ones count from the end; others raise *)
Theorem C33_integers : forall c op (is : list Z) (qs : list qubit) clbits,
  Forall2 (fun i q => (0 <= i)%Z /\ nth_error (cqubits c) (Z.to_nat i) = Some q \/
    (i < 0)%Z /\ exists k, nth_error (cqubits c) k = Some q /\ (Z.of_nat k = Z.of_nat (length (cqubits c)) + i)%Z) is qs ->
  append c op (UIter (map UInt is)) clbits = append c op (UIter (map UObj qs)) clbits.
Proof. exact integers_ok. Qed.
Print Assumptions C33_integers.
Theorem C33_integers_out : forall c op (is : list Z) clbits i, In i is ->
  (Z.of_nat (length (cqubits c)) <= i \/ i < - Z.of_nat (length (cqubits c)))%Z ->
  append c op (UIter (map UInt is)) clbits = Raise EConvert c.
Proof. exact integers_out. Qed.
Print Assumptions C33_integers_out.

(** the recursion of the model never runs out of fuel *)
Theorem C33_terminates : forall c op qubits clbits e c', append c op qubits clbits = Raise e c' -> e <> EFuel.
Proof. exact append_fuel. Qed.
Print Assumptions C33_terminates.

(** a concrete circuit *)
Definition q0 := Qubit 10 0 false false.
Definition q1 := Qubit 11 1 false false.
Definition q2 := Qubit 12 2 false true.
Definition circ : circuit := Circuit [q0; q1; q2] [7; 8] [].
Definition cx : operation := Operation 0 2 0 (fun idx => forallb (Nat.eqb 0) idx).
Example C33_ex : exists c', append circ cx (UIter (map given [Some_of [q0; q2]; One q1])) (UIter (map given [])) = Ok c' /\
  cdata c' = [Instruction cx [q0; q1] []; Instruction cx [q2; q1] []].
Proof. eexists. split; reflexivity. Qed.
Example C33_fits : fits circ cx [q0; q1] [] /\ fits circ cx [q2; q1] [] /\ ~ fits circ cx [q0; q2] [] /\ ~ fits circ cx [q0; q0] [] /\
  row 1 [Some_of [q0; q2]; One q1] [q2; q1] /\ good circ.
Proof.
  assert (P : forall q, In q (cqubits circ) -> locked q = false) by (intros q [<-|[<-|[<-|[]]]]; reflexivity).
  assert (F : forall a b, In a (cqubits circ) -> In b (cqubits circ) -> qhash a <> qhash b -> forallb (Nat.eqb 0) (perm_locked_positions [a; b]) = true -> fits circ cx [a; b] []).
  { intros a b A B N L. unfold fits. do 2 (split; [try reflexivity|]).
    - repeat constructor; cbn; intuition auto.
    - split; [intros q [<-|[<-|[]]]; assumption|]. split; [reflexivity|]. split; [constructor|]. split; [intros q []|]. split; [|right; exact L].
      intros q [<-|[<-|[]]]; auto. }
  split; [apply F; cbn; auto|]. split; [apply F; cbn; auto; discriminate|]. split; [|split; [|split]].
  - intros (_ & _ & _ & _ & _ & _ & _ & [H|H]); [specialize (H q2); cbn in H; discriminate H; auto|discriminate H].
  - intros (_ & H & _). inversion H; subst. cbn in *. tauto.
  - repeat constructor.
  - split; repeat constructor; cbn; intuition lia.
Qed.

(** an error in a later application leaves the earlier ones in the circuit *)
Theorem C33_atomic_refuted : exists c op qubits e c', (forall q, passed qubits q -> honest c q) /\ good c /\
  append c op qubits (UIter []) = Raise e c' /\ cdata c' <> cdata c.
Proof.
  exists circ, cx, (UIter (map given [Some_of [q0; q1]; One q1])). eexists. eexists. split; [|split; [|split; [reflexivity|discriminate]]].
  - intros q H. left. inversion H as [|l u a I P]; subst. destruct I as [<-|[<-|[]]].
    + inversion P as [|l u a I P']; subst. destruct I as [<-|[<-|[]]]; inversion P'; subst; cbn; auto.
    + inversion P; subst; cbn; auto.
  - split; repeat constructor; cbn; intuition lia.
Qed.
Print Assumptions C33_atomic_refuted.

(** a copy of a qubit with the same name is accepted beside the original, and resolved to it: the instruction
    then acts twice on the same qubit *)
Theorem C33_alias_refuted : exists c op qs c', good c /\ append c op (UIter (map UObj qs)) (UIter []) = Ok c' /\
  exists i, In i (cdata c') /\ ~ NoDup (map qhash (iqubits i)).
Proof.
  exists circ, cx, [q0; Qubit 99 0 false false]. eexists. split; [|split; [reflexivity|]].
  - split; repeat constructor; cbn; intuition lia.
  - eexists. split; [left; reflexivity|]. intros H. inversion H as [|x l N _]; subst. apply N. cbn. auto.
Qed.
Print Assumptions C33_alias_refuted.
