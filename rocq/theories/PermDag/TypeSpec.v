(** Specification: matrices indexed by bit strings, over any commutative ring. *)
From Verif.PermDag Require Import PermModel AmpSpec TypeModel.
From Coq Require Import List Bool.
Import ListNotations.

(** all bit strings of length n *)
Fixpoint strings (n : nat) : list (list bool) :=
  match n with 0 => [[]] | S n => map (cons false) (strings n) ++ map (cons true) (strings n) end.
Fixpoint beq (x y : list bool) : bool :=
  match x, y with [], [] => true | a :: x, b :: y => eqb a b && beq x y | _, _ => false end.

Section mat.
Context {R : Type} (rO rI : R) (radd rmul : R -> R -> R).
(** [m y x]: the amplitude of the output y for the input x *)
Definition matrix := list bool -> list bool -> R.
Definition ident : matrix := fun y x => if beq y x then rI else rO.
Definition mul (n : nat) (A B : matrix) : matrix :=
  fun y x => fold_right radd rO (map (fun z => rmul (A y z) (B z x)) (strings n)).
(** the bits of the listed qubits; agreement on all the others *)
Definition restrict (qubits : list nat) (x : list bool) : list bool := map (fun q => nth q x false) qubits.
Fixpoint agree (k : nat) (qubits : list nat) (x y : list bool) : bool :=
  match x, y with
  | a :: x, b :: y => (existsb (Nat.eqb k) qubits || eqb a b) && agree (S k) qubits x y
  | _, _ => true
  end.
(** a gate on some qubits of a larger register *)
Definition embed (qubits : list nat) (A : matrix) : matrix :=
  fun y x => if agree 0 qubits y x then A (restrict qubits y) (restrict qubits x) else rO.
(** the circuit: operations in order, the first applied first *)
Definition product (n : nat) (l : list (matrix * list nat)) : matrix :=
  fold_left (fun acc '(A, qubits) => mul n (embed qubits A) acc) l ident.
(** controlled operation: base on the remaining qubits if the controls are in the given state *)
Definition controlled (state : list bool) (A : matrix) : matrix :=
  fun y x => let k := length state in
    if beq (firstn k y) (firstn k x) then
      if beq (firstn k x) state then A (skipn k y) (skipn k x) else ident (skipn k y) (skipn k x)
    else rO.

(** Z-permeable: no amplitude between inputs and outputs that differ on qubit i *)
Definition zperm (n i : nat) (A : matrix) : Prop :=
  forall y x, length y = n -> length x = n -> nth i y false <> nth i x false -> A y x = rO.
(** X-permeable: flipping qubit i of input and output changes nothing *)
Fixpoint flip_at (i : nat) (x : list bool) : list bool :=
  match x, i with [], _ => [] | a :: x, 0 => negb a :: x | a :: x, S i => a :: flip_at i x end.
Definition xperm (n i : nat) (A : matrix) : Prop :=
  forall y x, length y = n -> length x = n -> A (flip_at i y) (flip_at i x) = A y x.

(** A consistent operation: the attribute and the numerical test tell the truth, the definition and the
    control structure describe the unitary. *)
Inductive consistent : gate matrix -> Prop :=
| Consistent g :
    (forall i, i < nq g -> nth i (perm g) None = Some true -> zperm (nq g) i (u g)) ->
    (forall idx, block_test g idx = true -> forall i, In i idx -> i < nq g -> zperm (nq g) i (u g)) ->
    (forall i, In (nm g) [NameX; NameRX; NameRXX] -> i < nq g -> xperm (nq g) i (u g)) ->
    (forall l, body g = Some l ->
       (forall h qubits, In (h, qubits) l -> consistent h /\ length qubits = nq h /\ (forall q, In q qubits -> q < nq g)) /\
       forall y x, length y = nq g -> length x = nq g -> u g y x = product (nq g) (map (fun '(h, qubits) => (u h, qubits)) l) y x) ->
    (forall state base, ctrl g = Some (state, base) ->
       consistent base /\ nq g = length state + nq base /\
       forall y x, length y = nq g -> length x = nq g -> u g y x = controlled state (u base) y x) ->
    consistent g.

(** the operator on amplitudes (AmpSpec.v) of a matrix applied to the listed qubits of a state vector *)
Fixpoint xorl (x d : list bool) : list bool := match x, d with a :: x, b :: d => xorb a b :: xorl x d | _, _ => [] end.
Definition ket_bits (qubits : list nat) (x : config) : list bool := map (fun q => x (Ket q)) qubits.
Definition ket_flip (qubits : list nat) (d : list bool) : config :=
  fun s => match s with Ket q => existsb (Nat.eqb q) qubits && nth (index_of qubits q) d false | _ => false end.
Definition gate_operator (qubits : list nat) (A : matrix) : @operator R :=
  map (fun d => (ket_flip qubits d, fun x => A (ket_bits qubits x) (xorl (ket_bits qubits x) d))) (strings (length qubits)).
End mat.
