(** Model of QuantumCircuit.append and its broadcasting (/repo/src/qrisp/circuit/quantum_circuit.py). *)
From Coq Require Import ZArith List Bool.
Import ListNotations.

(** qubit.py:24-73: equality and hash of a Qubit are those of its hash value, which is unique to the object;
    the identifier is a name. Names are numbers here. *)
Record qubit := Qubit { qhash : nat; qname : nat; locked : bool; perm_locked : bool }.
Definition qeqb (a b : qubit) : bool := Nat.eqb (qhash a) (qhash b).
(** clbit.py: only the identifier is used by append *)
Definition clbit := nat.
(** operation.py:84-149, with is_permeable (operation.py:367-370) as a function of the indices *)
Record operation := Operation { oname : nat; num_qubits : nat; num_clbits : nat; permeable : list nat -> bool }.
Record instruction := Instruction { iop : operation; iqubits : list qubit; iclbits : list clbit }.
Record circuit := Circuit { cqubits : list qubit; cclbits : list clbit; cdata : list instruction }.

(** an argument as given by the user: an object, an integer, or an iterable (lists, QuantumVariables and
    QuantumArrays are iterables of qubits) *)
Inductive uarg (A : Type) := UObj (a : A) | UInt (i : Z) | UIter (l : list (uarg A)).
Arguments UObj {A} _. Arguments UInt {A} _. Arguments UIter {A} _.
(** an argument after conversion *)
Inductive arg (A : Type) := Leaf (a : A) | Many (l : list (arg A)).
Arguments Leaf {A} _. Arguments Many {A} _.

Fixpoint mapM {A B} (f : A -> option B) (l : list A) : option (list B) :=
  match l with
  | [] => Some []
  | a :: l => match f a, mapM f l with Some b, Some m => Some (b :: m) | _, _ => None end
  end.
(** Python indexing, negative indices count from the end *)
Definition pyindex {A} (l : list A) (i : Z) : option A :=
  if Z.leb 0 i then nth_error l (Z.to_nat i) else if Z.leb (- Z.of_nat (length l)) i then nth_error l (Z.to_nat (Z.of_nat (length l) + i)) else None.
(** quantum_circuit.py:2886-2915 and 2967-2983, for a register of qubits or classical bits *)
Fixpoint convert_item {A} (reg : list A) (u : uarg A) : option (arg A) :=
  match u with
  | UObj a => Some (Leaf a)
  | UInt i => match pyindex reg i with Some a => Some (Leaf a) | None => None end
  | UIter l => match (fix go l := match l with
                      | [] => Some []
                      | u :: l => match convert_item reg u, go l with Some b, Some m => Some (b :: m) | _, _ => None end
                      end) l with Some m => Some (Many m) | None => None end
  end.
(** quantum_circuit.py:2963-2964, 3024-3025 *)
Definition convert_to_list {A} (reg : list A) (u : uarg A) : option (list (arg A)) :=
  match convert_item reg u with Some (Many l) => Some l | Some a => Some [a] | None => None end.

Inductive error := EConvert | ECombine | EAmount | EDuplicate | EMissing | EClAmount | EClDuplicate | EClMissing | ELocked | EPermLocked | EFuel.
Inductive outcome := Ok (c : circuit) | Raise (e : error) (c : circuit). (** with the circuit as it is left behind *)

Definition is_many {A} (a : arg A) : bool := match a with Many _ => true | Leaf _ => false end.
Definition items {A} (a : arg A) : list (arg A) := match a with Many l => l | Leaf _ => [] end.
(** quantum_circuit.py:1553-1556: entry i of the lists, the scalars as they are *)
Definition pick {A} (i : nat) (a : arg A) : arg A := match a with Many l => nth i l (Many []) | Leaf _ => a end.
Definition leaves {A} (l : list (arg A)) : list A := flat_map (fun a => match a with Leaf q => [q] | Many _ => [] end) l.
Fixpoint depth {A} (a : arg A) : nat := match a with Leaf _ => 0 | Many l => S (list_max (map depth l)) end.

Fixpoint has_dup {A} (eqb : A -> A -> bool) (l : list A) : bool :=
  match l with [] => false | a :: l => existsb (eqb a) l || has_dup eqb l end.
Definition find_name (c : circuit) (n : nat) : option qubit := find (fun q => Nat.eqb (qname q) n) (cqubits c).
(** quantum_circuit.py:1558-1580 *)
Definition resolve_qubits (c : circuit) (op : operation) (qs : list qubit) : error + list qubit :=
  if negb (Nat.eqb (length qs) (num_qubits op)) then inl EAmount
  else if has_dup qeqb qs then inl EDuplicate
  else if forallb (fun q => existsb (qeqb q) (cqubits c)) qs then inr qs
  else match mapM (fun q => find_name c (qname q)) qs with Some l => inr l | None => inl EMissing end.
(** quantum_circuit.py:57-77 *)
Fixpoint positions (f : qubit -> bool) (k : nat) (l : list qubit) : list nat :=
  match l with [] => [] | q :: l => (if f q then [k] else []) ++ positions f (S k) l end.
Definition check_qubit_locks (op : operation) (qs : list qubit) : option error :=
  if existsb locked qs then Some ELocked
  else match positions perm_locked 0 qs with
       | [] => None
       | idx => if permeable op idx then None else Some EPermLocked
       end.
(** quantum_circuit.py:1685-1706 *)
Definition append_single (c : circuit) (op : operation) (qs : list qubit) (cs : list clbit) : outcome :=
  match resolve_qubits c op qs with
  | inl e => Raise e c
  | inr qs =>
      if negb (Nat.eqb (length cs) (num_clbits op)) then Raise EClAmount c
      else if has_dup Nat.eqb cs then Raise EClDuplicate c
      else if negb (forallb (fun b => existsb (Nat.eqb b) (cclbits c)) cs) then Raise EClMissing c
      else match check_qubit_locks op qs with
           | Some e => Raise e c
           | None => Ok (Circuit (cqubits c) (cclbits c) (cdata c ++ [Instruction op qs cs]))
           end
  end.

(** quantum_circuit.py:1673-1683 and 1531-1556; the recursive call of line 1556 works on shallower lists, so the
    depth of the arguments is enough fuel. The second conversion in that call does nothing. *)
Fixpoint append_args (fuel : nat) (c : circuit) (op : operation) (qs : list (arg qubit)) (cs : list (arg clbit)) : outcome :=
  let lists := map (fun a => length (items a)) (filter is_many qs) ++ map (fun a => length (items a)) (filter is_many cs) in
  match lists with
  | [] => append_single c op (leaves qs) (leaves cs)
  | n :: _ =>
      if forallb (Nat.eqb n) lists then
        match fuel with
        | 0 => Raise EFuel c
        | S fuel =>
            (fix loop (todo : list nat) (c : circuit) : outcome :=
               match todo with
               | [] => Ok c
               | i :: todo =>
                   match append_args fuel c op (map (pick i) qs) (map (pick i) cs) with
                   | Ok c => loop todo c
                   | Raise e c => Raise e c
                   end
               end) (seq 0 n) c
        end
      else Raise ECombine c
  end.
(** quantum_circuit.py:1582-1706 for an Operation, xla_mode 0 *)
Definition append (c : circuit) (op : operation) (qubits : uarg qubit) (clbits : uarg clbit) : outcome :=
  match convert_to_list (cqubits c) qubits, convert_to_list (cclbits c) clbits with
  | Some qs, Some cs => append_args (list_max (map depth qs ++ map depth cs)) c op qs cs
  | _, _ => Raise EConvert c
  end.
