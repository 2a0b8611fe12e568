(** Model of the permeability type checker (src/qrisp/permeability/type_checker.py, abbreviated tc.py)
    and of [get_perm_dic] (src/qrisp/permeability/permeability_dag.py:34-74).
    The numerical test on the unitary (tc.py:85-115, off-diagonal blocks of norm at most 1e-4) is
    the field [block_test] of a gate.  Writing results back into [gate.permeability] (lines 76-77, 111-113)
    only caches answers of the same function and is left out. *)
From Verif.PermDag Require Import PermModel.
From Coq Require Import List Bool.
Import ListNotations.

(** the names the checker compares with *)
Inductive gname := NameX | NameRX | NameRXX | NameMeasure | NameOther.
(** operation.py:46-200, 630-824: an operation; [u] is its unitary (of any type M) *)
Inductive gate (M : Type) := Gate {
  nm : gname;
  nq : nat;
  perm : list (option bool);                           (* the attribute [permeability] *)
  symbolic : bool;                                     (* some parameter is a sympy expression *)
  body : option (list (gate M * list nat));            (* [definition]: operations and qubit indices *)
  ctrl : option (list bool * gate M);                  (* ControlledOperation: control state and base operation *)
  block_test : list nat -> bool;
  u : M }.
Arguments Gate {M}. Arguments nm {M}. Arguments nq {M}. Arguments perm {M}. Arguments symbolic {M}.
Arguments body {M}. Arguments ctrl {M}. Arguments block_test {M}. Arguments u {M}.

(** tc.py:49-55: the attribute, while it is known *)
Fixpoint by_attribute (perm : list (option bool)) (idx : list nat) : option bool :=
  match idx with
  | [] => Some true
  | i :: idx => match nth i perm None with Some false => Some false | None => None | Some true => by_attribute perm idx end
  end.
(** tc.py:62-70: the checked qubits an instruction acts on, as positions among its qubits *)
Definition local_indices (idx qubits : list nat) : list nat :=
  map (index_of qubits) (filter (fun q => existsb (Nat.eqb q) qubits) (nodup PeanoNat.Nat.eq_dec idx)).
Definition is_measure {M} (g : gate M) : bool := match nm g with NameMeasure => true | _ => false end.

(** tc.py:48-115 [is_permeable].  The loop of lines 61-73 returns False at a measurement, stops at an
    operation that is not permeable (continuing with the unitary), and otherwise answers True. *)
Fixpoint is_permeable {M} (g : gate M) (idx : list nat) : bool :=
  match by_attribute (perm g) idx with
  | Some b => b
  | None =>
    let numeric := if symbolic g then false else block_test g idx in
    match g with
    | Gate _ _ _ _ (Some l) _ _ _ =>
      match (fix loop (l : list (gate M * list nat)) : option bool :=
               match l with
               | [] => Some true
               | (h, qubits) :: l =>
                 match local_indices idx qubits with
                 | [] => loop l
                 | loc => if is_measure h then Some false
                          else if is_permeable h loc then loop l else None
                 end
               end) l with
      | Some b => b
      | None => numeric
      end
    | _ => numeric
    end
  end.

(** permeability_dag.py:34-74 *)
Fixpoint get_perm_dic {M} (g : gate M) : list ptype :=
  match nm g with
  | NameX | NameRX | NameRXX => repeat PX (nq g)
  | _ =>
    let res := map (fun i => if is_permeable g [i] then PZ else PN) (seq 0 (nq g)) in
    match g with
    | Gate _ _ _ _ _ (Some (_, base)) _ _ => firstn (nq g - nq base) res ++ get_perm_dic base
    | _ => res
    end
  end.
