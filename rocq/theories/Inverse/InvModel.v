(** Model of the inversion of operations and circuits (/repo/src/qrisp/circuit/operation.py,
    quantum_circuit.py). *)
From Coq Require Import List Bool Ascii.
Import ListNotations.

Definition name := list ascii.
Definition dg : name := ["_"; "d"; "g"]%char.
Definition name_eqb (a b : name) : bool := if list_eq_dec ascii_dec a b then true else false.
Definition name_in (a : name) (l : list name) : bool := existsb (name_eqb a) l.
(** name[-3:] and name[:-3] *)
Definition last3 (n : name) : name := skipn (length n - 3) n.
Definition drop3 (n : name) : name := firstn (length n - 3) n.
Definition n_u3 : name := ["u"; "3"]%char.
Definition n_p : name := ["p"]%char.
Definition n_rz : name := ["r"; "z"]%char.
Definition n_rx : name := ["r"; "x"]%char.
Definition n_ry : name := ["r"; "y"]%char.
Definition n_gphase : name := ["g"; "p"; "h"; "a"; "s"; "e"]%char.
Definition n_h : name := ["h"]%char.
Definition n_s : name := ["s"]%char.
Definition n_t : name := ["t"]%char.
Definition n_sx : name := ["s"; "x"]%char.
Definition n_r : name := ["r"]%char.
(** operation.py:493 *)
Definition fixed_names : list name := [n_p; n_rz; n_rx; n_ry; n_gphase; n_h].

Inductive pauli := PX | PY | PZ.

Section model.
Context {A : Type} (aopp : A -> A) (aadd : A -> A -> A). (** angles *)

(** Operations. [U3]: U3Gate (operation.py:432-571); [Pauli]: PauliGate (574-612); [Ctrl]: ControlledOperation
    (826-866), by control state and base; [Pt]: PTControlledOperation (630-824) with its definition circuit;
    [Comp]: an Operation with a definition; [Opaque]: an Operation without one (measure, reset, ...). Instructions
    of a definition are operations with the positions of their qubits; classical bits are left out, since operations with
    classical bits are not invertible. Attributes is_qfree and permeability are not modelled here. *)
Inductive op :=
| U3 (nm : name) (theta phi lam gp : A) (params : list A)
| Pauli (p : pauli)
| Ctrl (state : list bool) (base : op)
| Pt (state : list bool) (base : op) (body : list (op * list nat))
| Comp (nm : name) (nq ncl : nat) (body : list (op * list nat)) (params : list A)
| Alloc | Dealloc | Barrier (n : nat)
| Opaque (nm : name) (nq ncl : nat).

(** operation.py:463-486 *)
Definition u3_params (n : name) (theta phi lam gp : A) : list A :=
  if name_in n [n_p; n_rz] then [aadd lam phi]
  else if name_in n [n_rx; n_ry] then [theta]
  else if name_in n [n_gphase] then [gp]
  else if name_in n [n_h; n_sx; n_sx ++ dg] then []
  else if name_in n [n_s; n_s ++ dg; n_t; n_t ++ dg] then []
  else [theta; phi; lam].
(** U3Gate(theta, phi, lam, name, global_phase) *)
Definition mk_u3 (n : name) (theta phi lam gp : A) : op := U3 n theta phi lam gp (u3_params n theta phi lam gp).
(** operation.py:493-498, 511-512 *)
Definition u3_inverse_name (n : name) : name :=
  if name_eqb n n_u3 then n_u3 else if name_in n fixed_names then n else if name_eqb (last3 n) dg then drop3 n else n ++ dg.
(** operation.py:269-272 *)
Definition toggle (n : name) : name := if name_eqb (last3 n) dg then drop3 n else n ++ dg.
Definition is_alloc (o : op) : bool := match o with Alloc | Dealloc => true | _ => false end.

(** Operation.inverse (operation.py:237-294), U3Gate.inverse (489-520), PauliGate.inverse (605),
    PTControlledOperation.inverse (785-808), ControlledOperation.inverse (842-848); None: exception.
    The inner loop is QuantumCircuit.inverse (quantum_circuit.py:669-704) on the definition; the filter is to_op
    (quantum_circuit.py:405). *)
Fixpoint inverse (o : op) : option op :=
  let inv_body := fix go (l : list (op * list nat)) (acc : list (op * list nat)) : option (list (op * list nat)) :=
    match l with
    | [] => Some acc
    | (o, qs) :: l => match inverse o with Some o' => go l ((o', qs) :: acc) | None => None end
    end in
  match o with
  | U3 n theta phi lam gp _ =>
      let u := u3_params (if name_eqb n n_u3 then n_u3 ++ dg else u3_inverse_name n) in
      Some (U3 (u3_inverse_name n) (aopp theta) (aopp lam) (aopp phi) (aopp gp) (u (aopp theta) (aopp lam) (aopp phi) (aopp gp)))
  | Pauli p => Some (Pauli p)
  | Ctrl state base => match inverse base with Some b => Some (Ctrl state b) | None => None end
  | Pt state base body =>
      match inverse base, inv_body body [] with Some b, Some l => Some (Pt state b l) | _, _ => None end
  | Comp n nq ncl body params =>
      match ncl with
      | 0 => match inv_body body [] with
             | Some l => Some (Comp (toggle n) nq 0 (filter (fun i => negb (is_alloc (fst i))) l) params)
             | None => None
             end
      | _ => None
      end
  | Alloc => Some Dealloc
  | Dealloc => Some Alloc
  | Barrier n => Some (Barrier n)
  | Opaque _ _ _ => None
  end.

Definition circuit := list (op * list nat).
(** quantum_circuit.py:669-704 *)
Fixpoint inverse_onto (c acc : circuit) : option circuit :=
  match c with
  | [] => Some acc
  | (o, qs) :: c => match inverse o with Some o' => inverse_onto c ((o', qs) :: acc) | None => None end
  end.
Definition inverse_circuit (c : circuit) : option circuit := inverse_onto c [].

(** standard_operations.py: PGate, RZGate, HGate's family, SGate, TGate, RGate (its parameter list is overwritten) *)
Definition RGate (theta phi : A) (zero : A) : op := U3 n_r (aopp theta) phi (aopp phi) zero [theta; phi].
End model.
Arguments op : clear implicits.
