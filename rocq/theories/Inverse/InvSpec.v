(** Amplitude semantics of operations over any commutative ring, and well-formedness. *)
From Coq Require Import List Ascii Bool Lia.
From Verif.Inverse Require Import InvModel.
Import ListNotations.

Fixpoint setbit (x : list bool) (q : nat) (b : bool) : list bool :=
  match x, q with [], _ => [] | _ :: x, 0 => b :: x | a :: x, S q => a :: setbit x q b end.
Definition getbit (x : list bool) (q : nat) : bool := nth q x false.
Fixpoint bits_eqb (a b : list bool) : bool :=
  match a, b with [], [] => true | x :: a, y :: b => Bool.eqb x y && bits_eqb a b | _, _ => false end.

Section spec.
Context {A R : Type} (aadd : A -> A -> A).
Context (rO rI : R) (radd rmul rsub : R -> R -> R) (ropp : R -> R).
(** exp(i a), cos(a / 2), sin(a / 2), the imaginary unit *)
Context (expi chalf shalf : A -> R) (im : R).

Definition amp := list bool -> R.
(** a one-qubit matrix, [m out in], on qubit q *)
Definition on_qubit (m : bool -> bool -> R) (q : nat) (psi : amp) : amp :=
  fun x => radd (rmul (m (getbit x q) false) (psi (setbit x q false))) (rmul (m (getbit x q) true) (psi (setbit x q true))).
(** unitary_management.py:38-64 *)
Definition u3_matrix (theta phi lam gp : A) (o i : bool) : R :=
  rmul (match o, i with
        | false, false => chalf theta
        | false, true => ropp (rmul (expi lam) (shalf theta))
        | true, false => rmul (expi phi) (shalf theta)
        | true, true => rmul (expi (aadd phi lam)) (chalf theta)
        end) (expi gp).
Definition pauli_matrix (p : pauli) (o i : bool) : R :=
  match p, o, i with
  | PX, false, true | PX, true, false => rI
  | PY, false, true => ropp im
  | PY, true, false => im
  | PZ, false, false => rI
  | PZ, true, true => ropp rI
  | _, _, _ => rO
  end.
(** the effect of an operation on the qubits qs; allocation, deallocation and barriers leave the state alone *)
Fixpoint effect (o : op A) (qs : list nat) (psi : amp) : amp :=
  let run := fix go (l : list (op A * list nat)) (psi : amp) : amp :=
    match l with [] => psi | (o, loc) :: l => go l (effect o (map (fun i => nth i qs 0) loc) psi) end in
  match o with
  | U3 _ theta phi lam gp _ => on_qubit (u3_matrix theta phi lam gp) (nth 0 qs 0) psi
  | Pauli p => on_qubit (pauli_matrix p) (nth 0 qs 0) psi
  | Ctrl state base => let k := length state in
      fun x => if bits_eqb (map (getbit x) (firstn k qs)) state then effect base (skipn k qs) psi x else psi x
  | Pt _ _ body | Comp _ _ _ body _ => run body psi
  | _ => psi
  end.
Definition run_circuit (c : circuit) (psi : amp) : amp := fold_left (fun psi '(o, qs) => effect o qs psi) c psi.
(** what is needed of the angles *)
Definition angle_laws (aopp : A -> A) : Prop :=
  (forall a b, expi (aadd a b) = rmul (expi a) (expi b)) /\ (forall a, rmul (expi a) (expi (aopp a)) = rI) /\
  (forall a, chalf (aopp a) = chalf a) /\ (forall a, shalf (aopp a) = ropp (shalf a)) /\
  (forall a, radd (rmul (chalf a) (chalf a)) (rmul (shalf a) (shalf a)) = rI) /\ rmul im im = ropp rI.
End spec.

Section wf.
Context {A : Type}.
Fixpoint arity (o : op A) : nat :=
  match o with
  | U3 _ _ _ _ _ _ | Pauli _ | Alloc | Dealloc => 1
  | Ctrl state base | Pt state base _ => length state + arity base
  | Comp _ nq _ _ _ => nq
  | Barrier n => n
  | Opaque _ nq _ => nq
  end.
(** every instruction of a definition acts on different qubits of the definition, as many as it needs *)
Inductive well_formed : op A -> Prop :=
| wf_u3 n t p l g ps : well_formed (U3 n t p l g ps)
| wf_pauli p : well_formed (Pauli p)
| wf_ctrl state base : well_formed base -> well_formed (Ctrl state base)
| wf_pt state base body : well_formed base -> wf_body (length state + arity base) body -> well_formed (Pt state base body)
| wf_comp n nq ncl body ps : wf_body nq body -> well_formed (Comp n nq ncl body ps)
| wf_alloc : well_formed Alloc | wf_dealloc : well_formed Dealloc | wf_barrier n : well_formed (Barrier n)
| wf_opaque n nq ncl : well_formed (Opaque n nq ncl)
with wf_body : nat -> list (op A * list nat) -> Prop :=
| wf_nil n : wf_body n []
| wf_cons n o loc l : well_formed o -> NoDup loc -> length loc = arity o -> (forall i, In i loc -> i < n) -> wf_body n l -> wf_body n ((o, loc) :: l).
(** a circuit on n qubits *)
Definition wf_circuit (n : nat) (c : circuit) : Prop := wf_body n c.
(** contains an operation that is not unitary *)
Inductive non_unitary : op A -> Prop :=
| nu_opaque n nq ncl : non_unitary (Opaque n nq ncl)
| nu_cl n nq ncl body ps : ncl <> 0 -> non_unitary (Comp n nq ncl body ps)
| nu_ctrl state base : non_unitary base -> non_unitary (Ctrl state base)
| nu_pt state base body : non_unitary base -> non_unitary (Pt state base body)
| nu_pt_body state base body o loc : In (o, loc) body -> non_unitary o -> non_unitary (Pt state base body)
| nu_comp n nq ncl body ps o loc : In (o, loc) body -> non_unitary o -> non_unitary (Comp n nq ncl body ps).
End wf.

(** Names that carry at most one "_dg", and operations as the constructors of the library build them. *)
Definition ends_dg (n : name) : Prop := exists m, n = m ++ dg.
Definition single_dg (n : name) : Prop := ~ ends_dg n \/ exists m, n = m ++ dg /\ ~ ends_dg m.
Definition u3_name_ok (n : name) : Prop := ~ ends_dg n \/ exists m, n = m ++ dg /\ ~ ends_dg m /\ ~ In m (n_u3 :: fixed_names).
Inductive clean {A : Type} (aadd : A -> A -> A) : op A -> Prop :=
| cl_u3 n t p l g : u3_name_ok n -> clean aadd (mk_u3 aadd n t p l g)
| cl_pauli p : clean aadd (Pauli p)
| cl_ctrl state base : clean aadd base -> clean aadd (Ctrl state base)
| cl_pt state base body : clean aadd base -> (forall o loc, In (o, loc) body -> clean aadd o) -> clean aadd (Pt state base body)
| cl_comp n nq ncl body ps : single_dg n -> (forall o loc, In (o, loc) body -> clean aadd o /\ is_alloc o = false) -> clean aadd (Comp n nq ncl body ps)
| cl_alloc : clean aadd Alloc | cl_dealloc : clean aadd Dealloc | cl_barrier n : clean aadd (Barrier n)
| cl_opaque n nq ncl : clean aadd (Opaque n nq ncl).
