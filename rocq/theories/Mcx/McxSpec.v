(** Specification vocabulary for multi-controlled gates. A control is a qubit with the bit it has to hold. *)
From Verif.Lib Require Export Rev.
(** all controls hold their bits *)
Definition matches (s : bstate) (cs : list (qubit * bool)) : bool := forallb (fun c => eqb (s (fst c)) (snd c)) cs.
(** the controls are different qubits, and so is the target *)
Definition valid (cs : list (qubit * bool)) (t : qubit) : Prop := NoDup (map fst cs) /\ ~ In t (map fst cs).
(** no control and no target lies in register [r] or a later one *)
Definition before (r : nat) (cs : list (qubit * bool)) (t : qubit) : Prop := forall q, In q (t :: map fst cs) -> fst q < r.
(** the registers from [r] on are clean *)
Definition clean_from (r : nat) (s : bstate) : Prop := forall k i, r <= k -> s (k, i) = false.
(** [l] flips [t] exactly if all controls hold their bits: every basis state is mapped to the basis state with the right target,
    with unchanged phase, everything else unchanged, and the ancillas are clean again (deleting them does not fail) *)
Definition flips_iff (l : list gate) (cs : list (qubit * bool)) (t : qubit) (s : bstate) : Prop :=
  forall p : Z, exec l (p, s) (p, upd s t (xorb (matches s cs) (s t))).
(** running [u], then a phase gate on the all-ones state of [qs], then [u'] applies the phase exactly if all controls hold their
    bits, and changes nothing else: before the phase gate the qubits [qs] are all ones iff the controls match, and [u'] leads
    from there back to the original state and phase (the phase gate multiplies by a phase only) *)
Definition phase_iff (u : list gate) (qs : list qubit) (u' : list gate) (cs : list (qubit * bool)) (s : bstate) : Prop :=
  forall p : Z, exists p1 s1, exec u (p, s) (p1, s1) /\ forallb s1 qs = matches s cs /\ exec u' (p1, s1) (p, s).
(** the qubits a gate acts on (or deletes) *)
Definition qubits_of (g : gate) : list qubit :=
  match g with
  | X q | DEL q => [q]
  | CX c t => [c; t]
  | MCX cs t => t :: cs
  | MCP _ cs => cs
  | GAND a b t | GUNAND a b t => [a; b; t]
  | SWAP a b => [a; b]
  end.
(** the circuit acts on qubits of the list only *)
Definition only_on (qs : list qubit) (l : list gate) : Prop := forall g q, In g l -> In q (qubits_of g) -> In q qs.
