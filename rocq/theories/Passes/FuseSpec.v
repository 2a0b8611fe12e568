(** What fuse_adjacents must preserve. *)
From Verif.Passes Require Import FuseModel.
Local Open Scope nat_scope.

Section spec.
Context {R : comring} (T : trig R).
Definition meq (k : nat) (m m' : mat R) : Prop := forall r c, length r = k -> length c = k -> m r c = m' r c.
(** first a, then b *)
Definition mthen (k : nat) (a b : mat R) : mat R := fun r c => rsum (strings k) (fun z => mul (b r z) (a z c)).
Definition mscale (s : R) (m : mat R) : mat R := fun r c => mul s (m r c).
(** the gate on k qubits is what its name says *)
Definition gate_ok (k : nat) (g : gate T) : Prop :=
  match gname T g with
  | NSwap => k = 2 /\ meq 2 (gmat T g) swapm
  | NCx => k = 2 /\ meq 2 (gmat T g) cxm
  | NCz => k = 2 /\ meq 2 (gmat T g) czm
  | NCp => k = 2 /\ meq 2 (gmat T g) (cpm T (gpar T g))
  | NRzz => k = 2 /\ meq 2 (gmat T g) (rzzm T (gpar T g))
  | NRz => k = 1 /\ meq 1 (gmat T g) (rzm T (gpar T g))
  | NP => k = 1 /\ meq 1 (gmat T g) (pm T (gpar T g))
  | NRx => k = 1 /\ meq 1 (gmat T g) (rxm T (gpar T g))
  | NRy => k = 1 /\ meq 1 (gmat T g) (rym T (gpar T g))
  | NGphase => k = 1 /\ meq 1 (gmat T g) (gpm T (gpar T g))
  | NAnd cs _ => k = 3 /\ meq 3 (gmat T g) (andm cs)
  | NOther => True
  end.
(** stages 4-6 of _fuse_operations answer correctly *)
Definition generic_sound (generic : gate T -> gate T -> outcome T) : Prop := forall k a b, gate_ok k a -> gate_ok k b ->
  match generic a b with
  | ONone _ => True
  | OCancel _ => meq k (mthen k (gmat T a) (gmat T b)) idm
  | OFused _ g => gate_ok k g /\ meq k (mthen k (gmat T a) (gmat T b)) (gmat T g)
  end.
Definition frun_instr (v : vec R) (i : finstr T) : vec R := ap (gmat T (fop T i)) (fqs T i) v.
Definition frun (data : list (finstr T)) (v : vec R) : vec R := fold_left frun_instr data v.
(** an instruction on existing qubits with a gate that is what its name says; an instruction with classical bits is
    classically controlled, or a measurement or the like that stages 4-6 leave alone *)
Definition instr_ok (generic : gate T -> gate T -> outcome T) (n : nat) (i : finstr T) : Prop :=
  okq n (fqs T i) /\ fqs T i <> [] /\ gate_ok (length (fqs T i)) (fop T i) /\
  (fcl T i <> [] -> gname T (fop T i) = NOther /\ (fclc T i = true \/ forall g, generic (fop T i) g = ONone T /\ generic g (fop T i) = ONone T)).
(** [ord] is a topological order of the nodes of the graph *)
Definition topological (d : dag T) (ord : list (nat * finstr T)) : Prop :=
  (forall x, In x ord <-> In x (nodes T d)) /\ NoDup (map fst ord) /\
  (forall a b q, In (Some a, b, q) (edges T d) -> exists l1 l2 l3 ia ib, ord = l1 ++ (a, ia) :: l2 ++ (b, ib) :: l3) /\
  (forall a b, In (Some a, b) (cedges T d) -> exists l1 l2 l3 ia ib, ord = l1 ++ (a, ia) :: l2 ++ (b, ib) :: l3).
(** the instructions acting on classical bit c, in order *)
Definition on_clbit (c : nat) (data : list (finstr T)) : list (finstr T) := filter (fun i => existsb (Nat.eqb c) (fcl T i)) data.
End spec.
