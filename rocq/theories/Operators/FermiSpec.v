(** Second quantisation: how a product of ladder operators acts on an occupation-number basis state.
    [act] returns [None] for the zero vector, otherwise the sign (true is -1) and the new state. *)
From Verif.Operators Require Import FermiModel PauliSpec.
Local Open Scope nat_scope.

Definition state := list bool.
Definition occ (s : state) (i : nat) : bool := nth i s false.
Fixpoint set_occ (s : state) (i : nat) (v : bool) : state :=
  match s, i with [], _ => [] | _ :: s, O => v :: s | h :: s, S i => h :: set_occ s i v end.
(** parity of the number of occupied modes below i *)
Fixpoint parity_below (s : state) (i : nat) : bool :=
  match s, i with h :: s, S i => xorb h (parity_below s i) | _, _ => false end.
Definition act1 (l : ladder) (s : state) : option (bool * state) :=
  let '(i, creator) := l in
  if eqb (occ s i) creator then None else Some (parity_below s i, set_occ s i creator).
Fixpoint act (t : fterm) (s : state) : option (bool * state) :=
  match t with
  | [] => Some (false, s)
  | l :: t => match act1 l s with
              | None => None
              | Some (sg, s') => match act t s' with None => None | Some (sg', s'') => Some (xorb sg sg', s'') end
              end
  end.
(** multiplying the result by an integer coefficient in {0, 1, -1} *)
Definition scaled (k : Z) (r : option (bool * state)) : option (bool * state) :=
  if (k =? 0)%Z then None else if (k =? -1)%Z then option_map (fun p => (negb (fst p), snd p)) r else r.
Definition fits (s : state) (t : fterm) : Prop := forall l, In l t -> fst l < length s.
(** amplitude <s'| t |s> and of a linear combination *)
Fixpoint seqb (a b : state) : bool := match a, b with [], [] => true | x :: a, y :: b => eqb x y && seqb a b | _, _ => false end.
Definition amp (t : fterm) (s s' : state) : Z :=
  match act t s with Some (sg, s'') => if seqb s'' s' then (if sg then -1 else 1)%Z else 0%Z | None => 0%Z end.
Definition opamp (o : fop) (s s' : state) : Z := fold_right (fun tc z => (snd tc * amp (fst tc) s s' + z)%Z) 0%Z o.
(** no mode occurs more than twice in the term *)
Definition at_most_twice (t : fterm) : Prop := forall i, length (filter (fun l => fst l =? i) t) <= 2.
(** the distinct keys of a dictionary *)
Definition fdict (a : fop) : Prop := NoDup (map fst a).
(** sum over the basis states with as many modes *)
Definition zsum (l : list state) (f : state -> Z) : Z := fold_right (fun m z => (f m + z)%Z) 0%Z l.
Definition basis (n : nat) : list state := bitstrings n.
