(** What nested environments mean, and what the instructions of the compiled circuit do. *)
From Coq Require Import List Bool Arith QArith Qcanon.
From Verif.Inverse Require Import InvModel InvSpec.
From Verif.CtrlOps Require Import CtrlModel.
From Verif.Envs Require Import EnvModel.
Import ListNotations.
Local Open Scope nat_scope.

(** a phase-tolerant mcx multiplies with a phase that depends on its qubits: [ph state controls target] *)
Definition phases := list bool -> list bool -> bool -> Qc.

Section spec.
Context {R : Type} (rO rI : R) (radd rmul : R -> R -> R) (ropp : R -> R) (expi chalf shalf : Qc -> R) (im : R).
Notation amp := (list bool -> R).
Notation effect := (effect Qcplus rO rI radd rmul ropp expi chalf shalf im).

(** ** the meaning of a program *)
(** an operation, or its inverse *)
Definition gate (back : bool) (o : qop) (qs : list nat) (psi : amp) : amp :=
  if back then match inverse Qcopp Qcplus o with Some o' => effect o' qs psi | None => psi end else effect o qs psi.
(** an item, forwards or backwards (in the inverse order with inverse operations) *)
Fixpoint meaning (back : bool) (it : item) (psi : amp) : amp :=
  let through (back : bool) (l : list item) (psi : amp) : amp :=
    if back then fold_right (meaning back) psi l else fold_left (fun psi j => meaning back j psi) l psi in
  match it with
  | Gate o qs => gate back o qs psi
  | Flip => psi
  | Control cs st inv body => fun x => if xorb inv (bits_eqb (map (getbit x) cs) st) then through back body psi x else psi x
  | Cond args f body => fun x => if f (map (getbit x) args) then through back body psi x else psi x
  | Invert body => through (negb back) body psi
  | Plain body => through back body psi
  | Conj u body => fold_right (fun '(o, qs) => gate true o qs) (through back body (fold_left (fun psi '(o, qs) => gate false o qs psi) u psi)) u
  end.
Definition program_meaning (p : list item) (psi : amp) : amp := fold_left (fun psi j => meaning false j psi) p psi.

(** ** what the compiled instructions do *)
Context (ph : phases).
Definition flip_at (x : list bool) (q : nat) : list bool := setbit x q (negb (getbit x q)).
Fixpoint run_ins (i : ins) (psi : amp) : amp :=
  match i with
  | Do o qs => effect o qs psi
  | Mcx undo cs st t => fun x =>
      let c := map (getbit x) cs in
      let y := if bits_eqb c st then flip_at x t else x in
      if undo then rmul (expi (- ph st c (getbit y t))%Qc) (psi y) else rmul (expi (ph st c (getbit x t))) (psi y)
  | Eval args f t => fun x => if f (map (getbit x) args) then psi (flip_at x t) else psi x
  | Ctl q b i => fun x => if Bool.eqb (getbit x q) b then run_ins i psi x else psi x
  | Cu _ i => run_ins i psi
  | Flanked q i => fun x => run_ins i (fun y => psi (flip_at y q)) (flip_at x q)
  end.
Definition run_list (l : list ins) (psi : amp) : amp := fold_left (fun psi i => run_ins i psi) l psi.
(** all qubits from n on are in state 0 *)
Definition blank (N n : nat) (psi : amp) : Prop := forall x, length x = N -> (exists q, n <= q < N /\ getbit x q = true) -> psi x = rO.
End spec.

(** ** programs the theorem is about
    [forb]: the qubits the environments around depend on; operations have to stay off them (the library locks them).
    [around]: whether there is a control or condition environment around, the value of its truth value for which the
    content is executed, and whether custom control can use it. *)
Definition gate_fine (n : nat) (forb : list nat) (g : qop * list nat) : Prop :=
  let '(o, qs) := g in
  well_formed o /\ inverse Qcopp Qcplus o <> None /\ NoDup qs /\ length qs = arity o /\ qs <> [] /\ forall q, In q qs -> q < n /\ ~ In q forb.
Fixpoint fine (n : nat) (forb : list nat) (around : option (bool * bool)) (it : item) : Prop :=
  let all forb around := fix all (l : list item) : Prop := match l with [] => True | j :: l => fine n forb around j /\ all l end in
  match it with
  | Gate o qs => gate_fine n forb (o, qs)
  | Flip => False (** see the refutations *)
  | Control cs st inv body =>
      length st = length cs /\ (forall q, In q cs -> q < n) /\
      match around with
      | None => all (cs ++ forb) (Some (match cs with [_] => xorb inv (hd true st) | _ => negb inv end, true)) body
      | Some _ => inv = false (** see the refutations *) /\ all (cs ++ forb) (Some (true, match cs with [_] => hd true st | _ => true end)) body
      end
  | Cond args f body =>
      (forall q, In q args -> q < n) /\ match around with Some (a, _) => a = true (** see the refutations *) | None => True end /\
      all (args ++ forb) (Some (true, true)) body
  | Invert body | Plain body => all forb around body
  | Conj u body =>
      (forall g, In g u -> gate_fine n forb g) /\
      match around with
      | None => all forb around body
      | Some (_, ok) => ok = true (** see the refutations *) /\ forall j, In j body -> exists o qs, j = Gate o qs /\ gate_fine n forb (o, qs)
      end
  end.
