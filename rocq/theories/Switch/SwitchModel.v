(** Model of the quantum switch (/repo/src/qrisp/alg_primitives/program_control/quantum_switch.py, QS below) outside tracing, methods
    "tree" (the default) and "sequential"; program_control/switch_case.py has the same code for one operand (qswitch). Circuits as in
    InvModel. A branch is given by the circuit that its call adds; [branch i] = None: calling branch i fails (branches[i] does not exist).
    [inv]: the switch inside an inversion environment (custom_inversion), [ctrl]: inside a control environment (custom_control). *)
From Coq Require Import List ZArith NArith QArith Qcanon Bool.
Import ListNotations.
From Verif.Inverse Require Import InvModel InvSpec.
From Verif.CtrlOps Require Import CtrlModel.
From Verif.Fourier Require Import FourierModel.
From Verif.Qpe Require Import QpeModel.
Local Open Scope nat_scope.

(** QS 36-43, 108-109, 118-119: the branch as it is called *)
Definition called (inv : bool) (branch : nat -> option body) (i : nat) : option body :=
  match branch i with None => None | Some c => if inv then invert_circuit c else Some c end.
(** mcx with two controls (QS 237-238) *)
Definition qCCX (a b t : nat) : qop * list nat := (Ctrl [true; true] (Pauli PX), [a; b; t]).
(** QS 226-227: the number of ones of a xor b *)
Fixpoint ones (p : positive) : nat := match p with xH => 1 | xO p => ones p | xI p => S (ones p) end.
Definition bitwise_count_diff (a b : nat) : nat := match N.lxor (N.of_nat a) (N.of_nat b) with N0 => 0 | Npos p => ones p end.
Section tree.
(** [index]: the qubits of the index, lowest first; [anc]: the ancillas; [ctrl]: the control qubit of the switch *)
Context (index anc : list nat) (ctrl : option nat) (branch : nat -> option body).
Let n := length index.
Definition a_ (d : nat) : nat := nth d anc 0.
Definition ca_ (d : nat) : nat := nth (n - 1 - d) index 0.
(** x(anc[d]) controlled on the level above: QS 320-331, 391-402, 461-472, and 243-254 with d - 1 for d *)
Definition step_right (d : nat) : body :=
  match d with
  | O => match ctrl with None => [qX (a_ 0)] | Some c => [qCX c (a_ 0)] end
  | S e => [qCX (a_ e) (a_ d)]
  end.
(** QS 294-309 *)
Definition up (d : nat) : body :=
  match d with
  | O => match ctrl with None => [qCX (ca_ 0) (a_ 0)] | Some c => [qCCX (ca_ 0) c (a_ 0)] end
  | S e => [qCCX (ca_ d) (a_ e) (a_ d)]
  end.
(** QS 275-292 *)
Definition down (d : nat) : body := [qX (ca_ d)] ++ up d ++ [qX (ca_ d)].
(** QS 240-273. None: d = 0, where python takes ancillas from the end of the list (reached with more branches than index values) *)
Definition bounce (d : nat) : option body :=
  match d with
  | O => None
  | S e => Some (step_right e ++ [qCX (a_ e) (a_ d)] ++
      match e with
      | O => match ctrl with None => [qCX (ca_ d) (a_ d)] | Some c => [qCCX (ca_ d) c (a_ d)] end
      | S f => [qCCX (ca_ d) (a_ f) (a_ d)]
      end)
  end.
(** with control(anc[n - 1]): branch i *)
Definition guarded (i : nat) : option body := option_map (control_on (a_ (n - 1))) (branch i).
(** QS 314-334, 385-405 *)
Definition leaf (i : nat) : option body :=
  match guarded i, guarded (S i) with Some c, Some d => Some (c ++ step_right (n - 1) ++ d) | _, _ => None end.
(** QS 418-432 *)
Definition body_fun (pos : nat) : option body :=
  let q := bitwise_count_diff pos (S pos) in
  match leaf (2 * pos), bounce (n - q) with
  | Some l, Some b => Some (l ++ flat_map (fun j => up (n - j - 1)) (seq 0 (q - 1)) ++ b ++ flat_map (fun j => down (n - (q - 1) + j)) (seq 0 (q - 1)))
  | _, _ => None
  end.
(** QS 443 *)
Fixpoint loop (pos : nat) (times : nat) : option body :=
  match times with
  | O => Some []
  | S t => match body_fun pos, loop (S pos) t with Some c, Some d => Some (c ++ d) | _, _ => None end
  end.
(** QS 453-478 *)
Definition go_back (branch_amount : nat) : body :=
  flat_map (fun j => up (n - j - 1) ++ (if Nat.testbit (2 ^ n - branch_amount) j then step_right (n - j - 1) else [])) (seq 0 n).
(** QS 434-482. None: an exception; an index without qubits fails in the last leaf. In the model branch_amount = 0 fails as well (branches[-2]
    of an empty list). *)
Definition tree_switch (branch_amount : nat) : option body :=
  match n, branch_amount with
  | O, _ | _, O => None
  | _, _ =>
      match loop 0 ((branch_amount + 1) / 2 - 1),
            (if Nat.even branch_amount then leaf (branch_amount - 2) else guarded (branch_amount - 1)) with
      | Some l, Some last => Some (flat_map down (seq 0 n) ++ l ++ last ++ go_back branch_amount)
      | _, _ => None
      end
  end.
(** QS 128-146, [q]: the qubit of control_qbl. mcx(index, control_qbl, ctrl_state=i): the control state is bin_rep(i, n)[::-1], an exception
    for i >= 2^n; without an index qubit see property C39. With two controls: control(control_qbl) around control(ctrl). *)
Definition select (q i : nat) : qop * list nat := (Ctrl (map (fun j => Nat.testbit i j) (seq 0 n)) (Pauli PX), index ++ [q]).
Fixpoint sequential_switch (q : nat) (from times : nat) : option body :=
  match times with
  | O => Some []
  | S t =>
      match n, (2 ^ n <=? from), branch from, sequential_switch q (S from) t with
      | S _, false, Some c, Some d =>
          Some ([select q from] ++ (match ctrl with None => control_on q c | Some k => control_on q (control_on k c) end) ++ [select q from] ++ d)
      | _, _, _, _ => None
      end
  end.
End tree.
(** QS 47-146, 201-482: [fresh]: the qubits of the ancillas or of control_qbl *)
Definition q_switch (sequential : bool) (index fresh : list nat) (ctrl : option nat) (inv : bool) (branch : nat -> option body) (branch_amount : nat) : option body :=
  if sequential then sequential_switch index ctrl (called inv branch) (nth 0 fresh 0) 0 branch_amount
  else tree_switch index fresh ctrl (called inv branch) branch_amount.
(** list mode outside tracing, tree: QS 111-119, 340-347. A call returns the list as the caller sees it afterwards: a list of odd length gets
    one more entry, a function that takes one argument and does nothing (unless inv built a new list). An entry is a branch that takes the
    given number of operands, or the added function (None). *)
Definition list_branch (operands : nat) (l : list (option body)) (i : nat) : option body :=
  match nth_error l i with
  | None => None
  | Some (Some c) => Some c
  | Some None => if operands =? 1 then Some [] else None
  end.
Definition list_switch (index anc : list nat) (ctrl : option nat) (inv : bool) (operands : nat) (l : list (option body)) : option body * list (option body) :=
  let l' := if Nat.even (length l) then l else l ++ [None] in
  (q_switch false index anc ctrl inv (list_branch operands l') (length l), if inv then l else l').
