(** Model of the circuit passes under /repo/src/qrisp/circuit/pass_management/passes.

    A circuit on n qubits is the list of its instructions; qubits and classical bits are their indices in
    qc.qubits / qc.clbits, so qubit_index and qubits.index are the identity.  An operation carries what the
    passes look at (its name class, its controls) and its matrix, over any commutative ring of amplitudes;
    a non-unitary operation (measurement, reset, allocation) has the matrix of the outcome that occurs.
    Only what the passes do to instr.qubits, instr.clbits and the order of the data is modelled;
    qc.clearcopy is an empty circuit on the same bits. *)
From Verif.Lib Require Export QState.
Local Open Scope nat_scope.

(** instr.op.name, as far as the passes distinguish names *)
Inductive kind := KSwap | KId | KAlloc | KDealloc | KBarrier
  | KCPhase     (* "cp" and "cz" *)
  | KDiag1      (* _DIAGONAL_1Q of cancel_zero_controls.py 30 *)
  | KOther.
Record op (R : comring) := {
  okind : kind;
  ctrl : option (list bool);   (* the ctrl_state of a ControlledOperation / PTControlledOperation *)
  base_p : bool;               (* PTControlledOperation with base_operation.name = "p" and num_qubits = 2 *)
  omat : mat R }.
Arguments okind {R}. Arguments ctrl {R}. Arguments base_p {R}. Arguments omat {R}.
Record instr (R : comring) := { iop : op R; iqs : list nat; icl : list nat }.
Arguments iop {R}. Arguments iqs {R}. Arguments icl {R}.
Definition is_swap {R} (i : instr R) : bool := match okind (iop i) with KSwap => true | _ => false end.
Definition is_id {R} (i : instr R) : bool := match okind (iop i) with KId => true | _ => false end.

Section passes.
Context {R : comring}.
Notation instr := (instr R).

(** list assignment l[i] = v *)
Fixpoint lset {A} (l : list A) (i : nat) (v : A) : list A :=
  match l, i with [], _ => [] | _ :: l, O => v :: l | h :: l, S i => h :: lset l i v end.

(** resolve_swaps.py 77-99; returns the new data and the final perm *)
Definition resolve_step (st : list instr * list nat) (i : instr) : list instr * list nat :=
  let '(out, perm) := st in
  if is_swap i then
    let a := nth 0 (iqs i) 0 in let b := nth 1 (iqs i) 0 in
    (out, lset (lset perm a (nth b perm 0)) b (nth a perm 0))
  else (out ++ [{| iop := iop i; iqs := map (fun q => nth q perm 0) (iqs i); icl := icl i |}], perm).
Definition resolve_swaps (n : nat) (data : list instr) : list instr * list nat :=
  fold_left resolve_step data ([], seq 0 n).

(** commute_swaps.py 76-127; [dic] is last_instruction_dic, [idop] the placeholder operation *)
Definition idop : op R := {| okind := KId; ctrl := None; base_p := false; omat := idm |}.
(** 95-107: one run of the inner loop, moving the instructions at the given indices to the partner qubit *)
Definition move_indices (partner : nat) (idx : list nat) (data : list instr) : list instr * list nat :=
  fold_left (fun st k =>
    let '(data, upd) := st in
    match nth_error data k with
    | None => (data, upd)   (* IndexError, never reached *)
    | Some last =>
        let data := lset data k {| iop := idop; iqs := iqs last; icl := [] |} in
        let data := data ++ [{| iop := iop last; iqs := [partner]; icl := icl last |}] in
        (data, upd ++ [length data - 1])
    end) idx (data, []).
Definition commute_step (st : list instr * (nat -> list nat)) (i : instr) : list instr * (nat -> list nat) :=
  let '(data, dic) := st in
  let data := data ++ [i] in
  if is_swap i then
    let a := nth 0 (iqs i) 0 in let b := nth 1 (iqs i) 0 in
    let '(data, to_b) := move_indices b (dic a) data in
    let '(data, to_a) := move_indices a (dic b) data in
    (data, fun q => if q =? a then to_a else if q =? b then to_b else dic q)
  else
    match iqs i with
    | [qb] => (data, fun q => if q =? qb then dic q ++ [length data - 1] else dic q)
    | qs => (data, fun q => if existsb (Nat.eqb q) qs then [] else dic q)
    end.
Definition commute_swaps (data : list instr) : list instr :=
  filter (fun i => negb (is_id i)) (fst (fold_left commute_step data ([], fun _ => []))).

(** arrange_swaps.py 106-130 *)
Definition is_alloc (i : instr) : bool := match okind (iop i) with KAlloc | KDealloc => true | _ => false end.
Definition mem (q : nat) (l : list nat) : bool := existsb (Nat.eqb q) l.
Definition arrange_step (st : list instr * list nat) (i : instr) : list instr * list nat :=
  let '(out, used) := st in
  if is_alloc i then (out, used)
  else
    let a := nth 0 (iqs i) 0 in let b := nth 1 (iqs i) 0 in
    if is_swap i && negb (mem b used) then
      if negb (mem a used) then (out, used)
      else let i := {| iop := iop i; iqs := rev (iqs i); icl := icl i |} in (out ++ [i], iqs i ++ used)
    else (out ++ [i], iqs i ++ used).
Definition arrange_swaps (data : list instr) : list instr := fst (fold_left arrange_step data ([], [])).

(** cancel_zero_controls.py 33-54 *)
Definition is_cancelled_by_zero (i : instr) (fresh : list nat) : bool :=
  match okind (iop i) with
  | KCPhase => existsb (fun q => mem q fresh) (iqs i)
  | _ =>
      if base_p (iop i) then existsb (fun q => mem q fresh) (iqs i) else
      match ctrl (iop i) with
      | Some cs => existsb (fun k => mem (nth k (iqs i) 0) fresh && nth k cs false) (seq 0 (length cs))
      | None => false
      end
  end.
(** 119-155 *)
Definition discard (q : nat) (l : list nat) : list nat := filter (fun r => negb (r =? q)) l.
Definition cancel_step (st : list instr * list nat) (i : instr) : list instr * list nat :=
  let '(out, fresh) := st in
  let q0 := nth 0 (iqs i) 0 in
  match okind (iop i) with
  | KAlloc => (out ++ [i], q0 :: fresh)
  | KDealloc => (out ++ [i], discard q0 fresh)
  | KBarrier => (out ++ [i], fresh)
  | k =>
      if is_cancelled_by_zero i fresh then (out, fresh)
      else
        (out ++ [i],
         match k, iqs i with
         | KDiag1, [_] => fresh
         | _, qs => fold_left (fun f q => discard q f) qs fresh
         end)
  end.
Definition cancel_zero_controls (n : nat) (data : list instr) : list instr :=
  fst (fold_left cancel_step data ([], seq 0 n)).
End passes.
