(** What the passes must preserve. *)
From Verif.Passes Require Import PassModel.
Local Open Scope nat_scope.

Section spec.
Context {R : comring}.
(** running a circuit on an amplitude vector *)
Definition run_instr (v : vec R) (i : instr R) : vec R := ap (omat (iop i)) (iqs i) v.
Definition run (data : list (instr R)) (v : vec R) : vec R := fold_left run_instr data v.
(** a circuit on n qubits in which gates called swap / id are what their name says *)
Definition named_ok (n : nat) (i : instr R) : Prop :=
  okq n (iqs i) /\
  match okind (iop i) with
  | KSwap => length (iqs i) = 2 /\ forall r c, length r = 2 -> length c = 2 -> omat (iop i) r c = swapm r c
  | KId => forall r c, length r = length (iqs i) -> length c = length (iqs i) -> omat (iop i) r c = idm r c
  | _ => True
  end.
(** diag(1, 1, 1, k): a cp or cz gate *)
Definition cphase (m : mat R) : Prop :=
  exists k, forall r c, length r = 2 -> length c = 2 -> m r c = if beqs r c then (if forallb (fun b => b) r then k else one) else zero.
(** m acts as the identity unless the first qubits are in the state cs *)
Definition controlled (cs : list bool) (nq : nat) (m : mat R) : Prop :=
  length cs <= nq /\ forall r c, length r = nq -> length c = nq ->
  beqs (firstn (length cs) r) cs && beqs (firstn (length cs) c) cs = false -> m r c = idm r c.
(** the gates are what cancel_zero_controls takes them for *)
Definition controls_ok (n : nat) (i : instr R) : Prop :=
  okq n (iqs i) /\
  (okind (iop i) = KCPhase \/ base_p (iop i) = true -> length (iqs i) = 2 /\ cphase (omat (iop i))) /\
  (forall cs, ctrl (iop i) = Some cs -> controlled cs (length (iqs i)) (omat (iop i))) /\
  match okind (iop i) with
  | KAlloc => exists q, iqs i = [q] /\ forall y, omat (iop i) [true] y = zero   (* leaves the qubit in |0> *)
  | KDealloc => exists q, iqs i = [q]
  | KBarrier => forall r c, length r = length (iqs i) -> length c = length (iqs i) -> omat (iop i) r c = idm r c
  | KDiag1 => length (iqs i) = 1 -> omat (iop i) [true] [false] = zero   (* |0> goes to a multiple of |0> *)
  | _ => True
  end.
(** the all-zero register *)
Definition all_zero (n : nat) (v : vec R) : Prop := forall q, q < n -> is0 n q v.
End spec.
