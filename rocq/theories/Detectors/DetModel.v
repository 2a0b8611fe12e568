(** Model of permute_detectors (/repo/src/qrisp/misc/stim_tools/detector_permutation.py, below [dp.py]).
    A stim circuit is a list of instructions. Coordinates are elements of a type with zero, addition and
    subtraction (the code computes with doubles; the theorems are about exact arithmetic). stim.Circuit.append
    may fuse equal neighbours, which does not change the meaning and is not modelled; nor is stim's limit on
    how far a record target may look back. *)
From Coq Require Import ZArith List Bool Arith.
Import ListNotations.
Local Open Scope nat_scope.

(** rec[k] with k < 0, or another target *)
Inductive target := Rec (k : Z) | Opaque (id : nat).
Inductive instr (R : Type) :=
| Detector (targets : list target) (args : list R)
| ShiftCoords (args : list R)
| Other (id : nat) (measurements : nat)    (* any other instruction with its number of measurement results *)
| Repeat (id : nat).
Arguments Detector {R}. Arguments ShiftCoords {R}. Arguments Other {R}. Arguments Repeat {R}.

Section dp.
Context {R : Type} (rO : R) (radd rsub : R -> R -> R).

Definition pad (n : nat) (l : list R) : list R := l ++ repeat rO (n - length l).
Fixpoint zip (f : R -> R -> R) (a b : list R) : list R :=
  match a, b with x :: a, y :: b => f x y :: zip f a b | _, _ => [] end.
(** a[:len(b)] += b *)
Fixpoint add_prefix (a b : list R) : list R :=
  match a, b with x :: a, y :: b => radd x y :: add_prefix a b | a, _ => a end.

Record state := St { dets : list (instr R); others : list (instr R); offset : list R; meas : nat }.

(** dp.py:105-114 *)
Definition move_target (accum_meas : nat) (t : target) : target :=
  match t with Rec k => Rec (k - Z.of_nat accum_meas) | Opaque id => Opaque id end.
(** dp.py:122-133 *)
Definition move_args (accum_shift old : list R) : list R :=
  let n := Nat.max (length old) (length accum_shift) in zip rsub (pad n old) (pad n accum_shift).
(** dp.py:145-152 *)
Definition add_shift (accum args : list R) : list R :=
  add_prefix (if length accum <? length args then pad (length args) accum else accum) args.

(** dp.py:99-161: one step of the backward loop *)
Definition step (st : state) (x : instr R) : state :=
  match x with
  | Detector ts args => St (dets st ++ [Detector (map (move_target (meas st)) ts) (move_args (offset st) args)]) (others st) (offset st) (meas st)
  | ShiftCoords args => St (dets st) (others st ++ [x]) (add_shift (offset st) args) (meas st)
  | Other id m => St (dets st) (others st ++ [x]) (offset st) (meas st + m)
  | Repeat _ => St (dets st) (others st ++ [x]) (offset st) (meas st)
  end.

Definition is_repeat (x : instr R) : bool := match x with Repeat _ => true | _ => false end.

(** dp.py:176-182: sorted(perm) == list(range(n)), n being the length of perm as well *)
Definition valid_perm (n : nat) (perm : list nat) : bool :=
  (length perm =? n) && forallb (fun k => existsb (Nat.eqb k) perm) (seq 0 n).

(** dp.py:5-195; None stands for ValueError *)
Definition permute_detectors (circuit : list (instr R)) (perm : list nat) : option (list (instr R)) :=
  if existsb is_repeat circuit then None
  else
    let st := fold_left step (rev circuit) (St [] [] [] 0) in
    let detector_list := rev (dets st) in
    if valid_perm (length detector_list) perm
    then Some (rev (others st) ++ map (fun k => nth k detector_list (Repeat 0)) perm)
    else None.
End dp.
