(** What the detectors of a stim circuit mean. *)
From Verif.Detectors Require Import DetModel.
From Coq Require Import ZArith List Bool Permutation.
Import ListNotations.
Local Open Scope nat_scope.

Section spec.
Context {R : Type} (rO : R) (radd : R -> R -> R).

(** a target resolved to the number of the measurement record counted from the start of the circuit *)
Inductive resolved := Absolute (record : Z) | Fixed (id : nat).
Definition resolve (done : nat) (t : target) : resolved :=
  match t with Rec k => Absolute (Z.of_nat done + k) | Opaque id => Fixed id end.
(** the k-th coordinate after [done] SHIFT_COORDS, missing entries being zero *)
Definition total (shifts : list (list R)) (k : nat) : R := fold_right (fun s acc => radd (nth k s rO) acc) rO shifts.

(** one detector: its records, the number of its coordinates, its k-th coordinate shift included *)
Record detector := Det { records : list resolved; ncoords : nat; coord : nat -> R }.
(** the detectors in order, after [done] measurements and the given shifts *)
Fixpoint detectors (done : nat) (shifts : list (list R)) (l : list (instr R)) : list detector :=
  match l with
  | [] => []
  | Detector ts args :: l => Det (map (resolve done) ts) (length args) (fun k => radd (nth k args rO) (total shifts k)) :: detectors done shifts l
  | ShiftCoords args :: l => detectors done (shifts ++ [args]) l
  | Other _ m :: l => detectors (done + m) shifts l
  | Repeat _ :: l => detectors done shifts l
  end.
Definition is_detector (x : instr R) : bool := match x with Detector _ _ => true | _ => false end.

(** the same detector: same records, same coordinates (missing ones read as the shift) *)
Definition same (d d' : detector) : Prop := records d = records d' /\ forall k, coord d k = coord d' k.
(** ... and the same number of coordinates *)
Definition same_exact (d d' : detector) : Prop := same d d' /\ ncoords d = ncoords d'.
Definition no_detector : detector := Det [] 0 (fun _ => rO).
(** output detector i is input detector perm[i] *)
Definition permuted (rel : detector -> detector -> Prop) (perm : list nat) (before after : list detector) : Prop :=
  length after = length before /\
  forall i, i < length perm -> rel (nth i after no_detector) (nth (nth i perm 0) before no_detector).
(** no SHIFT_COORDS has more entries than a detector before it has coordinates *)
Fixpoint enough_coords (l : list (instr R)) : Prop :=
  match l with
  | [] => True
  | Detector ts args :: l => (forall s, In (ShiftCoords s) l -> length s <= length args) /\ enough_coords l
  | _ :: l => enough_coords l
  end.
End spec.
