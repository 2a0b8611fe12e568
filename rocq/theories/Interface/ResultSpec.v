(** What decoded measurement results must be. *)
From Verif.Interface Require Import ResultModel.
Local Open Scope Q_scope.

(** the sum of the values of the entries satisfying p *)
Fixpoint mass {K} (p : K -> bool) (d : list (K * Q)) : Q :=
  match d with [] => 0 | (k, v) :: d => (if p k then v else 0) + mass p d end.
Definition total {K} (d : list (K * Q)) : Q := mass (fun _ => true) d.
(** the items are in order of descending value *)
Definition descending {K} (d : list (K * Q)) : Prop := StronglySorted (fun a b => snd b <= snd a) d.
(** the integer outcome of a reported bit string: spaces removed, the first n digits, most significant first *)
Definition outcome (n : nat) (s : list char) : Z := bits_value (trimmed n s).
