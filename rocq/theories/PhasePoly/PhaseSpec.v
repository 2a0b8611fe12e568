(** Polynomials in numbers. *)
From Coq Require Import List QArith.
Import ListNotations.
(** the value of a polynomial, a list of coefficients with the positions of their variables: the sum of the coefficients
    times the values of their variables, each as often as it occurs *)
Definition evaluate (vals : list Q) (p : list (Q * list nat)) : Q :=
  fold_right (fun '(k, vs) acc => (k * fold_right (fun v r => (nth v vals 0 * r)%Q) 1%Q vs + acc)%Q) 0%Q p.
(** a qubit as a number *)
Definition bit (b : bool) : Q := if b then 1%Q else 0%Q.
