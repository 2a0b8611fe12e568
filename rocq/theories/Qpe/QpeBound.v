(** Probabilities. *)
From Coq Require Import Reals.
From Verif.CtrlOps Require Import CtrlComplex.
(** the square of the absolute value of a complex number *)
Definition norm_sq (z : cplx) : R := (fst z * fst z + snd z * snd z)%R.
