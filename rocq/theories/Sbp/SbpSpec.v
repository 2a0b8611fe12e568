(** Polynomials in qubits, registers that hold numbers, and work qubits. *)
From Coq Require Import List ZArith QArith Bool.
Import ListNotations.
From Verif.Inverse Require Import InvSpec.
From Verif.Fourier Require Import FourierSpec.
From Verif.QFloat Require Import QFModel QFSpec.
(** the value of a polynomial: each monomial is a coefficient and the qubits it multiplies *)
Definition polynomial (x : list bool) (ms : list (Q * list nat)) : Q :=
  fold_right (fun '(k, qs) acc => ((if forallb (getbit x) qs then k else 0) + acc)%Q) 0%Q ms.
(** the number a QuantumFloat of shape f on the qubits qs stands for (QFSpec.value: two's complement times 2^exponent) *)
Definition holds (f : shape) (x : list bool) (qs : list nat) : Q := QFSpec.value f (FourierSpec.value x qs).
(** the output register consists of different qubits, none of them an input; the work qubits are none of these and 0 *)
Definition setting (inputs out work : list nat) (x : list bool) : Prop :=
  register out x /\ (forall q, In q inputs -> ~ In q out) /\
  forall q, In q work -> ~ In q inputs /\ ~ In q out /\ (q < length x)%nat /\ getbit x q = false.
