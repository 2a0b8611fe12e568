(** Model of q_div and qf_inversion (/repo/src/qrisp/alg_primitives/arithmetic/ripple_division.py, RD) and of the operators / and // of QuantumFloat
    (/repo/src/qrisp/qtypes/quantum_float.py, QF), outside tracing. *)
From Coq Require Import List ZArith Bool.
Import ListNotations.
From Verif.Inverse Require Import InvModel.
From Verif.CtrlOps Require Import CtrlModel.
From Verif.Fourier Require Import FourierModel.
From Verif.QFloat Require Import QFModel.
From Verif.Hybrid Require Import HybridModel.
From Verif.Order Require Import OrderModel.
From Verif.Division Require Import DivModel.
Local Open Scope Z_scope.

(** RD 425-428: the first part of q_div, on bit lists as in DivModel.v *)
Definition q_div_divide (num d : qf) (prec : option Z) : option (qf * qf * qf * qf * list bool) :=
  q_divmod num d (match prec with Some p => p | None => Z.of_nat (size_of d) - ex num end).
(** RD 430-434: the circuit that follows. [q], [g], [r], [f]: the formats of quotient, divisor, remainder and numerator, [qq], [qg], [qr], [qf]: their qubits;
    [anc], [h]: the two qubits hybrid_mult allocates (HybridModel.v). None: exception of hybrid_mult, or a remainder coarser than product or numerator, for which the
    code works with fractions (not modelled, and it does not occur: C87_div). h(remainder) is a Hadamard gate on each qubit. *)
Definition q_div_uncompute (q g r f : shape) (qq qg qr qf : list nat) (anc h : nat) : option body :=
  if expo r <=? expo f then
    match hybrid_mult_into q g r qq qg qr InitQFT false false 1 anc h with
    | Some c => Some (c ++ adder qr (msize r) f qf (- 1 * 2 ^ (expo f - expo r)) ++ map qH qr)
    | None => None
    end
  else None.
(** QF 599-603 *)
Definition truediv (a b : qf) := q_div_divide a b None.
(** QF 605-614 *)
Definition floordiv (a b : qf) :=
  if sg a || sg b then None else
  if (ex a <? 0) || (ex b <? 0) then None else q_div_divide a b (Some 0).
(** RD 443-490: the numerator is the number 1 in one qubit. It is reset by x and deleted. *)
Definition qf_inversion (d : qf) (prec : option Z) :=
  q_div_divide (mkqf [true] 0 false) d (Some (match prec with Some p => p | None => Z.of_nat (size_of d) end)).
