(** Model of in-place addition with the Thapliyal adder and of division of QuantumFloats, on basis states
    (/repo/src/qrisp/alg_primitives/arithmetic/adders/ripple_carry_adder.py, RC below;
    /repo/src/qrisp/alg_primitives/arithmetic/ripple_division.py, RD below;
    /repo/src/qrisp/qtypes/quantum_float.py, QF below). Registers as in Order/OrderModel.v, least significant qubit first. *)
From Coq Require Import List ZArith QArith Bool.
Import ListNotations.
From Verif.QFloat Require Import QFModel.
From Verif.Order Require Import OrderModel.
From Verif.Division Require Import ThapModel.
Local Open Scope Z_scope.

Definition sign_of (a : qf) : bool := last (reg a) false.
Definition slice {A} (from to : nat) (l : list A) : list A := firstn (to - from) (skipn from l).
(** CNOTs from one qubit onto all of a list *)
Definition flip_by (c : bool) (l : list bool) : list bool := map (xorb c) l.

(** RC 33-208. Results: qf1, qf2, and the states of the additional qubits when they are deleted. None: an exception.
    [lo]: min of the intersection of the significance ranges, which is an error if they are disjoint; [wide]: RC 128.
    The additional qubits are already controlled on the sign of qf2 (RC 183-185) when they appear here. *)
Definition inpl_add (ignore_rounding ignore_overflow : bool) (a b : qf) : option (qf * qf * list bool) :=
  if negb ignore_rounding && (ex b <? ex a) then None else
  if negb ignore_overflow && (top a <? top b) then None else
  let lo := Z.max (ex a) (ex b) in
  if Z.min (top a) (top b) <? lo then None else
  if sg b && negb (sg a) then None else
  let wide := top b <? top a in
  let s := sg b && sign_of b in
  let aug := reg b ++ repeat s (if wide then Z.to_nat (top a - top b - Z.b2z (sg b)) else 0) in
  let w1 := Z.to_nat (lo - ex a) in
  let w2 := Z.to_nat (lo - ex b) in
  let w2' := if wide then length aug else Z.to_nat (top a - ex b) in
  let window := slice w2 w2' aug in
  let l1 := slice w1 (Z.to_nat (top a - ex a)) (reg a) ++ (if sg a then [sign_of a] else []) in
  let l2 := window ++ (if sg a then [s] else []) in
  match l1 with [] => None | _ :: _ =>
  match thapliyal_procedure (removelast l2) (removelast l1) (last l1 false) with
  | None => None
  | Some (t2, t1, o) =>
      (* the qubits of qf2 and the additional ones afterwards *)
      let aug := firstn w2 aug ++ (if sg a then t2 else t2 ++ [last l2 false]) ++ skipn w2' aug in
      let b' := set_reg b (firstn (size_of b) aug) in
      let s' := sg b && sign_of b' in
      let control := if sg a then s' else last l2 false in
      Some (set_reg a (firstn w1 (reg a) ++ t1 ++ [xorb control o]), b',
            flip_by s' (skipn (size_of b) aug) ++ (if sg a && negb (sg b) then [false] else []))
  end end.

(** QF 935-941, 1214-1250 with the default flags: CNOTs from n onto r. The loop over the significances of r is a map;
    max of an empty list is an error (reached if n is a sign qubit only). *)
Definition init_from (r n : qf) : option qf :=
  let len1 := (size_of r - (if sg n then 1 else 0))%nat in
  let len2 := (size_of n - (if sg n then 1 else 0))%nat in
  if (size_of r =? 0)%nat || (size_of n =? 0)%nat then None else
  if ex r + Z.of_nat (size_of r) - 1 <? ex n + Z.of_nat (size_of n) - 1 then None else
  if ex n <? ex r then None else
  if sg n && negb (sg r) then None else
  if (len2 =? 0)%nat then None else
  let bits := map (fun i =>
      let v := bit (reg r) i in
      let j := ex r + Z.of_nat i - ex n in
      if (0 <=? j) && (j <? Z.of_nat len2) then xorb (bit (reg n) (Z.to_nat j)) v
      else if (Z.of_nat len2 - 1 <? j) && sg n then xorb (sign_of n) v else v) (seq 0 len1) in
  Some (set_reg r (bits ++ (if sg n then [xorb (sign_of n) (sign_of r)] else []))).

(** RD 155-228: one iteration; qr: the qubits of the quotient. Results: divisor, remainder, quotient qubits, freed qubits *)
Definition div_step (first : bool) (d r : qf) (qr : list bool) : option (qf * qf * list bool * list bool) :=
  match reg r with [] => None | _ :: _ =>
  let q0 := negb (sign_of r) in
  let r := set_reg r (removelast (reg r)) in
  let q0 := if sg d then xorb (sign_of d) q0 else q0 in
  let gone := if first then [hd false qr] else [] in
  let qr := if first then tl qr else qr in
  let d := set_ex d (ex d - 1) in
  let r := set_reg r (flip_by q0 (reg r)) in
  match inpl_add true true r d with
  | None => None
  | Some (r, d, g) => Some (d, r, (if first then q0 else xorb (hd false qr) q0) :: qr, gone ++ g)
  end end.
Fixpoint div_loop (n : nat) (first : bool) (d r : qf) (qr : list bool) : option (qf * qf * list bool * list bool) :=
  match n with
  | O => Some (d, r, qr, [])
  | S n => match div_step first d r qr with None => None | Some (d, r, qr, g) =>
      match div_loop n false d r qr with None => None | Some (d, r, qr, g') => Some (d, r, qr, g ++ g') end end
  end.
(** x(l[-2]) *)
Definition x_second_last (l : list bool) : list bool :=
  let n := length l in firstn (n - 2) l ++ negb (bit l (n - 2)) :: skipn (n - 1) l.
Definition flip_last (c : bool) (l : list bool) : list bool := removelast l ++ [xorb c (last l false)].
(** QF 943-948, adders/incrementation.py with amount = -2^exponent; the circuit is modelled and verified in Lib (C16): code - 1 *)
Definition decr (l : list bool) : list bool := word (length l) (code l - 1).

(** RD 22-282. Results: quotient, remainder, numerator, divisor, freed qubits *)
Definition q_int_div (num d : qf) : option (qf * qf * qf * qf * list bool) :=
  if (ex num <? 0) || (ex d <? 0) then None else
  let n := top num - ex d + 1 in
  let re := Z.min (ex num) (ex d - 1) in
  let d := set_ex d (ex d + (n - 1)) in
  let rm := Z.max (top num) (top d) + 1 in
  match init_from (mkqf (repeat false (S (Z.to_nat (rm - re)))) re true) num with None => None | Some r =>
  let qr := [false; sg d && sign_of d] in
  match div_loop (Z.to_nat n) true d r qr with None => None | Some (d, r, qr, g1) =>
  let qe := n - Z.max 0 n in
  let r := set_reg r (flip_by (hd false qr) (reg r)) in
  let qr := x_second_last qr in
  let s := sign_of d in
  let '(qr, r, g2) :=
    if sg d then
      let l := flip_by s (decr (flip_by s (true :: qr))) in
      (tl l, set_reg r (flip_by s (reg r)), [hd false l])
    else (qr, r, []) in
  match inpl_add true true r d with None => None | Some (r, d, g3) =>
  let r := if sg d then set_reg r (flip_by s (reg r)) else r in
  let d := set_ex d (ex d + 1) in
  let qr := if sg num then flip_last (sign_of num) qr else qr in
  Some (mkqf qr qe true, r, num, d, g1 ++ g2 ++ g3)
  end end end.

(** RD 289-385 *)
Definition q_divmod (num d : qf) (prec : Z) : option (qf * qf * qf * qf * list bool) :=
  let s := - Z.min (ex num) (ex d) in
  let num_shift := s + prec in
  match q_int_div (set_ex num (ex num + num_shift)) (set_ex d (ex d + s)) with None => None | Some (q, r, num, d, g) =>
  Some (set_ex q (ex q - prec), set_ex r (ex r - num_shift), set_ex num (ex num - num_shift), set_ex d (ex d - s), g)
  end.
