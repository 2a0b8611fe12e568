(** Model of the continued fraction expansion over BigIntegers
    (src/qrisp/alg_primitives/arithmetic/jasp_arithmetic/jasp_bigintiger.py).
    The BigInteger operations are those of BigInt/BigIntModel.v. *)
From Verif.BigInt Require Import BigIntModel.
From Coq Require Import ZArith List.
Import ListNotations.
Local Open Scope Z_scope.

(** Outcomes: a value, an AssertionError, a TypeError, or the loop's fuel ran out
    (standing for a loop that has not ended after that many iterations). *)
Inductive outcome (A : Type) := Ok (a : A) | AssertionError | TypeError | OutOfFuel.
Arguments Ok {A} a. Arguments AssertionError {A}. Arguments TypeError {A}. Arguments OutOfFuel {A}.

Definition of_opt {A} (o : option A) : outcome A := match o with Some a => Ok a | None => AssertionError end.
Definition bind {A B} (o : outcome A) (f : A -> outcome B) : outcome B :=
  match o with Ok a => f a | AssertionError => AssertionError | TypeError => TypeError | OutOfFuel => OutOfFuel end.
Definition ocons {A} (a : A) (o : outcome (list A)) : outcome (list A) := bind o (fun l => Ok (a :: l)).

(** jasp_bigintiger.py:1766-1780, the generator's [while True] loop; the yielded pairs are
    collected in a list.  [mt] is max_terms, [k] the loop counter. *)
Fixpoint conv_loop (fuel : nat) (bi0 : list Z) (mt : option nat) (k : nat) (a0 b0 p0 p1 q0 q1 : list Z)
  : outcome (list (list Z * list Z)) :=
  match fuel with
  | O => OutOfFuel
  | S f =>
    bind (of_opt (floordiv a0 b0)) (fun q =>
    bind (of_opt (modulo a0 b0)) (fun r =>
    let pn := add (mul q p1) p0 in
    let qn := add (mul q q1) q0 in
    bind (of_opt (eq r bi0)) (fun z =>
    ocons (pn, qn)
      (if z then Ok []
       else match mt with
            | Some m => if Nat.leb m (S k) then Ok [] else conv_loop f bi0 mt (S k) b0 r p1 pn q1 qn
            | None => conv_loop f bi0 mt (S k) b0 r p1 pn q1 qn
            end))))
  end.

(** jasp_bigintiger.py:1734-1780 [bi_contfrac_convergents] *)
Definition bi_contfrac_convergents (fuel : nat) (a b : list Z) (mt : option nat) : outcome (list (list Z * list Z)) :=
  let n := length a in
  if negb (Nat.eqb n (length b)) then AssertionError
  else
    let bi0 := create 0 n in
    let bi1 := create 1 n in
    bind (of_opt (ne b bi0)) (fun nz =>
    if nz then conv_loop fuel bi0 mt 0 a b bi0 bi1 bi1 bi0 else AssertionError).

(** jasp_bigintiger.py:1547-1685 [bi_contfrac_best_approx].  The asserts of lines 1597, 1600 and
    1606 come first.  Line 1683 then hands [_loop] to [lax.while_loop], which calls its body with
    one argument, the state tuple; [_loop] (1612-1623) takes ten positional parameters without
    defaults, so the call raises TypeError whatever the operands are.  The body is therefore
    never executed and is not modelled.  [max_den]: the optional bound. *)
Definition while_loop_body_arity : nat := 1.
Definition loop_arity : nat := 10.
Definition bi_contfrac_best_approx (a b : list Z) (max_den : option (list Z)) : outcome (list Z * list Z) :=
  let n := length a in
  if negb (Nat.eqb n (length b)) then AssertionError
  else bind (of_opt (ne b (create 0 n))) (fun nz =>
    if negb nz then AssertionError
    else if match max_den with None => false | Some d => negb (Nat.eqb (length d) n) end then AssertionError
    else if negb (Nat.eqb loop_arity while_loop_body_arity) then TypeError
    else OutOfFuel).
(** jasp_bigintiger.py:1688-1731 [bi_shor_recover_denominator] with a BigInteger bound *)
Definition bi_shor_recover_denominator (a b nb : list Z) : outcome (list Z) :=
  if negb (Nat.eqb (length nb) (length a)) then AssertionError
  else bind (bi_contfrac_best_approx a b (Some nb)) (fun pq => Ok (snd pq)).
