(** Model of the modular helpers on BigIntegers
    (src/qrisp/alg_primitives/arithmetic/jasp_arithmetic/jasp_bigintiger.py 1318-1526). *)
From Verif.BigInt Require Import BigIntModel.
From Verif.ContFrac Require Import CFModel.
From Coq Require Import ZArith List.
Import ListNotations.
Local Open Scope Z_scope.

(** [jnp.concatenate([x.digits, jnp.zeros(n)])] *)
Definition widen (n : nat) (x : list Z) : list Z := x ++ repeat 0 n.

(** jasp_bigintiger.py:1359-1373, the while loop of [bi_modinv]; the result is the final t. *)
Fixpoint modinv_loop (fuel : nat) (bi0 m t new_t r new_r : list Z) : outcome (list Z) :=
  match fuel with
  | O => OutOfFuel
  | S f =>
    bind (of_opt (ne new_r bi0)) (fun go =>
    if go then
      bind (of_opt (floordiv r new_r)) (fun quotient =>
      bind (of_opt (modulo (mul quotient new_t) m)) (fun x =>
      bind (of_opt (modulo (sub (add t m) x) m)) (fun t_updated =>
      let r_updated := sub r (mul quotient new_r) in
      modinv_loop f bi0 m new_t t_updated new_r r_updated)))
    else Ok t)
  end.
(** jasp_bigintiger.py:1318-1374 [bi_modinv] *)
Definition bi_modinv (fuel : nat) (a m : list Z) : outcome (list Z) :=
  let n := length a in
  let a2 := widen n a in
  let m2 := widen n m in
  let bi0 := create 0 (2 * n) in
  let bi1 := create 1 (2 * n) in
  bind (modinv_loop fuel bi0 m2 bi0 bi1 m2 a2) (fun t => Ok (firstn n t)).

(** jasp_bigintiger.py:1414-1430, the while loop of [bi_extended_euclidean] *)
Fixpoint egcd_loop (fuel : nat) (bi0 r old_r s old_s t old_t : list Z) : outcome (list Z * list Z * list Z) :=
  match fuel with
  | O => OutOfFuel
  | S f =>
    bind (of_opt (ne r bi0)) (fun go =>
    if go then
      bind (of_opt (floordiv old_r r)) (fun quotient =>
      egcd_loop f bi0 (sub old_r (mul quotient r)) r (sub old_s (mul quotient s)) s (sub old_t (mul quotient t)) t)
    else Ok (old_r, old_s, old_t))
  end.
(** jasp_bigintiger.py:1377-1432 [bi_extended_euclidean], both operands BigIntegers *)
Definition bi_extended_euclidean (fuel : nat) (a b : list Z) : outcome (list Z * list Z * list Z) :=
  let n := length a in
  let bi0 := create 0 n in
  let bi1 := create 1 n in
  egcd_loop fuel bi0 b a bi0 bi1 bi1 bi0.

(** jasp_bigintiger.py:1435-1479 [bi_montgomery_encode] *)
Definition bi_montgomery_encode (x R modulus : list Z) : outcome (list Z) :=
  let n := length modulus in
  bind (of_opt (modulo (mul (widen n x) (widen n R)) (widen n modulus))) (fun rem2 => Ok (firstn n rem2)).
(** jasp_bigintiger.py:1482-1526 [bi_montgomery_decode] *)
Definition bi_montgomery_decode (fuel : nat) (x_mon R modulus : list Z) : outcome (list Z) :=
  let n := length modulus in
  bind (bi_modinv fuel R modulus) (fun invR =>
  bind (of_opt (modulo (mul (widen n x_mon) (widen n invR)) (widen n modulus))) (fun rem2 => Ok (firstn n rem2))).
