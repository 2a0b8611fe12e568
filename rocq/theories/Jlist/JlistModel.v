(** Model of Jlist (src/qrisp/jasp/interpreter_tools/dynamic_list.py): a fixed-size int64 array
    with a counter.  Elements are integers in the int64 range.  JAX index conventions: a negative
    index counts from the end, an update outside the array is dropped, a read outside the array
    is clamped to the nearest element. *)
From Coq Require Import ZArith List Bool.
Import ListNotations.
Local Open Scope Z_scope.

(** JAX [array.at[i].set(v)] *)
Definition norm (n i : Z) : Z := if i <? 0 then i + n else i.
Fixpoint set_nth (a : list Z) (i : nat) (v : Z) : list Z :=
  match a, i with
  | [], _ => []
  | _ :: t, O => v :: t
  | x :: t, S i => x :: set_nth t i v
  end.
Definition at_set (a : list Z) (i v : Z) : list Z :=
  let n := Z.of_nat (length a) in
  let j := norm n i in
  if (0 <=? j) && (j <? n) then set_nth a (Z.to_nat j) v else a.
(** JAX [array[i]] *)
Definition get (a : list Z) (i : Z) : Z :=
  let n := Z.of_nat (length a) in
  let j := norm n i in
  nth (Z.to_nat (Z.max 0 (Z.min (n - 1) j))) a 0.
(** [jnp.roll(a, 1)] *)
Definition roll1 (a : list Z) : list Z :=
  match a with [] => [] | _ => last a 0 :: removelast a end.

(** The attribute [array] is a JAX array, except when a Python list of exactly max_size elements
    is passed to the constructor: then line 43 stores that list itself, on which the jitted methods
    fail (their first step, [unflatten] at line 167, reads [array.shape]). *)
Inductive jl := J (array : list Z) (counter : Z) | Jraw (pylist : list Z) (counter : Z).

(** dynamic_list.py:28-56 [__init__] with a Python list *)
Definition create (init_val : list Z) (max_size : nat) : jl :=
  let n := length init_val in
  if Nat.eqb n max_size then Jraw init_val (Z.of_nat (Nat.min n max_size))
  else J (fold_left (fun a i => at_set a (Z.of_nat i) (nth i (firstn max_size init_val) 0)) (seq 0 (Nat.min n max_size)) (repeat 0 max_size))
         (Z.of_nat (Nat.min n max_size)).
(** dynamic_list.py:28-56 with no initial value *)
Definition create_empty (max_size : nat) : jl := J (repeat 0 max_size) 0.

Definition arr (s : jl) : list Z := match s with J a _ => a | Jraw a _ => a end.
Definition ctr (s : jl) : Z := match s with J _ c => c | Jraw _ c => c end.

(** [None]: AttributeError *)
(** dynamic_list.py:58-66 [append], [_append] *)
Definition append (s : jl) (v : Z) : option jl :=
  match s with
  | J a c => Some (J (at_set a c v) (Z.min (c + 1) (Z.of_nat (length a))))
  | Jraw _ _ => None
  end.
(** dynamic_list.py:68-77 [prepend], [_prepend] *)
Definition prepend (s : jl) (v : Z) : option jl :=
  match s with
  | J a c => Some (J (at_set (roll1 a) 0 v) (Z.min (c + 1) (Z.of_nat (length a))))
  | Jraw _ _ => None
  end.
(** dynamic_list.py:79-87 [pop], [_pop] *)
Definition pop (s : jl) : option (jl * Z) :=
  match s with
  | J a c => Some (J a (c - 1), get a (c - 1))
  | Jraw _ _ => None
  end.
(** dynamic_list.py:143 [__getitem__] with an integer *)
Definition getitem (s : jl) (key : Z) : Z := get (arr s) (key + (if key <? 0 then ctr s else 0)).
(** dynamic_list.py:95-99 [body_fun] *)
Definition extend_body (values : jl) (st : list Z * Z) (i : nat) : list Z * Z :=
  let '(a, c) := st in (at_set a c (getitem values (Z.of_nat i)), Z.min (c + 1) (Z.of_nat (length a))).
(** dynamic_list.py:89-101 [extend], [_extend] with another Jlist; [fori_loop] runs no iteration
    for a negative counter *)
Definition extend (s values : jl) : option jl :=
  match s, values with
  | J a c, J _ _ =>
    let '(a', c') := fold_left (extend_body values) (seq 0 (Z.to_nat (ctr values))) (a, c) in Some (J a' c')
  | _, _ => None
  end.
(** dynamic_list.py:103-110 [clear]: jitted, so the assignments act on a copy; the result is
    (receiver afterwards, returned object) *)
Definition clear (s : jl) : option (jl * jl) :=
  match s with J a c => Some (s, J a 0) | Jraw _ _ => None end.
(** dynamic_list.py:112-141 [__getitem__] with a slice, [None] for an absent bound *)
Definition getslice (s : jl) (start stop : option Z) : option jl :=
  match s with Jraw _ _ => None | J _ _ =>
  let start := match start with None => 0 | Some k => k + (if k <? 0 then ctr s else 0) end in
  let stop := match stop with
              | None => ctr s
              | Some k => let k := Z.min k (ctr s) in k + (if k <? 0 then ctr s else 0)
              end in
  let length := stop - start in
  Some (J (fold_left (fun a i => at_set a (Z.of_nat i) (get (arr s) (Z.of_nat i + start))) (seq 0 (Z.to_nat length))
            (repeat 0 (List.length (arr s)))) length)
  end.
(** dynamic_list.py:151-152 [__len__]; Python rejects a negative result ([None]: ValueError) *)
Definition len (s : jl) : option Z := if ctr s <? 0 then None else Some (ctr s).
