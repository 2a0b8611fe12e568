(** Model of the classical parts of Shor's algorithm
    (src/qrisp/algorithms/shor/shors_algorithm.py).  The quantum part is the measurement
    dictionary, whose keys (phases k / 2^t) are an arbitrary input of the model. *)
From Coq Require Import ZArith List Bool.
Import ListNotations.
Local Open Scope Z_scope.

(** A candidate order is a Python int (returned at line 106) or a numpy int64 (line 114). *)
Inductive num := PyInt (r : Z) | Np64 (r : Z).
Definition num_val (x : num) : Z := match x with PyInt r => r | Np64 r => r end.

Inductive result (A : Type) := Ok (a : A) | IndexError | ValueError | UnboundLocalError.
Arguments Ok {A} a. Arguments IndexError {A}. Arguments ValueError {A}. Arguments UnboundLocalError {A}.

(** int64 wrap-around *)
Definition wrap64 (x : Z) : Z := (x + 2 ^ 63) mod 2 ^ 64 - 2 ^ 63.

(** Python's [a ** r] for an int a in the int64 range: exact for an int exponent, computed in
    int64 with wrap-around for a numpy exponent; numpy rejects negative exponents.  A negative
    int exponent would give a float; exponents here are denominators > 1. *)
Definition power (a : Z) (r : num) : result Z :=
  match r with
  | PyInt r => Ok (a ^ r)
  | Np64 r => if r <? 0 then ValueError else Ok (wrap64 (a ^ r))
  end.

(** sympy [continued_fraction_iterator] of the rational n/d with d > 0: the partial quotients.
    Called with fuel [Z.to_nat d], which is enough because d decreases (Shor/ShorProofs.v cf_iter_ok). *)
Fixpoint cf_iter (fuel : nat) (n d : Z) : list Z :=
  match fuel with
  | O => []
  | S f => n / d :: (if n mod d =? 0 then [] else cf_iter f d (n mod d))
  end.
(** sympy [continued_fraction_convergents]: the recurrence on numerators and denominators *)
Fixpoint cf_conv (l : list Z) (p0 p1 q0 q1 : Z) : list (Z * Z) :=
  match l with
  | [] => []
  | x :: t => (x * p1 + p0, x * q1 + q0) :: cf_conv t p1 (x * p1 + p0) q1 (x * q1 + q0)
  end.

(** shors_algorithm.py:117-119 [get_r_values]; a phase is a fraction (n, d) *)
Definition get_r_values (approx : Z * Z) : list Z :=
  let '(n, d) := approx in
  filter (fun q => 1 <? q) (map snd (cf_conv (cf_iter (Z.to_nat d) n d) 0 1 1 0)).

(** numpy's int64 lcm and [np.lcm.reduce] on a non-empty tuple *)
Definition np_lcm (a b : Z) : Z :=
  let a := Z.abs a in let b := Z.abs b in
  if Z.gcd a b =? 0 then 0 else wrap64 (a / Z.gcd a b * b).
Definition lcm_reduce (comb : list Z) : Z :=
  match comb with [] => 1 | x :: t => fold_left np_lcm t x end.

(** [itertools.product], in its order *)
Fixpoint product (ls : list (list Z)) : list (list Z) :=
  match ls with
  | [] => [[]]
  | l :: t => flat_map (fun x => map (cons x) (product t)) l
  end.

(** lines 104-106 *)
Definition is_order (a N : Z) (r : num) : bool :=
  match power a r with Ok p => p mod N =? 1 | _ => false end.
(** lines 111-114; the ValueError of a negative exponent ends the search *)
Fixpoint first_comb (a N : Z) (rs : list Z) : result (option num) :=
  match rs with
  | [] => Ok None
  | r :: t => match power a (Np64 r) with
              | Ok p => if p mod N =? 1 then Ok (Some (Np64 r)) else first_comb a N t
              | IndexError => IndexError | ValueError => ValueError | UnboundLocalError => UnboundLocalError
              end
  end.

(** lines 101-114, the loop over the popped approximations; [IndexError] is [pop] from the
    empty list. *)
Fixpoint extract_loop (a N : Z) (approximations : list (Z * Z)) (collected : list (list Z)) : result num :=
  match approximations with
  | [] => IndexError
  | x :: rest =>
    let r_values := get_r_values x in
    match find (fun r => is_order a N (PyInt r)) r_values with
    | Some r => Ok (PyInt r)
    | None =>
      let collected := collected ++ [r_values] in
      match first_comb a N (map lcm_reduce (product collected)) with
      | Ok (Some r) => Ok r
      | Ok None => extract_loop a N rest collected
      | IndexError => IndexError | ValueError => ValueError | UnboundLocalError => UnboundLocalError
      end
    end
  end.

(** [approximations.remove(0)]: the first key equal to 0 *)
Fixpoint remove_zero (l : list (Z * Z)) : list (Z * Z) :=
  match l with
  | [] => []
  | (n, d) :: t => if n =? 0 then t else (n, d) :: remove_zero t
  end.
(** shors_algorithm.py:90-114 [extract_order] *)
Definition extract_order (mes : list (Z * Z)) (a N : Z) : result num :=
  extract_loop a N (remove_zero mes) [].

(** shors_algorithm.py:74-87 [find_order]: the base is overwritten by its square in every round
    of the loop (line 82), and line 87 uses the final value.  [size]: qubits of the QuantumModulus. *)
Fixpoint squarings (k : nat) (a N : Z) : Z :=
  match k with O => a | S k => squarings k ((a * a) mod N) N end.
Definition find_order (size : nat) (mes : list (Z * Z)) (a N : Z) : result num :=
  extract_order mes (squarings (2 * size + 1) a N) N.

(** shors_algorithm.py:35-38 [find_optimal_a]: the proposals before sorting.  Their order after
    line 57 depends on a cost function that is not modelled: theorems range over all orders. *)
Definition candidates (N : Z) : list Z :=
  filter (fun a => Z.gcd a N =? 1) (map Z.of_nat (seq 2 (Z.to_nat (Z.min 100 (N - 1)) - 2))).

(** shors_algorithm.py:154-171, the loop of [shors_alg]; [order a] is the outcome of
    [find_order(a, N, ...)] *)
Fixpoint shor_loop (N : Z) (order : Z -> result num) (ps : list Z) : result Z :=
  match ps with
  | [] => UnboundLocalError
  | a :: t =>
    let K := Z.gcd a N in
    if negb (K =? 1) then Ok K
    else match order a with
    | Ok r =>
      if negb (num_val r mod 2 =? 0) then shor_loop N order t
      else match power a (match r with PyInt r => PyInt (r / 2) | Np64 r => Np64 (r / 2) end) with
      | Ok p =>
        let p1 := match r with PyInt _ => p + 1 | Np64 _ => wrap64 (p + 1) end in
        let g := Z.gcd p1 N in
        if (g =? N) || (g =? 1) then shor_loop N order t else Ok g
      | IndexError => IndexError | ValueError => ValueError | UnboundLocalError => UnboundLocalError
      end
    | IndexError => IndexError | ValueError => ValueError | UnboundLocalError => UnboundLocalError
    end
  end.
(** shors_algorithm.py:122-171 [shors_alg]; [ps]: the list returned by [find_optimal_a], whose
    line 59 raises IndexError when there is no proposal. *)
Definition shors_alg (N : Z) (ps : list Z) (order : Z -> result num) : result Z :=
  if N mod 2 =? 0 then Ok 2
  else match ps with [] => IndexError | _ => shor_loop N order ps end.
