(** Model of /repo/src/qrisp/alg_primitives/iterable_processing.py. Entries of an iterable (qubits or quantum variables) are
    numbers; a memory gives the content of each. A controlled swap is executed iff the control value is one, so
    functions with quantum controls are modelled on each basis state of the controls. Relative phases of the
    phase-tolerant control method are not modelled. *)
From Coq Require Import ZArith List Bool Arith.
Import ListNotations.

Section model.
Context {A : Type}.
Definition memory := nat -> A.
Definition swap (st : memory) (a b : nat) : memory := fun x => if x =? a then st b else if x =? b then st a else st x.
Definition run_swaps (sw : list (nat * nat)) (st : memory) : memory := fold_left (fun st p => swap st (fst p) (snd p)) sw st.

(** * singular_shift, lines 393-426; [ids]: the iterable *)
Definition at_ (ids : list nat) (i : nat) : nat := nth i ids 0.
Definition saeedi_swaps (d : nat) (ids : list nat) : list (nat * nat) :=
  let N := length ids in
  flat_map (fun i => let j := (N - i) mod N in if negb (j =? i + d) && (i + d <? N) then [(at_ ids j, at_ ids (i + d))] else []) (seq 0 (N / 2)).
(** compute_ladder_iterations, lines 364-390; the loop doubles [power] until it reaches N *)
Fixpoint ladder_iterations (fuel power iterations N : nat) : nat :=
  match fuel with O => iterations | S fuel => if power <? N then ladder_iterations fuel (power * 2) (iterations + 1) N else iterations end.
Definition ladder_level (ids : list nat) (j : nat) : list (nat * nat) :=
  let N := length ids in
  flat_map (fun i => if (i mod (2 * 2 ^ j) =? 0) && (i + 2 ^ j <? N) then [(at_ ids i, at_ ids (i + 2 ^ j))] else []) (seq 0 (N - 2 ^ j)).
Definition singular_shift (ids : list nat) (use_saeedi : bool) : list (nat * nat) :=
  if use_saeedi then saeedi_swaps 1 ids ++ saeedi_swaps 2 ids
  else flat_map (ladder_level ids) (seq 0 (ladder_iterations (length ids) 1 0 (length ids))).

(** cyclic_shift by one, lines 290-291; [_cyclic_shift_one], lines 324-345 *)
Definition shift_one (ids : list nat) : list (nat * nat) :=
  let n := Nat.log2 (length ids) in
  singular_shift (firstn (2 ^ n) ids) false ++ singular_shift (at_ ids 0 :: skipn (2 ^ n) ids) true.

(** * to_cycles, lines 429-450: [pi] is the dictionary, in insertion order. None: KeyError or out of fuel. *)
Definition lookup (k : nat) (pi : list (nat * nat)) : option nat := match find (fun p => fst p =? k) pi with Some p => Some (snd p) | None => None end.
Definition delete (k : nat) (pi : list (nat * nat)) : list (nat * nat) := filter (fun p => negb (fst p =? k)) pi.
Definition has (k : nat) (pi : list (nat * nat)) : bool := existsb (fun p => fst p =? k) pi.
Fixpoint one_cycle (fuel : nat) (pi : list (nat * nat)) (this next : nat) (cycle : list nat) : option (list nat * list (nat * nat)) :=
  match fuel with
  | O => None
  | S fuel => if has this pi then
      let pi := delete this pi in let cycle := cycle ++ [this] in
      match lookup next pi with Some nn => one_cycle fuel pi next nn cycle | None => Some (cycle, pi) end
    else None
  end.
Fixpoint cycles_of (fuel : nat) (pi : list (nat * nat)) : option (list (list nat)) :=
  match pi with
  | [] => Some []
  | (elem0, this) :: _ =>
      match fuel, lookup this pi with
      | S fuel, Some next =>
          match one_cycle (S (length pi)) pi this next [] with
          | Some (c, pi) => match cycles_of fuel pi with Some cs => Some (c :: cs) | None => None end
          | None => None
          end
      | _, _ => None
      end
  end.
Definition to_cycles (perm : list nat) : option (list (list nat)) := cycles_of (S (length perm)) (combine (seq 0 (length perm)) perm).
(** inverse of a permutation (sympy's Permutation(perm) ** -1, line 542) *)
Fixpoint index_of (x : nat) (l : list nat) : nat := match l with [] => 0 | a :: l => if a =? x then 0 else S (index_of x l) end.
Definition inverse_perm (perm : list nat) : list nat := map (fun i => index_of i perm) (seq 0 (length perm)).
(** permute_iterable, lines 453-547; each cycle is shifted by one by cyclic_shift (lines 272-291), which returns at once
    for cycles of length one *)
Definition shift_cycle (ids : list nat) : list (nat * nat) := if 1 mod length ids =? 0 then [] else shift_one ids.
Definition permute_iterable (ids perm : list nat) : option (list (nat * nat)) :=
  match to_cycles (inverse_perm perm) with
  | Some cs => Some (flat_map (fun c => shift_cycle (map (at_ ids) c)) cs)
  | None => None
  end.

(** * cyclic_shift by a classical amount, lines 272-291. None: OverflowError, raised by int(np.floor(np.log2(0))) in line 276
    before the test for an empty iterable in line 278. *)
Definition shift_pos (ids : list nat) (k : Z) : option (list (nat * nat)) :=
  if (k =? 1)%Z then Some (shift_one ids)
  else permute_iterable ids (map (fun i => Z.to_nat ((Z.of_nat i - k) mod Z.of_nat (length ids))%Z) (seq 0 (length ids))).
Definition cyclic_shift (ids : list nat) (k : Z) : option (list (nat * nat)) :=
  match ids with
  | [] => None
  | _ => if (k mod Z.of_nat (length ids) =? 0)%Z then Some []
         else if (k <? 0)%Z then shift_pos (rev ids) (- k) else shift_pos ids k
  end.
(** in tracing mode: lines 294-321; [invert] reverses the swaps *)
Definition cyclic_shift_jasp (ids : list nat) (k : Z) : list (nat * nat) :=
  let n := Z.to_nat (Z.abs k) in
  let sw := concat (repeat (shift_one ids) n) in
  if (k <? 0)%Z then rev sw else sw.
(** by a QuantumFloat, lines 258-270: [bits] of the mantissa, exponent [e], and sign bit, on a basis state. None also
    for a negative exponent. *)
Fixpoint shift_bits (ids : list nat) (e : Z) (bits : list bool) : option (list (nat * nat)) :=
  match bits with
  | [] => Some []
  | b :: bits =>
      match (if b then cyclic_shift ids (2 ^ e) else Some []), shift_bits ids (e + 1) bits with
      | Some s, Some r => Some (s ++ r)
      | _, _ => None
      end
  end.
Definition cyclic_shift_quantum (ids : list nat) (e : Z) (bits : list bool) (sign : option bool) : option (list (nat * nat)) :=
  if (e <? 0)%Z then None else
  match (match sign with Some true => cyclic_shift ids (- 2 ^ (e + Z.of_nat (length bits))) | _ => Some [] end), shift_bits ids e bits with
  | Some s, Some r => Some (s ++ r)
  | _, _ => None
  end.

(** * demux, lines 25-193. [ctrl]: the values of the control qubits, most significant first; [out]: the outputs. None: exception.
    With parallelize_qc the recursion uses copies of the control qubits, which have the same values. The input is
    swapped into output[0] before (lines 144-145). *)
Fixpoint demux (permit : bool) (ctrl : list bool) (out : list nat) : option (list (nat * nat)) :=
  let len := length out in
  let n := Nat.log2_up len in let N := 2 ^ n in
  if negb (len =? 2 ^ length ctrl) && negb permit then None else
  match ctrl with
  | [] => Some []
  | b :: ctrl =>
      if 2 ^ length ctrl <? len then
        let s := if b then [(at_ out 0, at_ out (N / 2))] else [] in
        if 1 <? n then
          match demux permit ctrl (firstn (N / 2) out), demux permit ctrl (skipn (N / 2) out) with
          | Some l, Some r => Some (s ++ l ++ r)
          | _, _ => None
          end
        else Some s
      else demux permit ctrl out
  end.
Definition demux_from (permit : bool) (input : nat) (ctrl : list bool) (out : list nat) : option (list (nat * nat)) :=
  match demux permit ctrl out with
  | Some sw => Some ((if input =? at_ out 0 then [] else [(input, at_ out 0)]) ++ sw)
  | None => None
  end.
(** q_indexing, lines 196-206: content of the copy, and the memory after *)
Definition q_indexing (out : list nat) (ctrl : list bool) (st : memory) : option (A * memory) :=
  match demux false ctrl out with
  | Some sw => let st1 := run_swaps (rev sw) st in Some (st1 (at_ out 0), run_swaps sw st1)
  | None => None
  end.
(** q_swap_into, lines 209-217 *)
Definition q_swap_into (out : list nat) (ctrl : list bool) (qv : nat) (st : memory) : option memory :=
  match demux false ctrl out with
  | Some sw => Some (run_swaps sw (swap (run_swaps (rev sw) st) (at_ out 0) qv))
  | None => None
  end.
End model.
