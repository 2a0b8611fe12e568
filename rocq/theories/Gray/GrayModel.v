(** Model of Gray phase synthesis, /repo/src/qrisp/alg_primitives/logic_synthesis/gray_synthesis.py (GS below), and of
    app_phase_function, /repo/src/qrisp/misc/utility.py 809-833.
    Parity operators and basis states are bit sets ([N]); phases are exact rationals ([Qc]) instead of floats, and phase shifts
    are skipped when they are 0 (GS 354: below 1e-16). The circuit is returned before GS 386-390 (parallelize_qc, property C59)
    and GS 392-396 (a second synthesis of the same phases, of which the shallower one is taken: both are the same circuit). *)
From Coq Require Export List Bool Arith NArith QArith.Qcanon Lia.
Export ListNotations.
Local Open Scope nat_scope.

(** ** the circuit: CNOT and phase gates; [GP a q]: qc.p(a, q) *)
Inductive ggate := GCX (c t : nat) | GP (a : Qc) (q : nat).
Definition bit (j : nat) : N := (2 ^ N.of_nat j)%N.
Definition tb (x : N) (j : nat) : bool := N.testbit x (N.of_nat j).

(** ** GS 152-161, hamming_movement: flip the most significant differing bit (argmax of the most-significant-first array) *)
Fixpoint movement (fuel : nat) (cur target : N) : list N :=
  match fuel with
  | O => []
  | S fuel => if N.eqb cur target then [] else
      let nxt := N.lxor cur (2 ^ N.log2 (N.lxor cur target)) in nxt :: movement fuel nxt target
  end.
(** GS 170-200, gray_code *)
Fixpoint gray_code (n : nat) : list N :=
  match n with
  | O => []
  | S O => [1; 0]%N
  | S n => map (fun k => (bit n + k)%N) (rev (gray_code n)) ++ gray_code n
  end.
(** GS 52-53 *)
Fixpoint popcount (p : positive) : nat := match p with xH => 1 | xO p => popcount p | xI p => S (popcount p) end.
Definition hamming_d (i j : N) : nat := match N.lxor i j with N0 => 0 | Npos p => popcount p end.
(** GS 96-103: the first closest location; [best]: the best one so far *)
Fixpoint closest (cur best : N) (l : list N) : N :=
  match l with
  | [] => best
  | x :: l => closest cur (if hamming_d cur x <? hamming_d cur best then x else best) l
  end.
(** pop of the first occurrence, GS 81, 84, 109 and 135 *)
Fixpoint pop (x : N) (l : list N) : list N := match l with [] => [] | y :: l => if N.eqb x y then l else y :: pop x l end.
Definition minimum (l : list N) : N := fold_left N.min l (hd 0%N l).
(** GS 89-137, the two salesmen *)
Fixpoint salesmen (fuel b : nat) (l s1 s2 : list N) : list N * list N :=
  match fuel with
  | O => (s1, s2)
  | S fuel =>
    match l with
    | [] => (s1, s2)
    | x :: _ =>
      let t := closest (last s1 0%N) x l in
      let s1 := s1 ++ movement b (last s1 0%N) t in
      match pop t l with
      | [] => (s1, s2)
      | (y :: _) as l =>
        let t := closest (last s2 0%N) y l in
        salesmen fuel b (pop t l) s1 (s2 ++ movement b (last s2 0%N) t)
      end
    end
  end.
(** GS 60-149, hamming_tsp *)
Definition hamming_tsp (l : list N) (b : nat) : list N :=
  if length l =? 2 ^ (b - 1) + 1 then gray_code (max (b - 1) 1)
  else
    match l with
    | [x] => [x]
    | [x; y] => N.max x y :: movement b (N.max x y) (N.min x y)
    | _ =>
      let m1 := minimum l in
      let l1 := pop m1 l in
      let m2 := minimum l1 in
      let (s1, s2) := salesmen (length l) b (pop m2 l1) [m1] [m2] in
      let sol := (s1 ++ movement b (last s1 0%N) (last s2 0%N)) ++ rev (removelast s2) in
      if 2 ^ max (b - 1) 1 <? length sol then gray_code (max (b - 1) 1) else sol
    end.
(** GS 231-262, single_qb_traversal. The control of a step is the lowest differing bit (argmax of the reversed array; 0 if there
    is none) *)
Fixpoint lowest (p : positive) : nat := match p with xO p => S (lowest p) | _ => 0 end.
Definition control_of (i j : N) : nat := match N.lxor i j with N0 => 0 | Npos p => lowest p end.
Fixpoint controls (prev : N) (l : list N) : list nat := match l with [] => [] | x :: l => control_of prev x :: controls x l end.
Definition single_qb_traversal (l : list N) (b : nat) : list nat * list N :=
  let tr := hamming_tsp l b in
  let tr := if N.eqb (last tr 0%N) 0 then tr else tr ++ [0%N] in
  let tr := if N.eqb (hd 0%N tr) 0 then tr else 0%N :: tr in
  (b - 1 :: controls (hd 0%N tr) (tl tr), tr).
(** GS 267-309, multi_qb_traversal: descending operation bits, those with at least one location; the locations of one operation
    bit come in descending order. The result pairs each CNOT with the parity operator that follows it. *)
Definition one_bit (locations : N -> bool) (b : nat) : list (nat * nat * N) :=
  let ls := filter locations (map (fun y => (bit b + N.of_nat y)%N) (rev (seq 0 (2 ^ b)))) in
  match ls with
  | [] => []
  | _ =>
    let (cs, tr) := single_qb_traversal (0%N :: (if b =? 0 then ls else map (fun x => (x mod bit b)%N) ls)) (S b) in
    map (fun ct => (fst ct, b, if b =? 0 then snd ct else (snd ct + bit b)%N)) (combine cs tr)
  end.
(** GS 364-384: the loop over the CNOT list; [ph]: the phase shifts. [top]: with phase tolerance the loop ends at the first
    CNOT with another target *)
Definition zero_at (ph : N -> Qc) (p : N) : N -> Qc := fun q => if N.eqb q p then 0%Qc else ph q.
Fixpoint emit (top : option nat) (l : list (nat * nat * N)) (ph : N -> Qc) : list ggate * (N -> Qc) :=
  match l with
  | [] => ([], ph)
  | (c, t, p) :: l =>
    if match top with Some k => negb (t =? k) | None => false end then ([], ph)
    else
      let cx := if c =? t then [] else [GCX c t] in
      if Qc_eq_bool (ph p) 0%Qc then let (g, ph) := emit top l ph in (cx ++ g, ph)
      else let (g, ph') := emit top l (zero_at ph p) in (cx ++ GP (- ph p)%Qc t :: g, ph')
  end.
(** GS 40-50: one round (h = 2^k) of the Walsh-Hadamard transform; the entries j and j + h of each pair are replaced *)
Definition wht_round (k : nat) (a : N -> Qc) : N -> Qc := fun j =>
  if tb j k then (a (N.lxor j (bit k)) - a j)%Qc else (a j + a (N.lxor j (bit k)))%Qc.
Fixpoint fwht (n : nat) (a : N -> Qc) : N -> Qc := match n with O => a | S n => wht_round n (fwht n a) end.
(** GS 213-225 and 347 (the global phase is set to 0) *)
Fixpoint two_to (n : nat) : Qc := match n with O => 1%Qc | S n => (two_to n + two_to n)%Qc end.
Definition phase_shifts (n : nat) (t : N -> Qc) : N -> Qc :=
  zero_at (fwht n (fun x => (t x / (two_to n / (1 + 1)))%Qc)) 0%N.
(** GS 318-384 after the reordering of the axes: [t x] is the phase of the state in which qubit j holds bit j of [x] *)
Definition gray_synth (n : nat) (t : N -> Qc) (phase_tolerant : bool) : list ggate :=
  let ph := phase_shifts n t in
  let locations p := negb (Qc_eq_bool (ph p) 0%Qc) in
  fst (emit (if phase_tolerant then Some (n - 1) else None) (flat_map (one_bit locations) (rev (seq 0 n))) ph).
(** GS 323-328: reversal of the axes; entry i of the list is for the state with qubit 0 as most significant bit *)
Fixpoint be (n : nat) (x : N) (* bits n-1 .. 0 of x, read backwards *) : nat :=
  match n with O => 0 | S n => 2 * be n x + (if tb x n then 1 else 0) end.
Definition gray_synth_qc (n : nat) (target_phases : list Qc) (phase_tolerant : bool) : list ggate :=
  gray_synth n (fun x => nth (be n x) target_phases 0%Qc) phase_tolerant.
(** GS 427-437 (GraySynthGate.control; ctrl_state as the integer of line 429): the phases of the controlled gate *)
Definition control_phases (num_ctrl_qubits ctrl_state : nat) (target_phases : list Qc) : list Qc :=
  flat_map (fun i => if i =? ctrl_state then target_phases else repeat 0%Qc (length target_phases)) (seq 0 (2 ^ num_ctrl_qubits)).
(** utility.py 810-833. [sizes]: the sizes of the variables; [phi]: phase_function on the labels, of the outcome indices; [t].
    Qubit 0 of the result is the last (most significant) qubit of the first variable. *)
Fixpoint products (sizes : list nat) : list (list nat) :=
  match sizes with [] => [[]] | s :: r => flat_map (fun i => map (cons i) (products r)) (seq 0 (2 ^ s)) end.
Definition app_phase_function (sizes : list nat) (phi : list nat -> Qc) (t : Qc) : list ggate :=
  gray_synth_qc (list_sum sizes) (map (fun vs => (phi vs * t)%Qc) (products sizes)) false.
