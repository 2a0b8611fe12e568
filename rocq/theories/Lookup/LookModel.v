(** Model of logic synthesis from truth tables and of quantum dictionaries:
    /repo/src/qrisp/alg_primitives/logic_synthesis/truth_tables.py (TT below), pprm_synthesis.py (PS) and gray_synthesis.py (GS) in the
    same directory, and /repo/src/qrisp/core/quantum_dictionary.py (QD).
    Phases are exact rationals in units of pi. parallelize_qc (GS 571-572; property C59) is left out. *)
From Coq Require Export List Bool Arith NArith ZArith QArith.Qcanon.
Export ListNotations.
From Verif.Gray Require Export GrayModel.
Local Open Scope nat_scope.

(** ** circuits; [LMCX]: mcx(method = "gray"), PS 67 *)
Inductive lgate := LX (t : nat) | LCX (c t : nat) | LMCX (cs : list nat) (t : nat) | LH (t : nat) | LP (a : Qc) (q : nat).

(** ** TT 29-106: a table has 2 ** bit_amount rows, and row [i] holds the output bits for input [i] *)
Definition table := list (list bool).
Definition width (tt : table) : nat := length (hd [] tt).
Definition bit_amount (tt : table) : nat := Nat.log2 (length tt).
Definition cell (tt : table) (i j : nat) : bool := nth j (nth i tt []) false.

(** ** TT 374-408, synth_poly (the branch at 381-390 ends in a NameError, which is caught). A monomial is the set of its variables.
    The product for the row [i] with its summands multiplied out, TT 397-403 *)
Fixpoint minterm (n i : nat) : list N :=
  match n with
  | O => [0%N]
  | S n => let t := minterm n i in if Nat.testbit i n then map (N.lor (bit n)) t else map (N.lor (bit n)) t ++ t
  end.
(** TT 394-404, the sum over the rows with a one *)
Definition summands (n : nat) (tt : table) (j : nat) : list N := flat_map (fun i => if cell tt i j then minterm n i else []) (seq 0 (2 ^ n)).
(** TT 406-408: the polynomial over GF(2), as its monomials; here in ascending order *)
Definition synth_poly (n : nat) (tt : table) (j : nat) : list N :=
  let l := summands n tt j in
  filter (fun m => Nat.odd (count_occ N.eq_dec l m)) (map N.of_nat (seq 0 (2 ^ n))).
(** GS 520-526 (and 323-328): reshape, swap of the axes i and n - i - 1, reshape *)
Definition reverse_axes {A} (d : A) (n : nat) (l : list A) : list A := map (fun i => nth (be n (N.of_nat i)) l d) (seq 0 (2 ^ n)).
(** an operation with the given circuit, appended to the qubits [qs] *)
Definition place (qs : list nat) (g : ggate) : lgate :=
  match g with GCX c t => LCX (nth c qs 0) (nth t qs 0) | GP a q => LP a (nth q qs 0) end.
(** GS 508-537, gray_logic_synth_single_qb with the column [j] of the table *)
Definition column_phases (n : nat) (tt : table) (j : nat) : list Qc :=
  reverse_axes 0%Qc (S n) (repeat 0%Qc (length tt) ++ map (fun r : list bool => if nth j r false then 1%Qc else 0%Qc) tt).
Definition single_qb (ins : list nat) (out : nat) (tt : table) (j : nat) (phase_tolerant : bool) : list lgate :=
  LH out :: map (place (ins ++ [out])) (gray_synth_qc (S (length ins)) (column_phases (length ins) tt j) phase_tolerant) ++ [LH out].
(** GS 557-565, residual_phases *)
Definition half : Qc := (1 / (1 + 1))%Qc.
Definition residual_phases (tt : table) : list Qc :=
  map (fun r : list bool => fold_right (fun (b : bool) s => (((if b then 1 else 0) - half) * half + s)%Qc) 0%Qc r) tt.
(** GS 543-581, gray_logic_synth *)
Definition gray_logic_synth (ins outs : list nat) (tt : table) (phase_tolerant : bool) : list lgate :=
  match outs with
  | [o] => single_qb ins o tt 0 false
  | _ =>
    flat_map (fun jo => single_qb ins (snd jo) tt (fst jo) true) (combine (seq 0 (length outs)) outs) ++
    if phase_tolerant then [] else map (place ins) (gray_synth_qc (length ins) (residual_phases tt) false)
  end.
(** PS 24-76, pprm_synth: one monomial, with the qubits of its variables. For a constant PS 75-76, for a variable PS 56-58, for a
    product PS 61-67: the table of the product, synthesised by gray_logic_synth, or mcx *)
Definition and_table (k : nat) : table := repeat [false] (2 ^ k - 1) ++ [[true]].
Definition monomial (ins : list nat) (out : nat) (phase_tolerant : bool) (m : N) : list lgate :=
  match map (fun k => nth k ins 0) (filter (tb m) (seq 0 (length ins))) with
  | [] => [LX out]
  | [q] => [LCX q out]
  | qs => if phase_tolerant then gray_logic_synth qs [out] (and_table (length qs)) true else [LMCX qs out]
  end.
Definition pprm_synth (ins : list nat) (out : nat) (tt : table) (j : nat) (phase_tolerant : bool) : list lgate :=
  flat_map (monomial ins out phase_tolerant) (synth_poly (length ins) tt j).
(** PS 79-82 *)
Definition pprm (ins outs : list nat) (tt : table) (phase_tolerant : bool) : list lgate :=
  flat_map (fun jo => pprm_synth ins (snd jo) tt (fst jo) phase_tolerant) (combine (seq 0 (length outs)) outs).
(** TT 166-213, q_synth, without "best" and "gray_pt_inv"; [None]: an exception *)
Inductive synthesis := Gray | GrayPt | Pprm | PprmPt.
Definition q_synth (ins outs : list nat) (tt : table) (m : synthesis) : option (list lgate) :=
  if negb (length outs =? width tt) then None
  else if negb (length ins =? bit_amount tt) then None
  else Some (match m with
             | Gray => gray_logic_synth ins outs tt false
             | GrayPt => gray_logic_synth ins outs tt true
             | Pprm => pprm ins outs tt false
             | PprmPt => pprm ins outs tt true
             end).

(** ** QD, QuantumDictionary. Labels: [Atom] stands for anything hashable that is not a tuple *)
Inductive label := Atom (z : Z) | Tuple (l : list label).
(** a quantum variable: its size, decoder and encoder ([None]: an exception) *)
Record qv := { qsize : nat; decoder : nat -> label; encoder : label -> option nat }.
(** itertools.product *)
Fixpoint product {A} (l : list (list A)) : list (list A) :=
  match l with [] => [[]] | h :: t => flat_map (fun a => map (cons a) (product t)) h end.
(** QD 203-216 *)
Definition constellations (keys : list qv) : list label :=
  match map (fun k => map (decoder k) (seq 0 (2 ^ qsize k))) keys with
  | [labels] => labels
  | labels => map Tuple (product labels)
  end.
(** bin_rep(n, bits)[::-1], /repo/src/qrisp/misc/utility.py 40-47: an exception if the number does not fit *)
Definition bits_of (n size : nat) : option (list bool) := if n <? 2 ^ size then Some (map (Nat.testbit n) (seq 0 size)) else None.
Definition bind {A B} (o : option A) (f : A -> option B) : option B := match o with Some a => f a | None => None end.
(** QD 234-245: the bits of all the keys; [at_ i]: what is encoded for key [i] *)
Fixpoint key_bits (at_ : nat -> option label) (i : nat) (keys : list qv) : option (list bool) :=
  match keys with
  | [] => Some []
  | k :: keys => bind (at_ i) (fun l => bind (encoder k l) (fun c => bind (bits_of c (qsize k)) (fun b => bind (key_bits at_ (S i) keys) (fun r => Some (b ++ r)))))
  end.
Fixpoint number (l : list bool) : nat := match l with [] => 0 | b :: l => (if b then 1 else 0) + 2 * number l end.
Definition row_number (keys : list qv) (k : label) : option nat :=
  bind (key_bits (fun i => match k with Tuple l => nth_error l i | _ => Some k end) 0 keys) (fun b => Some (number b)).
Fixpoint update {A} (i : nat) (a : A) (l : list A) : list A :=
  match l, i with [], _ => [] | _ :: l, O => a :: l | x :: l, S i => x :: update i a l end.
(** QD 218-248. [d]: the dictionary; [venc], [m]: the encoder and the size of the variable of the values *)
Definition fill {V} (keys : list qv) (d : label -> option V) (venc : V -> option nat) (m : nat) (tt : option table) (k : label) : option table :=
  match d k with
  | None => tt
  | Some v => bind tt (fun tt => bind (row_number keys k) (fun i => bind (venc v) (fun c => bind (bits_of c m) (fun b => Some (update i b tt)))))
  end.
Definition load_table {V} (keys : list qv) (d : label -> option V) (venc : V -> option nat) (m : nat) : option table :=
  fold_left (fill keys d venc m) (constellations keys) (Some (repeat (repeat false m) (2 ^ list_sum (map qsize keys)))).
(** QD 151-269, load: [kregs], [vreg]: the qubits of the keys and of the variable of the values *)
Definition load {V} (keys : list qv) (kregs : list (list nat)) (d : label -> option V) (venc : V -> option nat) (vreg : list nat) (m : synthesis) : option (list lgate) :=
  bind (load_table keys d venc (length vreg)) (fun tt => q_synth (concat kregs) vreg tt m).
(** the linear search of QuantumVariable.encoder, /repo/src/qrisp/core/quantum_variable.py 656-660 *)
Fixpoint label_eqb (a b : label) {struct a} : bool :=
  match a, b with
  | Atom x, Atom y => Z.eqb x y
  | Tuple l, Tuple r => (fix go (l r : list label) : bool := match l, r with [], [] => true | a :: l, b :: r => label_eqb a b && go l r | _, _ => false end) l r
  | _, _ => false
  end.
Definition search (size : nat) (dec : nat -> label) (l : label) : option nat := find (fun i => label_eqb (dec i) l) (seq 0 (2 ^ size)).
(** QuantumVariable.custom, utility.py 1126-1152; undefined labels are strings, here atoms below -1 *)
Definition custom_qv (labels : list label) : qv :=
  let n := if length labels =? 1 then 1 else Nat.log2_up (length labels) in
  let dec x := nth x labels (Atom (- 2 - Z.of_nat x)) in
  {| qsize := n; decoder := dec; encoder := search n dec |}.
