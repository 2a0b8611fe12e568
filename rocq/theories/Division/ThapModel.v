(** Model of the Thapliyal adder (/repo/src/qrisp/alg_primitives/arithmetic/adders/thapliyal_adder.py, TH below). *)
From Coq Require Import List ZArith Bool.
Import ListNotations.
From Verif.Lib Require Rev CliffordT.

(** * the TR gate *)
(** TH 24-37, in the order of the code. Amplitudes as in Lib/CliffordT.v, with
    [CRX positive c t]: rotation by pi/2 (or -pi/2) about X of t if c is 1. The matrix of RX(pi/2),
    ((1, -i), (-i, 1)) / sqrt 2, is written without its factor, so the amplitudes with c = 0 get the factor sqrt 2. *)
Inductive tgate := CRX (positive : bool) (c t : nat) | P4 (positive : bool) (q : nat) (* P(pi/4), P(-pi/4) *) | TCX (c t : nat).
Definition TR_circuit : list tgate :=
  [CRX false 1 2; P4 false 1; TCX 0 1; P4 true 0; CRX true 0 2; P4 true 1; CRX true 1 2].
(** TH 40: inverse() *)
Definition tinv (g : tgate) : tgate := match g with CRX p c t => CRX (negb p) c t | P4 p q => P4 (negb p) q | TCX c t => TCX c t end.
Definition TR_gate : list tgate := rev (map tinv TR_circuit).
(** multiplication by sqrt 2 = w + w^-1, w = exp(i pi / 4) *)
Definition wsqrt2 (x : CliffordT.W) : CliffordT.W := CliffordT.wadd (CliffordT.wphase 1 x) (CliffordT.wphase 7 x).
Definition tstep (g : tgate) (f : CliffordT.amp) : CliffordT.amp := fun b =>
  match g with
  | CRX p c t => if CliffordT.bit b c then CliffordT.wadd (f b) (CliffordT.wphase (if p then 6 else 2) (f (CliffordT.flip b t))) else wsqrt2 (f b)
  | P4 p q => if CliffordT.bit b q then CliffordT.wphase (if p then 1 else 7) (f b) else f b
  | TCX c t => if CliffordT.bit b c then f (CliffordT.flip b t) else f b
  end.
Fixpoint trun (l : list tgate) (f : CliffordT.amp) : CliffordT.amp := match l with [] => f | g :: l => trun l (tstep g f) end.
(** number of factors 1/sqrt 2 left out *)
Definition tscale (l : list tgate) : nat := length (filter (fun g => match g with CRX _ _ _ => true | _ => false end) l).

(** * the adder *)
Section adder.
Import Rev.
(** the TR gate as a permutation of basis states; justified by C86_tr_gate *)
Definition TR (a b c : qubit) : list gate := [CCX a b c; CX a b].
(** TH 45-75; a = qubit_list_1, b = qubit_list_2, n their length *)
Definition thapliyal (n : nat) (a b : nat -> qubit) (out : qubit) : list gate :=
  loop 1 (n - 1) (fun i => [CX (a i) (b i)]) ++
  [CX (a (n - 1)) out] ++
  loop_rev 1 (n - 2) (fun i => [CX (a i) (a (S i))]) ++
  loop 0 (n - 1) (fun i => [CCX (a i) (b i) (a (S i))]) ++
  TR (a (n - 1)) (b (n - 1)) out ++
  loop_rev 0 (n - 1) (fun i => TR (a i) (b i) (a (S i))) ++
  loop 1 (n - 2) (fun i => [CX (a i) (a (S i))]) ++
  loop 1 (n - 1) (fun i => [CX (a i) (b i)]).

(** the procedure on the states of its qubits, which are pairwise different: a is register 0, b register 1,
    output_qubit is qubit (5, 0). None: the exception of TH 46-47, or the IndexError of qubit_list_1[-1] for empty lists.
    Results: qubit_list_1, qubit_list_2, output_qubit; the phase, which stays what it is (C86_adder), is left out. *)
Definition place (la lb : list bool) (out : bool) : bstate := fun q => let '(r, i) := q in
  match r with 0 => nth i la false | 1 => nth i lb false | 5 => if Nat.eqb i 0 then out else false | _ => false end.
Definition thapliyal_procedure (la lb : list bool) (out : bool) : option (list bool * list bool * bool) :=
  if negb (Nat.eqb (length la) (length lb)) then None else
  match la with [] => None | _ :: _ =>
    let n := length la in
    match run (thapliyal n (fun i => (0, i)) (fun i => (1, i)) (5, 0)) (0%Z, place la lb out) with
    | None => None
    | Some (_, s) => Some (map (fun i => s (0, i)) (seq 0 n), map (fun i => s (1, i)) (seq 0 n), s (5, 0))
    end
  end.
End adder.
