(** Vocabulary of the adder theorems.  A basis state assigns a bit to every qubit; the registers
    are 0 = summand a, 1 = target b, 2 and 3 = freshly allocated ancillas, (4,0) = carry-in,
    (5,0) = carry-out, (6,0) = control. *)
From Verif.Lib Require Import Rev.

(** the unsigned number held by the first [n] qubits of register [r] *)
Definition num (s : bstate) (r n : nat) : Z := regval s r n.
Definition clean (s : bstate) (r n : nat) : Prop := forall i, i < n -> s (r, i) = false.
(** everything outside the first [n] qubits of register 1 and the carry-out qubit is untouched *)
Definition rest_unchanged (n : nat) (s s' : bstate) : Prop :=
  forall r i, ~ (r = 1 /\ i < n) -> (r, i) <> (5, 0) -> s' (r, i) = s (r, i).
Definition carry_in (present : bool) (s : bstate) : Z := if present then b2z (s (4, 0)) else 0%Z.
(** is the operation switched on? *)
Definition active (controlled : bool) (s : bstate) : bool := if controlled then s (6, 0) else true.
(** a basis state given by the numbers in registers a, b and the three single qubits *)
Definition mk (a b : Z) (cin cout ctrl : bool) : bstate := fun q => let '(r, i) := q in
  match r with
  | 0 => Z.testbit a (Z.of_nat i) | 1 => Z.testbit b (Z.of_nat i)
  | 4 => (i =? 0) && cin | 5 => (i =? 0) && cout | 6 => (i =? 0) && ctrl | _ => false
  end.
(** observe a run: phase (in units of pi/4), a, b and the carry-out bit *)
Definition observe (n : nat) (st : option qstate) : option (Z * Z * Z * bool) :=
  match st with Some (p, s) => Some (p, num s 0 n, num s 1 n, s (5, 0)) | None => None end.
