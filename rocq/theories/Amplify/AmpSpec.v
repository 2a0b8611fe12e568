(** Inner products of states, and what reflections are about. *)
From Coq Require Import List Bool QArith Qcanon.
Import ListNotations.
From Verif.Inverse Require Import InvModel InvSpec.
From Verif.CtrlOps Require Import CtrlModel.
From Verif.Fourier Require Import FourierSpec.
From Verif.Amplify Require Import AmpModel.
(** complex conjugation: it respects sums and products, inverts exp(i a) and leaves cosines and sines alone *)
Definition conjugation {R : Type} (rI : R) (radd rmul : R -> R -> R) (ropp : R -> R) (expi chalf shalf : Qc -> R) (conj : R -> R) : Prop :=
  (forall a b, conj (radd a b) = radd (conj a) (conj b)) /\ (forall a b, conj (rmul a b) = rmul (conj a) (conj b)) /\
  conj rI = rI /\ (forall a, conj (conj a) = a) /\
  (forall a, conj (expi a) = expi (- a)%Qc) /\ (forall a, conj (chalf a) = chalf a) /\ (forall a, conj (shalf a) = shalf a).
Section inner.
Context {R : Type} (rO rI : R) (radd rmul : R -> R -> R) (conj : R -> R).
(** <phi|psi> for states of N qubits *)
Definition inner (N : nat) (phi psi : list bool -> R) : R := total rO radd (all_bits N) (fun x => rmul (conj (phi x)) (psi x)).
(** the qubits qs are all 0 *)
Definition zero_on (qs : list nat) (x : list bool) : bool := forallb (fun q => negb (getbit x q)) qs.
(** the part of a state with qs at 0 *)
Definition zero_part (qs : list nat) (psi : list bool -> R) : list bool -> R := fun x => if zero_on qs x then psi x else rO.
(** the basis state z *)
Definition basis (z : list bool) : list bool -> R := fun x => if bits_eqb x z then rI else rO.
End inner.
(** a circuit on N qubits that acts on the qubits qs only *)
Definition within (N : nat) (qs : list nat) (c : body) : Prop := wf_circuit N c /\ forall o l q, In (o, l) c -> In q l -> In q qs.
(** the registers of the QuantumVariables among the arguments, arrays element by element *)
Definition registers (a : list qarg) : list (list nat) := concat (map (fun x => match x with Variable_ r => [r] | Array_ rs => rs end) a).
(** the qubits of all of them, or of those with the given numbers *)
Definition chosen (a : list qarg) (indices : option (list nat)) : list nat :=
  match indices with Some is => concat (map (fun i => nth i (registers a) []) is) | None => concat (registers a) end.
(** a decomposition of a state on N qubits that the oracle shows: it multiplies the good part with -1 and leaves the bad part alone *)
Definition tags {R : Type} (rO rI : R) (radd rmul : R -> R -> R) (ropp : R -> R) (expi chalf shalf : Qc -> R) (im : R)
  (N : nat) (oracle : body) (psi good bad : list bool -> R) : Prop :=
  forall x, length x = N -> psi x = radd (good x) (bad x) /\
    run_circuit Qcplus rO rI radd rmul ropp expi chalf shalf im oracle good x = ropp (good x) /\
    run_circuit Qcplus rO rI radd rmul ropp expi chalf shalf im oracle bad x = bad x.
(** the qubits that the first entry of the first argument stands for: a qubit of a variable, an element of an array *)
Definition first_entry (a : list qarg) : list nat :=
  match a with Variable_ (q :: _) :: _ => [q] | Array_ (r :: _) :: _ => r | _ => [] end.
Definition has_entry (a : list qarg) : Prop := match a with Variable_ (_ :: _) :: _ | Array_ (_ :: _) :: _ => True | _ => False end.
