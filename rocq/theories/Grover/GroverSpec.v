(** Tagged states, winners, and the ideal steps of the exact algorithm. *)
From Coq Require Import List ZArith Bool Reals.
Import ListNotations.
From Verif.Inverse Require Import InvSpec.
From Verif.CtrlOps Require Import CtrlSpec CtrlComplex.
From Verif.Fourier Require Import FourierSpec.
From Verif.Amplify Require Import AmpSpec.
From Verif.Grover Require Import GroverModel.
Local Open Scope nat_scope.
(** the register has the tagged value in the basis state x: its number, or its bits written highest first *)
Definition holds (x : list bool) (e : list nat * tag) : Prop :=
  match snd e with Code n => value x (fst e) = n | Bits s => rev (read x (fst e)) = s end.
(** every register has *)
Definition tagged (d : list (list nat * tag)) (x : list bool) : Prop := forall e, In e d -> holds x e.
(** a value that the register can have *)
Definition fits (e : list nat * tag) : Prop :=
  match snd e with Code n => (0 <= n < 2 ^ Z.of_nat (length (fst e)))%Z /\ fst e <> [] | Bits s => length s = length (fst e) end.
(** how many values of the qubits qs win, the other qubits being as in z *)
Definition winners (w : list bool -> bool) (z : list bool) (qs : list nat) : nat :=
  length (filter (fun b => w (write z qs b)) (all_bits (length qs))).
(** squared absolute value of a complex number; the probability to measure a value of qs that wins *)
Definition norm2 (c : cplx) : R := (fst c * fst c + snd c * snd c)%R.
Definition win_probability (w : list bool -> bool) (psi : list bool -> cplx) (z : list bool) (qs : list nat) : R :=
  fold_right (fun b acc => ((if w (write z qs b) then norm2 (psi (write z qs b)) else 0) + acc)%R) 0%R (all_bits (length qs)).
(** the ideal steps with a real phase: the oracle multiplies winners with exp(i phi); the diffuser is psi -> (1 - exp(i phi)) <s|psi> s - psi
    with the uniform superposition s of m qubits *)
Definition cis (phi : R) : cplx := (cos phi, sin phi).
Definition ideal_oracle (w : list bool -> bool) (phi : R) (psi : list bool -> cplx) : list bool -> cplx :=
  fun x => if w x then cmul (cis phi) (psi x) else psi x.
Definition uniform_state (m : nat) : list bool -> cplx := fun _ => (/ sqrt (INR (2 ^ m)), 0)%R.
Definition ideal_diffuser (m : nat) (phi : R) (psi : list bool -> cplx) : list bool -> cplx :=
  fun x => csub (cmul (csub c1 (cis phi)) (cmul (inner c0 cadd cmul (fun c => (fst c, (- snd c)%R)) m (uniform_state m) psi) (uniform_state m x))) (psi x).
Fixpoint ideal_grover (m : nat) (w : list bool -> bool) (phi : R) (k : nat) : list bool -> cplx :=
  match k with O => uniform_state m | S k => ideal_diffuser m phi (ideal_oracle w phi (ideal_grover m w phi k)) end.
