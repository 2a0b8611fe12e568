(** Specification of modular arithmetic. *)
From Coq Require Import List ZArith Bool.
Import ListNotations.
From Verif.Inverse Require Import InvSpec.
From Verif.CtrlOps Require Import CtrlSpec.
From Verif.Fourier Require Import FourierSpec.
From Verif.Modular Require Import ModModel.
Local Open Scope Z_scope.
(** the number k in a register of a QuantumModulus with Montgomery shift s stands for the residue v: k = v * 2^s (modulo N) *)
Definition stands_for (N s k v : Z) : Prop :=
  0 <= k < N /\ 0 <= v < N /\ if 0 <=? s then k mod N = (v * 2 ^ s) mod N else (k * 2 ^ (- s)) mod N = v mod N.
(** the qubits are different, lie in the basis state and are 0 *)
Definition fresh (qs : list nat) (x : list bool) : Prop := register qs x /\ forall q, In q qs -> getbit x q = false.
Definition apart (ps qs : list nat) : Prop := forall q, In q ps -> ~ In q qs.
(** sum of the numbers f j over the positions j of the register whose qubit is 1 *)
Definition selected_sum (x : list bool) (y : list nat) (f : nat -> Z) : Z :=
  fold_right (fun j acc => (if getbit x (nth j y 0%nat) then f j else 0) + acc) 0 (seq 0 (length y)).
(** is the optional control on? *)
Definition enabled (x : list bool) (ctrl : option nat) : bool := match ctrl with None => true | Some c => getbit x c end.
(** the register of a QuantumModulus over N with Montgomery shift s holds the residue v *)
Definition represents (x : list bool) (qs : list nat) (N s v : Z) : Prop :=
  register qs x /\ N <= 2 ^ Z.of_nat (length qs) /\ stands_for N s (value x qs) v.
(** a summand for mod_adder: a number, or a register apart from the given qubits whose value is reduced *)
Definition fits (x : list bool) (N : Z) (away : list nat) (a : operand) : Prop :=
  match a with Cl _ => True | Qu qs => apart qs away /\ value x qs < N end.
Definition off_control (ctrl : option nat) (away : list nat) : Prop := match ctrl with None => True | Some c => ~ In c away end.
(** 2^s has an inverse modulo N, or is not needed *)
Definition good (N s : Z) : Prop := s = 0 \/ Z.odd N = true.
(** the second operand of an operator of a QuantumModulus (modulus N, shift s) holds the residue w: integers are taken modulo N; another
    QuantumModulus has the same modulus; a QuantumFloat holds a number below N and is only allowed if the shift is 0. Registers are apart
    from the given qubits *)
Definition operand_means (x : list bool) (N s : Z) (away : list nat) (o : other) (w : Z) : Prop :=
  match o with
  | Int z => w = z mod N
  | Mod p => modulus p = N /\ good N (shift p) /\ represents x (reg p) N (shift p) w /\ apart (reg p) away
  | Float qs => s = 0 /\ apart qs away /\ value x qs < N /\ w = value x qs
  end.
