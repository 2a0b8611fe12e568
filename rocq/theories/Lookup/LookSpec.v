(** Amplitudes of qubits numbered by bits, and what a table look-up does to them. *)
From Coq Require Import Reals.
From Verif.CtrlOps Require Import CtrlComplex.
From Verif.Lookup Require Import LookModel.
Local Open Scope nat_scope.
(** amplitudes of the basis states; qubit j holds bit j *)
Definition amps := N -> cplx.
Definition root_half : cplx := ((/ sqrt 2)%R, 0%R).
Definition flip (q : nat) (x : N) : N := N.lxor x (bit q).
(** the action of a gate: X, controlled X, H = (1 1; 1 -1) / sqrt 2 and P = diag (1, exp (i pi a)) *)
Definition apply (g : lgate) (psi : amps) : amps := fun x =>
  match g with
  | LX t => psi (flip t x)
  | LCX c t => psi (if tb x c then flip t x else x)
  | LMCX cs t => psi (if forallb (tb x) cs then flip t x else x)
  | LH t => if tb x t then cmul root_half (csub (psi (flip t x)) (psi x)) else cmul root_half (cadd (psi x) (psi (flip t x)))
  | LP a q => if tb x q then cmul (cexpi a) (psi x) else psi x
  end.
Definition run (c : list lgate) (psi : amps) : amps := fold_left (fun psi g => apply g psi) c psi.
(** the number held by qubits, the first being the least significant *)
Definition value (qs : list nat) (x : N) : nat := number (map (tb x) qs).
(** bits added to qubits *)
Definition add_bits (outs : list nat) (bs : list bool) (x : N) : N :=
  fold_right (fun (ob : nat * bool) y => if snd ob then flip (fst ob) y else y) x (combine outs bs).
(** the row of the table for the number on [ins], added to [outs] *)
Definition looked_up (tt : table) (ins outs : list nat) (x : N) : N := add_bits outs (nth (value ins x) tt []) x.
(** a table for [n] inputs and [m] outputs *)
Definition table_of (n m : nat) (tt : table) : Prop := length tt = 2 ^ n /\ Forall (fun r => length r = m) tt.
(** the number of ones in row [i] *)
Definition weight (tt : table) (i : nat) : Qc := fold_right (fun (b : bool) s => ((if b then 1 else 0) + s)%Qc) 0%Qc (nth i tt []).
(** ** dictionaries *)
(** encoders and decoders that belong together *)
Definition proper (k : qv) : Prop := forall i, i < 2 ^ qsize k -> encoder k (decoder k i) = Some i.
(** the label of the keys when their variables hold the numbers [vs]: that of the variable, or the tuple of those of the variables *)
Definition key_label (keys : list qv) (vs : list nat) : label :=
  match map (fun kv => decoder (fst kv) (snd kv)) (combine keys vs) with [l] => l | ls => Tuple ls end.
(** a single key must not have tuples as labels *)
Definition plain_keys (keys : list qv) : Prop :=
  match keys with [k] => forall i l, i < 2 ^ qsize k -> decoder k i <> Tuple l | _ => True end.
(** the qubits of the variables *)
Definition registers (keys : list qv) (kregs : list (list nat)) : Prop := Forall2 (fun k r => length r = qsize k) keys kregs.
(** the values of the dictionary can be encoded *)
Definition encodable {V} (keys : list qv) (d : label -> option V) (venc : V -> option nat) (m : nat) : Prop :=
  forall vs v, Forall2 (fun k i => i < 2 ^ qsize k) keys vs -> d (key_label keys vs) = Some v -> exists c, venc v = Some c /\ c < 2 ^ m.
(** the bits of the value for a key; nothing for keys that are not in the dictionary *)
Definition word {V} (d : label -> option V) (venc : V -> option nat) (m : nat) (k : label) : list bool :=
  match d k with
  | Some v => match venc v with Some c => map (Nat.testbit c) (seq 0 m) | None => [] end
  | None => []
  end.
