(** The action of the gates on amplitudes, and feasible solutions. *)
From Coq Require Import List Arith Bool Reals.
Import ListNotations.
From Verif.Inverse Require Import InvSpec.
From Verif.CtrlOps Require Import CtrlComplex.
From Verif.StatePrep Require Import PrepModel PrepSpec.
From Verif.Mixers Require Import MixModel.
Local Open Scope R_scope.
Definition matches (x : list bool) (cs : list (nat * bool)) : bool := forallb (fun '(c, b) => Bool.eqb (getbit x c) b) cs.
Definition flip (x : list bool) (q : nat) : list bool := setbit x q (negb (getbit x q)).
Definition mapply (g : mgate) (psi : state) : state := fun x =>
  match g with
  | Std g => apply g psi x
  | MCX cs t => if matches x cs then psi (flip x t) else psi x
  | CRX c a q => if getbit x c then act (rx a) q psi x else psi x
  | MCP a cs => if matches x cs then cmul (turn a) (psi x) else psi x
  end.
Definition mrun (c : list mgate) (psi : state) : state := fold_left (fun psi g => mapply g psi) c psi.
(** solutions are lists of bits: bit i says whether node / set i is chosen *)
Definition independent (adj : nat -> list nat) (s : list bool) : Prop := forall i j, getbit s i = true -> getbit s j = true -> ~ In j (adj i).
Definition clique (edge : nat -> nat -> bool) (s : list bool) : Prop := forall i j, getbit s i = true -> getbit s j = true -> i <> j -> edge i j = true.
Definition packing (sets : list (list nat)) (s : list bool) : Prop :=
  forall i j e, getbit s i = true -> getbit s j = true -> i <> j -> In e (nth i sets []) -> ~ In e (nth j sets []).
Definition covers (sets : list (list nat)) (s : list bool) : Prop := forall i e, In e (nth i sets []) -> exists j, getbit s j = true /\ In e (nth j sets []).
(** the bits of register r of an array whose registers have k qubits *)
Definition register (k r : nat) (x : list bool) : list bool := firstn k (skipn (r * k) x).
(** neighbour lists of an undirected graph without loops on the nodes 0, ..., n - 1 *)
Definition simple_graph (n : nat) (adj : nat -> list nat) : Prop :=
  forall i, (i < n)%nat -> forall j, In j (adj i) -> (j < n)%nat /\ j <> i /\ In i (adj j).
(** the intended mixing of one choice: rx on bit i of those solutions in which i may be exchanged; the other amplitudes stay *)
Definition mix_one (allowed : list bool -> nat -> bool) (beta : R) (phi : list bool -> cplx) (i : nat) : list bool -> cplx := fun s =>
  if allowed s i then cadd (scale (cos (beta / 2)) (phi s)) (cmul (copp ci) (scale (sin (beta / 2)) (phi (flip s i)))) else phi s.
Definition mix_all (allowed : list bool -> nat -> bool) (beta : R) (n : nat) (phi : list bool -> cplx) : list bool -> cplx := fold_left (mix_one allowed beta) (seq 0 n) phi.
(** no neighbour of node i is chosen *)
Definition no_neighbour (adj : nat -> list nat) (s : list bool) (i : nat) : bool := forallb (fun j => negb (getbit s j)) (adj i).
(** set i is not empty and the other chosen sets contain its elements *)
Definition dispensable (sets : list (list nat)) (s : list bool) (i : nat) : bool :=
  negb (length (nth i sets []) =? 0)%nat &&
  forallb (fun e => existsb (fun j => getbit s j && negb (j =? i)%nat && existsb (Nat.eqb e) (nth j sets [])) (seq 0 (length sets))) (nth i sets []).
