(** Specification of Jlist histories on plain lists with a capacity. *)
From Verif.Jlist Require Import JlistModel.
From Coq Require Import ZArith List.
Import ListNotations.
Local Open Scope Z_scope.

(** Operations of a history; an extension carries the other Jlist. *)
Inductive op := OAppend (v : Z) | OPrepend (v : Z) | OExtend (other : jl) | OPop.

(** What the user observes through [len] and integer indexing. *)
Definition contents (s : jl) : list Z := map (fun i => getitem s (Z.of_nat i)) (seq 0 (Z.to_nat (ctr s))).

(** The same history on a plain list: Python's operations, where elements beyond the capacity
    are dropped at the end; the popped values are collected in order. *)
Fixpoint spec_run (cap : nat) (l : list Z) (ops : list op) : option (list Z * list Z) :=
  match ops with
  | [] => Some (l, [])
  | OAppend v :: t => spec_run cap (firstn cap (l ++ [v])) t
  | OPrepend v :: t => spec_run cap (firstn cap (v :: l)) t
  | OExtend o :: t => spec_run cap (firstn cap (l ++ contents o)) t
  | OPop :: t =>
    match l with
    | [] => None
    | _ => option_map (fun '(l', out) => (l', last l 0 :: out)) (spec_run cap (removelast l) t)
    end
  end.

(** The history on the Jlist. *)
Fixpoint run (s : jl) (ops : list op) : option (jl * list Z) :=
  match ops with
  | [] => Some (s, [])
  | OAppend v :: t => match append s v with Some s' => run s' t | None => None end
  | OPrepend v :: t => match prepend s v with Some s' => run s' t | None => None end
  | OExtend o :: t => match extend s o with Some s' => run s' t | None => None end
  | OPop :: t => match pop s with
                 | Some (s', v) => option_map (fun '(s'', out) => (s'', v :: out)) (run s' t)
                 | None => None
                 end
  end.

(** A Jlist holding at most [cap] elements in an array of that size. *)
Definition valid (cap : nat) (s : jl) : Prop :=
  match s with J a c => length a = cap /\ 0 <= c <= Z.of_nat cap | Jraw _ _ => False end.
(** the other Jlists of a history are valid, of any capacity *)
Definition valid_op (o : op) : Prop := match o with OExtend s => exists cap, valid cap s | _ => True end.

(** Python's list slicing l[start:stop] for bounds -len <= k <= len *)
Definition py_index (l : list Z) (k : Z) : nat := Z.to_nat (if k <? 0 then k + Z.of_nat (length l) else k).
Definition py_slice (l : list Z) (i j : nat) : list Z := firstn (j - i) (skipn i l).
