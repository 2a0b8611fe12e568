(** Reference semantics: the matrix of a tensor product of single-qubit operators on [n] qubits.
    Rows and columns are indexed by lists of [n] bits, qubit 0 first. *)
From Verif.Operators Require Import PauliModel.
Local Open Scope Z_scope.

(** the eight single-qubit operators as functions of (row bit, column bit) *)
Definition mat1 (f : factor) (r c : bool) : G :=
  match f with
  | FI => if eqb r c then g1 else g0
  | FX => if eqb r c then g0 else g1
  | FY => if eqb r c then g0 else if r then gi else gneg gi
  | FZ => if eqb r c then (if r then gneg g1 else g1) else g0
  | FA => if negb r && c then g1 else g0       (* |0><1| *)
  | FC => if r && negb c then g1 else g0       (* |1><0| *)
  | FP0 => if negb r && negb c then g1 else g0
  | FP1 => if r && c then g1 else g0
  end.
Fixpoint tensor (fs : list factor) (r c : list bool) : G :=
  match fs, r, c with
  | [], [], [] => g1
  | f :: fs, x :: r, y :: c => gmul (mat1 f x y) (tensor fs r c)
  | _, _, _ => g0
  end.
(** the factors of a term on qubits 0..n-1 *)
Definition factors (n : nat) (t : term) : list factor := map (get t) (seq 0 n).
Definition tmat (n : nat) (t : term) : list bool -> list bool -> G := tensor (factors n t).
Fixpoint gsum {A} (l : list A) (f : A -> G) : G := match l with [] => g0 | x :: l => gadd (f x) (gsum l f) end.
Definition omat (n : nat) (o : op) (r c : list bool) : G := gsum o (fun tc => gmul (snd tc) (tmat n (fst tc) r c)).
(** all bit strings of length n, and the matrix product *)
Fixpoint bitstrings (n : nat) : list (list bool) :=
  match n with O => [[]] | S n => map (cons false) (bitstrings n) ++ map (cons true) (bitstrings n) end.
Definition mprod (n : nat) (A B : list bool -> list bool -> G) (r c : list bool) : G :=
  gsum (bitstrings n) (fun m => gmul (A r m) (B m c)).
(** all qubits of the term are below n *)
Definition within (n : nat) (t : term) : Prop := forall k, In k (dom t) -> (k < n)%nat.
Definition owithin (n : nat) (o : op) : Prop := forall tc, In tc o -> within n (fst tc).
(** equality as operators on n qubits *)
Definition same_on (n : nat) (A B : list bool -> list bool -> G) : Prop :=
  forall r c, length r = n -> length c = n -> A r c = B r c.
(** [ord] enumerates the union of the keys of two dictionaries, each key once *)
Definition enumerates (ord : term -> term -> list nat) : Prop :=
  forall a b, NoDup (ord a b) /\ forall k, In k (ord a b) <-> In k (dom a) \/ In k (dom b).
(** an integer below 2^n as bits, most significant first *)
Definition bits_msb (n : nat) (x : Z) : list bool := map (fun k => Z.testbit x (Z.of_nat (n - k - 1))) (seq 0 n).
(** [keys] lists every key of the two dictionaries once *)
Definition covers (keys : list nat) (a b : term) : Prop := NoDup keys /\ forall k, In k keys <-> In k (dom a) \/ In k (dom b).
(** the two terms commute as operators on n qubits *)
Definition commuting n a b := same_on n (mprod n (tmat n a) (tmat n b)) (mprod n (tmat n b) (tmat n a)).
(** two single-qubit operators commute *)
Definition commute1 (f g : factor) : Prop := forall r c,
  gadd (gmul (mat1 f r false) (mat1 g false c)) (gmul (mat1 f r true) (mat1 g true c)) =
  gadd (gmul (mat1 g r false) (mat1 f false c)) (gmul (mat1 g r true) (mat1 f true c)).
(** the terms of an operator are distinct dictionary keys *)
Fixpoint dict (a : op) : Prop := match a with [] => True | (t, _) :: a => (forall tc, In tc a -> teqb t (fst tc) = false) /\ dict a end.
(** a (row, column, value) entry of a 2^n x 2^n matrix *)
Definition in_range (n : nat) (e : Z * Z * G) : Prop := let '(row, col, _) := e in 0 <= row < 2 ^ Z.of_nat n /\ 0 <= col < 2 ^ Z.of_nat n.
