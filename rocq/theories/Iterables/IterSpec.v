(** What shifting, permuting, moving and reading entries means, without reference to swaps. A state gives the content of
    each entry; [ids] are the entries of the iterable in order. *)
From Coq Require Import ZArith List Bool.
Import ListNotations.

(** Entry i has the content that entry g(i) had; nothing outside the iterable changes. *)
Definition rearranged {A} (ids : list nat) (g : nat -> nat) (st st' : nat -> A) : Prop :=
  (forall i, i < length ids -> st' (nth i ids 0) = st (nth (g i) ids 0)) /\ (forall x, ~ In x ids -> st' x = st x).
(** The content of entry i moves to entry (i + k) mod N. *)
Definition shifted {A} (ids : list nat) (k : Z) (st st' : nat -> A) : Prop :=
  (forall i, i < length ids -> st' (nth (Z.to_nat ((Z.of_nat i + k) mod Z.of_nat (length ids))) ids 0) = st (nth i ids 0)) /\
  (forall x, ~ In x ids -> st' x = st x).
Definition is_perm (p : list nat) : Prop := NoDup p /\ forall i, In i p -> i < length p.
(** the number with the given binary digits, most significant first *)
Fixpoint number (l : list bool) : nat := match l with [] => 0 | b :: l => (if b then 2 ^ length l else 0) + number l end.
(** least significant first *)
Fixpoint numberZ (l : list bool) : Z := match l with [] => 0 | b :: l => (if b then 1 else 0) + 2 * numberZ l end%Z.
