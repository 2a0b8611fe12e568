(** Model of /repo/src/qrisp/operators/fermionic/fermionic_term.py (FT below) and fermionic_operator.py (FO).
    A FermionicTerm is its ladder list, (mode index, is_creator), first factor applied first.
    Coefficients are integers (floating point and complex coefficients are not modelled). *)
From Coq Require Export ZArith.
From Verif.Operators Require Export PauliModel.
Local Open Scope nat_scope.

Definition ladder := (nat * bool)%type.
Definition fterm := list ladder.

(** FT 54-55 *)
Definition dagger (t : fterm) : fterm := map (fun l => (fst l, negb (snd l))) (rev t).
(** FT 95-97: self * other *)
Definition fmul (self other : fterm) : fterm := other ++ self.

(** FT 199-206: permutation_signature; true for -1 *)
Definition inversions (perm : list nat) : nat :=
  fold_left (fun k i => fold_left (fun k j => if nth i perm 0 <? nth j perm 0 then S k else k) (seq 0 i) k) (seq 0 (length perm)) 0.
Definition permutation_signature (perm : list nat) : Z := if Nat.even (inversions perm) then 1%Z else (-1)%Z.

(** FT 120-121: stable argsort of [-index], i.e. positions ordered by decreasing index, ties by position *)
Fixpoint insert_pos (t : fterm) (p : nat) (l : list nat) : list nat :=
  match l with
  | [] => [p]
  | q :: l' => if fst (nth p t (0, false)) <? fst (nth q t (0, false)) then q :: insert_pos t p l' else p :: l
  end.
Definition argsort (t : fterm) : list nat := fold_right (fun p l => insert_pos t p l) [] (seq 0 (length t)).

(** FT 125-132: the loop that may set flip_sign to 0 *)
Definition vanishes_at (t : fterm) (i : nat) : bool :=
  let g k := nth k t (0, false) in
  (fst (g i) =? fst (g (i + 1))) &&
  (eqb (snd (g i)) (snd (g (i + 1))) || ((1 <? i) && (fst (g i) =? fst (g (i - 1))))).
(** FT 118-134 *)
Definition fsort (t : fterm) : fterm * Z :=
  let perm := argsort t in
  let l := map (fun i => nth i t (0, false)) perm in
  let sign := permutation_signature perm in
  (l, if existsb (vanishes_at l) (seq 0 (length l - 1)) then 0%Z else sign).

(** terms are compared by the hash of their indices and creator mask (FT 38-49) *)
Definition leqb (a b : ladder) : bool := (fst a =? fst b) && eqb (snd a) (snd b).
Fixpoint fteqb (a b : fterm) : bool :=
  match a, b with [], [] => true | x :: a, y :: b => leqb x y && fteqb a b | _, _ => false end.
Definition fop := list (fterm * Z).
Fixpoint fdict_add (d : fop) (t : fterm) (v : Z) : fop :=
  match d with
  | [] => [(t, v)]
  | (t', v') :: d => if fteqb t' t then (t', (v + v')%Z) :: d else (t', v') :: fdict_add d t v
  end.
Fixpoint fget (d : fop) (t : fterm) : option Z :=
  match d with [] => None | (t', v) :: d => if fteqb t' t then Some v else fget d t end.
(** FO 70-160 with assume_hermitian=False *)
Definition freduce (o : fop) : fop :=
  let d := fold_left (fun d tc => let '(s, f) := fsort (fst tc) in fdict_add d s (f * snd tc)%Z) o [] in
  filter (fun tc => negb (snd tc =? 0)%Z) d.
(** FO 264-283; KeyError as [None] *)
Definition feq (self other : fop) : option bool :=
  let rs := freduce self in let ro := freduce other in
  if negb (length rs =? length ro) then Some false else
  fold_left (fun acc tc =>
    match acc with
    | Some true =>
        match fget other (fst tc) with
        | None => let '(d, f) := fsort (dagger (fst tc)) in
            match fget ro d with None => Some false | Some v => Some (snd tc =? f * v)%Z end
        | Some _ => match fget ro (fst tc) with None => None | Some v => Some (snd tc =? v)%Z end
        end
    | acc => acc
    end) rs (Some true).

(** FT 175-194: to_qubit_term; X(i), Z(i), A(i), C(i) are one-term operators; the Python int 1 that starts
    the products is the scalar operator *)
Definition single (i : nat) (f : factor) : op := [([(i, f)], g1)].
Definition jw_ladder (ord : term -> term -> list nat) (l : ladder) : op :=
  let temp := fold_left (fun temp j => omul ord (single j FZ) temp) (seq 0 (fst l)) (oscalar g1) in
  omul ord temp (single (fst l) (if snd l then FC else FA)).
Definition to_qubit_term (ord : term -> term -> list nat) (t : fterm) : op :=
  fold_left (fun res l => omul ord (jw_ladder ord l) res) t (oscalar g1).

(** FO 300-332: __add__ (terms whose coefficient cancels are deleted) *)
Fixpoint fdict_add_del (d : fop) (t : fterm) (v : Z) : fop :=
  match d with
  | [] => if (v =? 0)%Z then [] else [(t, v)]
  | (t', v') :: d => if fteqb t' t then (if (v' + v =? 0)%Z then d else (t', (v' + v)%Z) :: d) else (t', v') :: fdict_add_del d t v
  end.
Definition fadd (a b : fop) : fop :=
  let d := fold_left (fun d tc => fdict_add_del d (fst tc) (snd tc)) a [] in
  fold_left (fun d tc => fdict_add_del d (fst tc) (snd tc)) b d.
(** FO 334-366 *)
Definition fsub (a b : fop) : fop :=
  let d := fold_left (fun d tc => fdict_add_del d (fst tc) (snd tc)) a [] in
  fold_left (fun d tc => fdict_add_del d (fst tc) (- snd tc)%Z) b d.
(** FO 402-429 *)
Definition fopmul (a b : fop) : fop :=
  fold_left (fun d tc1 => fold_left (fun d tc2 => fdict_add d (fmul (fst tc1) (fst tc2)) (snd tc1 * snd tc2)%Z) b d) a [].
(** FO 215-239 *)
Fixpoint fdict_set (d : fop) (t : fterm) (v : Z) : fop :=
  match d with
  | [] => [(t, v)]
  | (t', v') :: d => if fteqb t' t then (t', v) :: d else (t', v') :: fdict_set d t v
  end.
Definition fdagger (a : fop) : fop := fold_left (fun d tc => fdict_set d (dagger (fst tc)) (snd tc)) a [].
(** FO 609-640; the sum with += is modelled as + *)
Definition to_qubit_operator (ord : term -> term -> list nat) (a : fop) : op :=
  fold_left (fun res tc => oadd res (omul ord (to_qubit_term ord (fst tc)) (oscalar (snd tc, 0%Z)))) a [].
