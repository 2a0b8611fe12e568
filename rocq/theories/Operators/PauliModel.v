(** Model of /repo/src/qrisp/operators/qubit/qubit_term.py (QT below) and qubit_operator.py (QO below).

    A QubitTerm is its factor dictionary, an association list from qubit index to factor; [get] is
    dict.get(key, "I").  A QubitOperator is its terms dictionary, an association list from terms to
    coefficients.  Simplifications: coefficients are Gaussian integers, so that the test
    abs(c) < threshold (1e-9) is c = 0 and floating point rounding does not occur; Python compares
    QubitTerms by the hash of their sorted items, modelled as equality of the dictionaries (no hash
    collisions); sets of keys are iterated in an arbitrary order, passed as [keys]. *)
From Coq Require Export ZArith List Bool Lia.
Export ListNotations.
Local Open Scope Z_scope.

(** Gaussian integers *)
Definition G := (Z * Z)%type.
Definition g0 : G := (0, 0).
Definition g1 : G := (1, 0).
Definition gi : G := (0, 1).
Definition gadd (a b : G) : G := (fst a + fst b, snd a + snd b).
Definition gneg (a : G) : G := (- fst a, - snd a).
Definition gsub (a b : G) : G := gadd a (gneg b).
Definition gmul (a b : G) : G := (fst a * fst b - snd a * snd b, fst a * snd b + snd a * fst b).
Definition gconj (a : G) : G := (fst a, - snd a).
Definition geqb (a b : G) : bool := (fst a =? fst b) && (snd a =? snd b).

Inductive factor := FI | FX | FY | FZ | FA | FC | FP0 | FP1.
Definition feqb (a b : factor) : bool :=
  match a, b with
  | FI, FI | FX, FX | FY, FY | FZ, FZ | FA, FA | FC, FC | FP0, FP0 | FP1, FP1 => true
  | _, _ => false
  end.

(** QT 24-89: PAULI_TABLE *)
Definition pauli_table (a b : factor) : factor * G :=
  let m1 := gneg g1 in let mi := gneg gi in
  match a, b with
  | FI, FI => (FI, g1) | FI, FX => (FX, g1) | FI, FY => (FY, g1) | FI, FZ => (FZ, g1)
  | FI, FA => (FA, g1) | FI, FC => (FC, g1) | FI, FP0 => (FP0, g1) | FI, FP1 => (FP1, g1)
  | FX, FI => (FX, g1) | FX, FX => (FI, g1) | FX, FY => (FZ, gi) | FX, FZ => (FY, mi)
  | FX, FA => (FP1, g1) | FX, FC => (FP0, g1) | FX, FP0 => (FC, g1) | FX, FP1 => (FA, g1)
  | FY, FI => (FY, g1) | FY, FX => (FZ, mi) | FY, FY => (FI, g1) | FY, FZ => (FX, gi)
  | FY, FA => (FP1, gi) | FY, FC => (FP0, mi) | FY, FP0 => (FC, gi) | FY, FP1 => (FA, mi)
  | FZ, FI => (FZ, g1) | FZ, FX => (FY, gi) | FZ, FY => (FX, mi) | FZ, FZ => (FI, g1)
  | FZ, FA => (FA, g1) | FZ, FC => (FC, m1) | FZ, FP0 => (FP0, g1) | FZ, FP1 => (FP1, m1)
  | FA, FI => (FA, g1) | FA, FX => (FP0, g1) | FA, FY => (FP0, gi) | FA, FZ => (FA, m1)
  | FA, FA => (FI, g0) | FA, FC => (FP0, g1) | FA, FP0 => (FI, g0) | FA, FP1 => (FA, g1)
  | FC, FI => (FC, g1) | FC, FX => (FP1, g1) | FC, FY => (FP1, mi) | FC, FZ => (FC, g1)
  | FC, FA => (FP1, g1) | FC, FC => (FI, g0) | FC, FP0 => (FC, g1) | FC, FP1 => (FI, g0)
  | FP0, FI => (FP0, g1) | FP0, FX => (FA, g1) | FP0, FY => (FA, mi) | FP0, FZ => (FP0, g1)
  | FP0, FA => (FA, g1) | FP0, FC => (FI, g0) | FP0, FP0 => (FP0, g1) | FP0, FP1 => (FI, g0)
  | FP1, FI => (FP1, g1) | FP1, FX => (FC, g1) | FP1, FY => (FC, gi) | FP1, FZ => (FP1, m1)
  | FP1, FA => (FI, g0) | FP1, FC => (FC, g1) | FP1, FP0 => (FI, g0) | FP1, FP1 => (FP1, g1)
  end.

Definition term := list (nat * factor).
Fixpoint get (t : term) (k : nat) : factor :=
  match t with
  | [] => FI
  | (j, f) :: t => if (j =? k)%nat then f else get t k
  end.
Definition dom (t : term) : list nat := map fst t.

(** QT 544-558: __mul__; the loop over [keys] with the early return on a zero coefficient *)
Fixpoint mul_loop (a b : term) (keys : list nat) (res : term) (coeff : G) : term * G :=
  match keys with
  | [] => (res, coeff)
  | k :: keys =>
      let '(f, c) := pauli_table (get a k) (get b k) in
      if geqb c g0 then ([], g0)
      else if feqb f FI then mul_loop a b keys res coeff
      else mul_loop a b keys (res ++ [(k, f)]) (gmul coeff c)
  end.
Definition tmul (keys : list nat) (a b : term) : term * G := mul_loop a b keys [] g1.

(** QT 220-230: adjoint *)
Definition fadj (f : factor) : factor := match f with FA => FC | FC => FA | f => f end.
Definition tadj (t : term) : term :=
  flat_map (fun kf => match snd kf with FI => [] | f => [(fst kf, fadj f)] end) t.

(** term equality (QT 105-106) *)
Definition teqb (a b : term) : bool := forallb (fun k => feqb (get a k) (get b k)) (dom a ++ dom b).

(** a canonical iteration order for set(a.keys()) | set(b.keys()) *)
Definition allkeys (a b : term) : list nat := nodup Nat.eq_dec (dom a ++ dom b).

(** ** QubitOperator *)
Definition op := list (term * G).
(** [d[t] = d.get(t, 0) + v; if abs(d[t]) < threshold: del d[t]] (QO 262-264, 267-269) *)
Fixpoint dict_add_del (d : op) (t : term) (v : G) : op :=
  match d with
  | [] => if geqb v g0 then [] else [(t, v)]
  | (t', v') :: d => if teqb t' t then (if geqb (gadd v' v) g0 then d else (t', gadd v' v) :: d) else (t', v') :: dict_add_del d t v
  end.
(** the same without deletion (QO 366) *)
Fixpoint dict_add (d : op) (t : term) (v : G) : op :=
  match d with
  | [] => [(t, v)]
  | (t', v') :: d => if teqb t' t then (t', gadd v' v) :: d else (t', v') :: dict_add d t v
  end.
(** QO 240-272 *)
Definition oadd (a b : op) : op :=
  let d := fold_left (fun d tc => dict_add_del d (fst tc) (snd tc)) a [] in
  fold_left (fun d tc => dict_add_del d (fst tc) (snd tc)) b d.
(** QO 274-306 *)
Definition osub (a b : op) : op :=
  let d := fold_left (fun d tc => dict_add_del d (fst tc) (snd tc)) a [] in
  fold_left (fun d tc => dict_add_del d (fst tc) (gneg (snd tc))) b d.
(** QO 308-340: other - self *)
Definition orsub (self other : op) : op :=
  let d := fold_left (fun d tc => dict_add_del d (fst tc) (gneg (snd tc))) self [] in
  fold_left (fun d tc => dict_add_del d (fst tc) (snd tc)) other d.
(** QO 342-370; each term product iterates its keys in some order [ord] *)
Definition omul (ord : term -> term -> list nat) (a b : op) : op :=
  let d := fold_left (fun d tc1 => fold_left (fun d tc2 =>
      let '(t, c) := tmul (ord (fst tc1) (fst tc2)) (fst tc1) (fst tc2) in
      dict_add d t (gmul (gmul c (snd tc1)) (snd tc2))) b d) a [] in
  filter (fun tc => negb (geqb (snd tc) g0)) d.
(** scalars are promoted to {QubitTerm(): c} (QO 254-255, 288-289, 322-323, 356-357) *)
Definition oscalar (c : G) : op := [([], c)].
(** dict item assignment d[t] = v *)
Fixpoint dict_set (d : op) (t : term) (v : G) : op :=
  match d with
  | [] => [(t, v)]
  | (t', v') :: d => if teqb t' t then (t', v) :: d else (t', v') :: dict_set d t v
  end.
(** QO 845-866 *)
Definition oadj (a : op) : op := fold_left (fun d tc => dict_set d (tadj (fst tc)) (gconj (snd tc))) a [].

(** ** commutation *)
(** QT 635-644 (the value of apply_threshold is discarded there) *)
Definition commutator (ord : term -> term -> list nat) (a b : term) : op :=
  osub [tmul (ord a b) a b] [tmul (ord b a) b a].
(** QT 646-672 *)
Fixpoint commute_loop (comm : bool) (a b : term) (keys : list nat) (sign : Z) : bool :=
  match keys with
  | [] => sign =? 1
  | k :: keys =>
      let '(fa, ca) := pauli_table (get a k) (get b k) in
      let '(fb, cb) := pauli_table (get b k) (get a k) in
      if geqb ca g0 && geqb cb g0 then true
      else if feqb fa fb then
        if geqb ca cb then commute_loop comm a b keys sign
        else if geqb ca (gneg cb) then commute_loop comm a b keys (- sign)
        else commute_loop comm a b keys sign
      else comm
  end.
Definition commute (ord : term -> term -> list nat) (a b : term) : bool :=
  commute_loop (match commutator ord a b with [] => true | _ => false end) a b (ord a b) 1.
(** QT 703-715 *)
Definition commute_qw (ord : term -> term -> list nat) (a b : term) : bool :=
  forallb (fun k => let '(fa, ca) := pauli_table (get a k) (get b k) in
                    let '(fb, cb) := pauli_table (get b k) (get a k) in feqb fa fb && geqb ca cb) (ord a b).
(** QT 674-701 *)
Definition is_pauli (f : factor) : bool := match f with FI | FX | FY | FZ => true | _ => false end.
Fixpoint commute_pauli_loop (a b : term) (keys : list nat) (sign : Z) : bool :=
  match keys with
  | [] => sign =? 1
  | k :: keys =>
      let '(fa, ca) := pauli_table (get a k) (get b k) in
      let '(fb, cb) := pauli_table (get b k) (get a k) in
      if feqb fa fb && geqb ca cb then commute_pauli_loop a b keys sign
      else if is_pauli fa && is_pauli fb then
        commute_pauli_loop a b keys (if geqb ca (gneg cb) then - sign else sign)
      else false
  end.
Definition commute_pauli (ord : term -> term -> list nat) (a b : term) : bool := commute_pauli_loop a b (ord a b) 1.

(** ** matrices *)
(** QO 675-684 *)
Definition operator_matrices (f : factor) (r c : bool) : G :=
  match f, r, c with
  | FI, false, false => g1 | FI, true, true => g1
  | FX, false, true => g1 | FX, true, false => g1
  | FY, false, true => gneg gi | FY, true, false => gi
  | FZ, false, false => g1 | FZ, true, true => gneg g1
  | FA, false, true => g1
  | FC, true, false => g1
  | FP0, false, false => g1
  | FP1, true, true => g1
  | _, _, _ => g0
  end.
Definition matrix := Z -> Z -> G.
(** sp.kron(A, B) for A 2x2 and B of dimension 2^k *)
Definition kron2 (A : bool -> bool -> G) (k : nat) (B : matrix) : matrix :=
  fun i j => gmul (A (Z.odd (i / 2 ^ Z.of_nat k)) (Z.odd (j / 2 ^ Z.of_nat k))) (B (i mod 2 ^ Z.of_nat k) (j mod 2 ^ Z.of_nat k)).
(** QO 686-693: recursive_kron, [keys] non-empty *)
Fixpoint recursive_kron (keys : list nat) (t : term) : matrix :=
  match keys with
  | [] => fun _ _ => g1
  | [k] => fun i j => operator_matrices (get t k) (Z.odd i) (Z.odd j)
  | k :: keys => kron2 (operator_matrices (get t k)) (length keys) (recursive_kron keys t)
  end.
(** QO 721-725 for a given factor_amount *)
Definition to_matrix (n : nat) (o : op) : matrix :=
  fun i j => fold_left (fun m tc => gadd m (gmul (snd tc) (recursive_kron (seq 0 n) (fst tc) i j))) o g0.
(** QO 620, 638-649: from_matrix on the list of non-zero entries (row, col, value) of a matrix of dimension 2^n
    (the default reverse_endianness=False) *)
Definition operator_table (i j : bool) : factor :=
  match i, j with false, false => FP0 | false, true => FA | true, false => FC | true, true => FP1 end.
Definition entry_term (n : nat) (row col : Z) : term :=
  map (fun k => ((n - k - 1)%nat, operator_table (Z.testbit row (Z.of_nat k)) (Z.testbit col (Z.of_nat k)))) (seq 0 n).
Definition from_matrix (n : nat) (entries : list (Z * Z * G)) : op :=
  fold_left (fun d e => let '(row, col, v) := e in dict_set d (entry_term n row col) v) entries [].
