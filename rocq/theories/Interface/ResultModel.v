(** Model of the lazy measurement results, /repo/src/qrisp/interface/measurement_result.py (MR below). *)
From Coq Require Export ZArith QArith List Bool Lia Permutation Sorted.
Export ListNotations.

(** ** Laziness.  Objects are numbered in order of creation; a derived result (DecodedMeasurementResult,
    MultiMeasurementResult, _IntKeyedResult) refers to an older object and has an evaluation function, its _populate.
    [M] is the type of mappings and [E] of exceptions. *)
Section lazy.
Context {M E : Type}.
(** MR 65-67, 204-206, 337-340, 380-384, 453-456; [evals] counts the evaluations of a derived result *)
Record lobj := { src : option (nat * (M -> M + E)); populated : bool; data : option M; err : option E; evals : nat }.
Definition heap := list lobj.
Fixpoint put (l : heap) (i : nat) (o : lobj) : heap :=
  match l, i with [], _ => [] | _ :: l, O => o :: l | x :: l, S i => x :: put l i o end.
Inductive fault := Own (e : E) | NotReady | Broken (* no such object / assertion failure, never reached *).
(** MR 69-78 with _populate: 208-218, 342-353, 386-440, 458-472; [fuel] bounds the chain of sources *)
Fixpoint ensure (fuel : nat) (hp : heap) (h : nat) : heap * option fault :=
  match fuel, nth_error hp h with
  | O, _ | _, None => (hp, Some Broken)
  | S fuel, Some o =>
      if populated o then (hp, None) else
      match src o with
      | None => (hp, Some (match err o with Some e => Own e | None => NotReady end))
      | Some (r, f) =>
          match ensure fuel hp r with
          | (hp, Some e) => (hp, Some e)
          | (hp, None) =>
              match nth_error hp r with
              | None => (hp, Some Broken)
              | Some ro =>
                  match data ro with
                  | None => (hp, Some Broken)
                  | Some m =>
                      match f m with
                      | inl m' => (put hp h {| src := src o; populated := true; data := Some m'; err := err o; evals := S (evals o) |}, None)
                      | inr e => (put hp h {| src := src o; populated := false; data := data o; err := err o; evals := S (evals o) |}, Some (Own e))
                      end
                  end
              end
          end
      end
  end.
Inductive event := NewRaw | NewDerived (r : nat) (f : M -> M + E) | Inject (h : nat) (m : M) | InjectError (h : nat) (e : E) | Read (h : nat).
Inductive output := Nothing | Mapping (m : M) | Raise (e : fault).
(** every access through the Mapping protocol (MR 88-121) ensures population and then looks at _data *)
Definition step (hp : heap) (ev : event) : heap * output :=
  match ev with
  | NewRaw => (hp ++ [{| src := None; populated := false; data := None; err := None; evals := 0 |}], Nothing)
  | NewDerived r f => if r <? length hp then (hp ++ [{| src := Some (r, f); populated := false; data := None; err := None; evals := 0 |}], Nothing) else (hp, Nothing)
  | Inject h m =>   (* MR 220-234; only MeasurementResults have the method *)
      match nth_error hp h with
      | Some o => match src o with None => (put hp h {| src := None; populated := true; data := Some m; err := err o; evals := evals o |}, Nothing) | Some _ => (hp, Nothing) end
      | None => (hp, Nothing)
      end
  | InjectError h e =>   (* MR 236-250 *)
      match nth_error hp h with
      | Some o => match src o with None => (put hp h {| src := None; populated := populated o; data := data o; err := Some e; evals := evals o |}, Nothing) | Some _ => (hp, Nothing) end
      | None => (hp, Nothing)
      end
  | Read h =>
      match ensure (S h) hp h with
      | (hp, Some e) => (hp, Raise e)
      | (hp, None) => match nth_error hp h with
                      | Some o => match data o with Some m => (hp, Mapping m) | None => (hp, Raise Broken) end
                      | None => (hp, Raise Broken) end
      end
  end%nat.
Fixpoint exec (evs : list event) (hp : heap) : heap := match evs with [] => hp | e :: evs => exec evs (fst (step hp e)) end.
End lazy.

(** ** Decoding.  A dict is the list of its items in insertion order; values are exact rationals (the code uses floats). *)
Local Open Scope Q_scope.
Section decode.
Context {K : Type} (keqb : K -> K -> bool).
(** d[k] = d.get(k, 0) + v *)
Fixpoint dadd (d : list (K * Q)) (k : K) (v : Q) : list (K * Q) :=
  match d with
  | [] => [(k, 0 + v)]
  | (k', v') :: d => if keqb k' k then (k', v' + v) :: d else (k', v') :: dadd d k v
  end.
(** d[k] = v *)
Fixpoint dset (d : list (K * Q)) (k : K) (v : Q) : list (K * Q) :=
  match d with
  | [] => [(k, v)]
  | (k', v') :: d => if keqb k' k then (k', v) :: d else (k', v') :: dset d k v
  end.
End decode.
(** Python's stable sorted() as insertion sort; [le a b]: a may stay before b *)
Fixpoint insert {A} (le : A -> A -> bool) (x : A) (l : list A) : list A :=
  match l with [] => [x] | y :: l => if le x y then x :: y :: l else y :: insert le x l end.
Definition isort {A} (le : A -> A -> bool) (l : list A) : list A := fold_right (insert le) [] l.
(** key=lambda x: -x[1] *)
Definition desc {K} (a b : K * Q) : bool := Qle_bool (snd b) (snd a).
(** MR 342-353; the keys of the items are distinct, so sorted(items) orders by key *)
Definition by_key (a b : Z * Q) : bool := (fst a <=? fst b)%Z.
Definition decoded {L} (leqb : L -> L -> bool) (decoder : Z -> L) (raw : list (Z * Q)) : list (L * Q) :=
  isort desc (fold_left (fun d kc => dadd leqb d (decoder (fst kc)) (snd kc)) (isort by_key raw) []).

Inductive char := B0 | B1 | Sp.
(** int(s, base=2) for a string of binary digits; ValueError on the empty string *)
Definition bits_value (s : list bool) : Z := fold_left (fun v (b : bool) => (2 * v + if b then 1 else 0)%Z) s 0%Z.
Definition int2 (s : list bool) : option Z := match s with [] => None | _ => Some (bits_value s) end.
(** bits.replace(" ", "")[:num_bits] *)
Definition strip (s : list char) : list bool := flat_map (fun c => match c with B0 => [false] | B1 => [true] | Sp => [] end) s.
Definition trimmed (n : nat) (s : list char) : list bool := firstn n (strip s).
(** MR 458-472 *)
Definition Qabs (q : Q) : Q := if Qle_bool 0 q then q else - q.
Fixpoint int_keyed_loop (n : nat) (items : list (list char * Q)) (d : list (Z * Q)) (total : Q) : option (list (Z * Q) * Q) :=
  match items with
  | [] => Some (d, total)
  | (s, c) :: items => match int2 (trimmed n s) with None => None | Some k => int_keyed_loop n items (dadd Z.eqb d k c) (total + c) end
  end.
Definition int_keyed (n : nat) (raw : list (list char * Q)) : option (list (Z * Q)) :=
  match int_keyed_loop n raw [] 0 with
  | None => None
  | Some (d, total) =>
      if negb (Qle_bool total 0) && negb (Qle_bool (Qabs (1 - total)) (1 # 1000)) then Some (map (fun kv => (fst kv, snd kv / Qabs total)) d) else Some d
  end.

(** MR 386-440 for variables with decoders [decs] and classical registers of the lengths [regs] (already reversed, line 405).
    Bit strings are compared as strings; labels of each variable have the common type L. *)
Fixpoint slices {A} (regs : list nat) (s : list A) : list (list A) := match regs with [] => [] | r :: regs => firstn r s :: slices regs (skipn r s) end.
Fixpoint labels {L} (decs : list (Z -> L)) (regs : list nat) (s : list bool) : option (list L) :=
  match decs, regs with
  | [], _ | _, [] => Some []
  | d :: decs, r :: regs =>
      match int2 (firstn r s), labels decs regs (skipn r s) with
      | Some v, Some ls => Some (d v :: ls)
      | _, _ => None
      end
  end.
Fixpoint bits_le (a b : list bool) : bool :=
  match a, b with [], _ => true | _, [] => false | x :: a, y :: b => if eqb x y then bits_le a b else negb x && y end.
Definition by_bits (a b : list bool * Q) : bool := bits_le (fst a) (fst b).
Definition qsum (l : list Q) : Q := fold_right Qplus 0 l.
Definition multi {L} (leqb : list L -> list L -> bool) (decs : list (Z -> L)) (regs : list nat) (raw : list (list bool * Q)) : option (list (list L * Q)) :=
  let raw := isort by_bits raw in
  let total := qsum (map snd raw) in
  option_map (isort desc) (fold_left (fun acc sc => match acc, labels decs regs (fst sc) with
    | Some d, Some l => if Qeq_bool total 0 then None (* ZeroDivisionError *) else Some (dset leqb d l (snd sc / total))
    | _, _ => None end) raw (Some [])).
