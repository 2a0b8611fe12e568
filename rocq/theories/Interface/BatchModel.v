(** Model of BatchedBackend, /repo/src/qrisp/interface/batched_backend.py (BB below), and of MeasurementResult,
    /repo/src/qrisp/interface/measurement_result.py (MR), as a state machine.

    Circuits, counts dictionaries and exceptions are arbitrary types.  The wrapped backend is an arbitrary function of
    the calls it has received before and of the present call; it answers with a list of counts or raises.
    MeasurementResult objects are numbered in order of creation.  Not modelled: warnings, timeouts, the type check of
    shots (only integers and None are passed), concurrent access from several threads. *)
From Coq Require Export ZArith List Bool Lia.
Export ListNotations.
Local Open Scope nat_scope.

Section batched.
Context {C D E : Type}.
(** the shots argument of run_async: one value for all circuits, or one per circuit *)
Inductive eff := One (s : option Z) | Each (l : list (option Z)).
Definition call := (list C * eff)%type.
Variable backend : list call -> call -> list D + E.
(** Backend.max_circuits, backend.py 611-631 *)
Variable limit : option Z.

(** what a method raises: the backend's exception, or the errors of this module *)
Inductive error := EBackend (e : E) | EShots (* backend.py 456-457 *) | ENotReady (* MR 218 *) | EZeroStep (* range() with step 0 *).
(** MR 65-67, 204-206 *)
Record mres := { populated : bool; data : option D; err : option error }.
Definition fresh : mres := {| populated := false; data := None; err := None |}.
(** BB 119-127; [heap] holds all MeasurementResults created, [log] the calls the wrapped backend received, [dflt] its option "shots" *)
Record state := { queue : list (C * option Z * nat); heap : list mres; log : list call; dflt : option Z }.
Definition init (shots : option Z) : state := {| queue := []; heap := []; log := []; dflt := shots |}.

Inductive event := Run (cs : list C) (shots : option Z) | Dispatch | Clear | SetShots (s : option Z) | Read (h : nat).
Inductive output := Handles (hs : list nat) | Done | Raised (e : error) | Value (d : D).

(** backend.py 452-457 *)
Definition valid_shots (s : option Z) : bool := match s with Some z => (0 <? z)%Z | None => true end.
(** BB 187-200; a single circuit is a batch of one *)
Definition run (cs : list C) (shots : option Z) (s : state) : state * output :=
  if valid_shots shots then
    let n_shots := match shots with Some _ => shots | None => dflt s end in
    let n := length (heap s) in
    let hs := seq n (length cs) in
    ({| queue := queue s ++ map (fun ch => (fst ch, n_shots, snd ch)) (combine cs hs); heap := heap s ++ repeat fresh (length cs); log := log s; dflt := dflt s |}, Handles hs)
  else (s, Raised EShots).

Fixpoint upd (l : list mres) (i : nat) (f : mres -> mres) : list mres :=
  match l, i with [], _ => [] | x :: l, O => f x :: l | x :: l, S i => x :: upd l i f end.
(** MR 233-234, 250 *)
Definition inject (d : D) (r : mres) : mres := {| populated := true; data := Some d; err := err r |}.
Definition inject_error (e : error) (r : mres) : mres := {| populated := populated r; data := data r; err := Some e |}.
Definition oz_eqb (a b : option Z) : bool := match a, b with Some a, Some b => (a =? b)%Z | None, None => true | _, _ => false end.
(** BB 288-300 *)
Definition effective (shots : list (option Z)) : eff :=
  match shots with
  | s :: l => if forallb (oz_eqb s) l then One s else Each shots
  | [] => Each shots
  end.
Definition submit_chunk (chunk : list (C * option Z * nat)) (s : state) : state * option error :=
  let c := (map (fun q => fst (fst q)) chunk, effective (map (fun q => snd (fst q)) chunk)) in
  let s' := {| queue := queue s; heap := heap s; log := log s ++ [c]; dflt := dflt s |} in
  match backend (log s) c with
  | inr e => (s', Some (EBackend e))
  | inl counts =>
      ({| queue := queue s; heap := fold_left (fun h rc => upd h (fst rc) (inject (snd rc))) (combine (map snd chunk) counts) (heap s); log := log s'; dflt := dflt s |}, None)
  end.
(** BB 274-281: [for start in range(0, len(circuits), chunk_size)]; [fuel] bounds the number of chunks *)
Fixpoint submit_all (fuel k : nat) (qs : list (C * option Z * nat)) (s : state) : state * option error :=
  match qs, fuel with
  | [], _ => (s, None)
  | _, O => (s, None)
  | _, S fuel =>
      match submit_chunk (firstn k qs) s with
      | (s, Some e) => (s, Some e)
      | (s, None) => submit_all fuel k (skipn k qs) s
      end
  end.
(** BB 206-286; a zero limit makes range() raise, a negative one makes it empty *)
Definition dispatch (s : state) : state * output :=
  let qs := queue s in
  let s := {| queue := []; heap := heap s; log := log s; dflt := dflt s |} in
  match qs with
  | [] => (s, Done)
  | _ =>
      let r := match limit with
        | None => submit_all (length qs) (length qs) qs s
        | Some z => if (z =? 0)%Z then (s, Some EZeroStep) else if (z <? 0)%Z then (s, None) else submit_all (length qs) (Z.to_nat z) qs s
        end in
      match r with
      | (s, None) => (s, Done)
      | (s, Some e) =>
          ({| queue := queue s; heap := fold_left (fun h r => upd h r (fun m => if populated m then m else inject_error e m)) (map snd qs) (heap s);
              log := log s; dflt := dflt s |}, Raised e)
      end
  end.
(** any read access to a MeasurementResult: MR 69-78, 208-218, then self._data *)
Definition read (s : state) (h : nat) : output :=
  match nth_error (heap s) h with
  | Some r => if populated r then match data r with Some d => Value d | None => Done end
              else match err r with Some e => Raised e | None => Raised ENotReady end
  | None => Done     (* no such object *)
  end.
Definition step (s : state) (e : event) : state * output :=
  match e with
  | Run cs shots => run cs shots s
  | Dispatch => dispatch s
  | Clear => ({| queue := []; heap := heap s; log := log s; dflt := dflt s |}, Done)   (* BB 302-309 *)
  | SetShots z => if valid_shots z then ({| queue := queue s; heap := heap s; log := log s; dflt := z |}, Done) else (s, Raised EShots)   (* BB 139-153, backend.py 527-553 *)
  | Read h => (s, read s h)
  end.
Fixpoint exec (es : list event) (s : state) : state * list output :=
  match es with
  | [] => (s, [])
  | e :: es => let '(s, o) := step s e in let '(s, os) := exec es s in (s, o :: os)
  end.
End batched.
Arguments init {C D E}. Arguments eff : clear implicits.
