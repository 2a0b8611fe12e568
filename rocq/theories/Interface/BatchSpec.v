(** What a user of a batched backend expects. *)
From Verif.Interface Require Import BatchModel.
Local Open Scope nat_scope.

Section spec.
Context {C D E : Type}.
Variable backend : list (@call C) -> @call C -> list D + E.
Variable limit : option Z.

(** the circuits requested by a sequence of events, with the shots each must be run with; [d] is the default number of shots *)
Fixpoint requests (d : option Z) (es : list (@event C)) : list (C * option Z) :=
  match es with
  | Run cs (Some z) :: es => (if (0 <? z)%Z then map (fun c => (c, Some z)) cs else []) ++ requests d es
  | Run cs None :: es => map (fun c => (c, d)) cs ++ requests d es
  | SetShots (Some z) :: es => requests (if (0 <? z)%Z then Some z else d) es
  | SetShots None :: es => requests None es
  | _ :: es => requests d es
  | [] => []
  end.
(** the result objects handed out *)
Definition handles (os : list (@output D E)) : list nat := flat_map (fun o => match o with Handles hs => hs | _ => [] end) os.
Definition keeps_queue (e : @event C) : Prop := e <> Dispatch /\ e <> Clear.

Definition shots_match (f : eff) (l : list (option Z)) : Prop := match f with One s => Forall (eq s) l | Each l' => l' = l end.
Definition within (n : nat) : Prop := match limit with Some z => (Z.of_nat n <= z)%Z | None => True end.
(** [served hist reqs ds]: after the calls [hist], running the requests in jobs no larger than the limit, each circuit with
    its own shots, the backend answers the k-th request with the k-th entry of ds *)
Inductive served : list (@call C) -> list (C * option Z) -> list D -> Prop :=
| served_nil hist : served hist [] []
| served_cons hist reqs1 reqs2 f ds1 ds2 : reqs1 <> [] -> within (length reqs1) -> shots_match f (map snd reqs1) ->
    backend hist (map fst reqs1, f) = inl ds1 -> length ds1 = length reqs1 ->
    served (hist ++ [(map fst reqs1, f)]) reqs2 ds2 -> served hist (reqs1 ++ reqs2) (ds1 ++ ds2).
(** [refused hist reqs ds rest e]: the first jobs are served, the next one raises e; [rest] is what was not served *)
Inductive refused : list (@call C) -> list (C * option Z) -> list D -> list (C * option Z) -> E -> Prop :=
| refused_now hist reqs1 reqs2 f e : shots_match f (map snd reqs1) -> backend hist (map fst reqs1, f) = inr e -> refused hist [] [] (reqs1 ++ reqs2) e
| refused_later hist reqs1 reqs2 f ds1 ds2 rest e : reqs1 <> [] -> within (length reqs1) -> shots_match f (map snd reqs1) ->
    backend hist (map fst reqs1, f) = inl ds1 -> length ds1 = length reqs1 ->
    refused (hist ++ [(map fst reqs1, f)]) reqs2 ds2 rest e -> refused hist (reqs1 ++ reqs2) (ds1 ++ ds2) rest e.
(** the backend returns one result per circuit *)
Definition one_each : Prop := forall hist cs f ds, backend hist (cs, f) = inl ds -> length ds = length cs.
Definition positive_limit : Prop := match limit with Some z => (0 < z)%Z | None => True end.
End spec.
