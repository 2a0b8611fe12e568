(** C21, C22 and C23 for batched results. *)
From Verif.Interface Require Import BatchModel BatchSpec BatchProofs BatchStable.
Local Open Scope nat_scope.

(** C21. Starting with nothing pending, any number of run() calls, changes of the default shots and reads, then a successful
    dispatch: the k-th result object handed out holds the backend's answer to the k-th requested circuit, run with the shots
    of its request in jobs that respect the limit; nothing is pending; older results are untouched. *)
Theorem C21_batched {C D E : Type} (backend : list (@call C) -> @call C -> list D + E) (limit : option Z) (es : list event) (s1 s2 s3 : state) (os : list output) :
  one_each backend -> positive_limit limit -> queue s1 = [] -> Forall keeps_queue es ->
  exec backend limit es s1 = (s2, os) -> step backend limit s2 Dispatch = (s3, Done) ->
  exists answers, served backend limit (log s1) (requests (dflt s1) es) answers /\ length answers = length (requests (dflt s1) es) /\
    map (read s3) (handles os) = map (fun d => Value d) answers /\ queue s3 = [] /\
    forall h, h < length (heap s1) -> read s3 h = read s1 h.
Proof. exact (batched_ok backend limit es s1 s2 s3 os). Qed.
Print Assumptions C21_batched.
(** after a dispatch (successful or not) and after clear() nothing is pending *)
Theorem C21_nothing_pending {C D E : Type} (backend : list (@call C) -> @call C -> list D + E) (limit : option Z) (s s' : state) (e : event) (o : output) :
  e = Dispatch \/ e = Clear -> step backend limit s e = (s', o) -> queue s' = [].
Proof. exact (queue_empty backend limit s e s' o). Qed.
Print Assumptions C21_nothing_pending.
(** C22. If the backend raises: the circuits of the jobs before the failing one have their results, all the others raise the
    backend's exception when read, nothing is pending and older results are untouched. *)
Theorem C22_failure {C D E : Type} (backend : list (@call C) -> @call C -> list D + E) (limit : option Z) (es : list event) (s1 s2 s3 : state) (os : list output) (er : error) :
  one_each backend -> positive_limit limit -> queue s1 = [] -> Forall keeps_queue es ->
  exec backend limit es s1 = (s2, os) -> step backend limit s2 Dispatch = (s3, Raised er) ->
  exists e reqs1 rest answers hs1 hs2, er = EBackend e /\ requests (dflt s1) es = reqs1 ++ rest /\ refused backend limit (log s1) reqs1 answers rest e /\
    handles os = hs1 ++ hs2 /\ map (read s3) hs1 = map (fun d => Value d) answers /\ map (read s3) hs2 = repeat (Raised (EBackend e)) (length rest) /\
    queue s3 = [] /\ forall h, h < length (heap s1) -> read s3 h = read s1 h.
Proof. exact (batched_failure backend limit es s1 s2 s3 os er). Qed.
Print Assumptions C22_failure.
(** circuits are numbers; circuit c with s shots gives the counts (c, s); circuit 99 makes the job fail *)
Definition toy (hist : list (@call nat)) (c : @call nat) : list (nat * option Z) + unit :=
  if existsb (Nat.eqb 99) (fst c) then inr tt else inl (combine (fst c) (match snd c with One s => repeat s (length (fst c)) | Each l => l end)).
Definition events1 : list (@event nat) := [Run [1; 2] None; Read 0; Run [3] (Some 7%Z); SetShots (Some 5%Z); Run [4; 5] None; Run [6] (Some 0%Z)].
Example C21_ex : positive_limit (Some 2%Z) /\ Forall keeps_queue events1 /\
  let s2 := fst (exec toy (Some 2%Z) events1 (init (Some 9%Z))) in let s3 := fst (step toy (Some 2%Z) s2 Dispatch) in
  snd (step toy (Some 2%Z) s2 Dispatch) = Done /\
  map (read s3) (handles (snd (exec toy (Some 2%Z) events1 (init (Some 9%Z))))) = [Value (1, Some 9%Z); Value (2, Some 9%Z); Value (3, Some 7%Z); Value (4, Some 5%Z); Value (5, Some 5%Z)] /\
  map (fun c => length (fst c)) (log s3) = [2; 2; 1].
Proof. split; [reflexivity|]. split; [repeat constructor; discriminate|]. split; [reflexivity|]. split; reflexivity. Qed.
Example C22_ex : let es := [Run [1; 2; 3; 99; 4] (Some 3%Z)] in let s2 := fst (exec toy (Some 2%Z) es (init None)) in let s3 := fst (step toy (Some 2%Z) s2 Dispatch) in
  snd (step toy (Some 2%Z) s2 Dispatch) = Raised (EBackend tt) /\ map (read s3) [0; 1; 2; 3; 4] = [Value (1, Some 3%Z); Value (2, Some 3%Z); Raised (EBackend tt); Raised (EBackend tt); Raised (EBackend tt)].
Proof. split; reflexivity. Qed.
(** The deviation: a backend that returns fewer results than circuits leaves handles unresolved, without an error. *)
Theorem C21_short_answer_refuted : exists (backend : list (@call nat) -> @call nat -> list nat + unit) (s3 : state),
  step backend None (fst (exec backend None [Run [1; 2] None] (init None))) Dispatch = (s3, Done) /\ read s3 1 = Raised ENotReady.
Proof. exists (fun _ _ => inl [7]). eexists. split; reflexivity. Qed.
Print Assumptions C21_short_answer_refuted.
(** C23 for the results of a batched backend: once a result has been read, every later read gives the same counts, whatever happens in between. *)
Theorem C23_batched_stable {C D E : Type} (backend : list (@call C) -> @call C -> list D + E) (limit : option Z) (z : option Z) (es1 es2 : list event) (h : nat) (d : D) :
  let s1 := fst (exec backend limit es1 (init z)) in read s1 h = Value d -> read (fst (exec backend limit es2 s1)) h = Value d.
Proof. exact (stable_run backend limit z es1 es2 h d). Qed.
Print Assumptions C23_batched_stable.
