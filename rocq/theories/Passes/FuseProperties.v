(** C36. *)
From Coq Require Import ZArith.
From Verif.Passes Require Import FuseModel FuseSpec FuseProofs FuseEmit F17.
Local Open Scope nat_scope.

(** C36. fuse_adjacents, whatever topological order networkx picks and whatever the fusion stages that compute with
    definitions and unitaries answer (as long as they answer correctly): the new circuit has the same action, global phase
    included, and the instructions on every classical bit are the same in the same order. *)
Theorem C36_fuse_adjacents_partial (R : comring) (T : trig R) (generic : gate T -> gate T -> outcome T) (n : nat) (data : list (finstr T)) (ord : list (nat * finstr T)) :
  generic_sound T generic -> 0 < n -> Forall (instr_ok T generic n) data -> let d := build T generic 0 data (empty_dag T) in topological T d ord ->
  (forall v x, length x = n -> frun T (emit T ord (gph T d)) v x = frun T data v x) /\
  forall c, on_clbit T c (emit T ord (gph T d)) = on_clbit T c data.
Proof. intros GS. exact (fuse_adjacents_ok T generic GS n data ord). Qed.
Print Assumptions C36_fuse_adjacents_partial.
(** every closed-form rule (swap with a neighbour, rotations, Gidney ANDs) replaces two gates by an equivalent one *)
Theorem C36_rules (R : comring) (T : trig R) (k : nat) (a b : gate T) : gate_ok T k a -> gate_ok T k b ->
  (forall g, fuse_swap T a b = Some g -> meq k (mthen k (gmat T a) (gmat T b)) (gmat T g)) /\
  (forall g d, fuse_1q T a b = (OFused T g, d) -> gate_ok T k g /\ meq k (mthen k (gmat T a) (gmat T b)) (mscale (ex T d) (gmat T g))) /\
  (forall d, fuse_1q T a b = (OCancel T, d) -> meq k (mthen k (gmat T a) (gmat T b)) (mscale (ex T d) idm)) /\
  (fuse_and T a b = Some (OCancel T) -> meq k (mthen k (gmat T a) (gmat T b)) (mscale (ex T a0) idm)).
Proof.
  intros Ga Gb. assert (H1 := fuse_1q_ok T k a b Ga Gb). split; [|split; [|split]].
  - intros g E. apply (fuse_swap_ok T k a b g Ga Gb E).
  - intros g d E. rewrite E in H1. exact H1.
  - intros d E. rewrite E in H1. exact H1.
  - intros E. exact (fuse_and_ok T k a b (OCancel T) Ga Gb E).
Qed.
Print Assumptions C36_rules.

(** an example over the field with 17 elements *)
Definition g17 (nm : name) (a : Z) (m : mat R17) : gate T17 := @Build_gate R17 T17 nm a m.
Definition rz17 a := g17 NRz a (rzm T17 a).  Definition p17 a := g17 NP a (pm T17 a).
Definition cx17 := g17 NCx 0%Z cxm.  Definition swap17 := g17 NSwap 0%Z swapm.  Definition h17 := g17 NOther 0%Z (hm T17).
Definition at17 (g : gate T17) (qs : list nat) : finstr T17 := {| fop := g; fqs := qs; fcl := []; fclc := false |}.
Definition c36_data : list (finstr T17) := [at17 (rz17 1) [0]; at17 h17 [1]; at17 (p17 2) [0]; at17 cx17 [0; 1]; at17 swap17 [1; 0]; at17 (rz17 3) [2]; at17 (rz17 (-3)) [2]].
Definition no_generic : gate T17 -> gate T17 -> outcome T17 := fun _ _ => ONone T17.
Definition c36_dag := build T17 no_generic 0 c36_data (empty_dag T17).
Definition shape (x : nat * finstr T17) := (fst x, gname T17 (fop T17 (snd x)), gpar T17 (fop T17 (snd x)), fqs T17 (snd x)).
Definition c36_ord := match nodes T17 c36_dag with [a; b; c] => [b; a; c] | l => l end.
Example C36_ex : generic_sound T17 no_generic /\ Forall (instr_ok T17 no_generic 3) c36_data /\
  gph T17 c36_dag = (-1)%Z /\ map shape (nodes T17 c36_dag) = [(0, NP, 3%Z, [0]); (1, NOther, 0%Z, [1]); (3, NOther, 0%Z, [0; 1])] /\
  topological T17 c36_dag c36_ord.
Proof.
  split; [intros k a b _ _; exact I|]. split.
  { assert (N1 : forall a, NoDup [a : nat]) by (intros a; constructor; [intros []|constructor]).
    assert (N2 : forall a b : nat, a <> b -> NoDup [a; b]) by (intros a b H; constructor; [intros [E|[]]; congruence|apply N1]).
    assert (OK : forall g qs, gate_ok T17 (length qs) g -> NoDup qs -> qs <> [] -> (forall q, In q qs -> q < 3) -> instr_ok T17 no_generic 3 (at17 g qs)).
    { intros g qs Hg Hn Hq Hl. split; [split; assumption|]. split; [exact Hq|]. split; [exact Hg|]. intros H. exfalso. apply H. reflexivity. }
    unfold c36_data. repeat apply Forall_cons; try apply Forall_nil; apply OK; try discriminate; try (apply N1); try (apply N2; discriminate); try (cbn; intuition lia); try exact I; (split; [reflexivity|intros r c _ _; reflexivity]). }
  split; [vm_compute; reflexivity|].
  assert (E : map shape (nodes T17 c36_dag) = [(0, NP, 3%Z, [0]); (1, NOther, 0%Z, [1]); (3, NOther, 0%Z, [0; 1])]) by (vm_compute; reflexivity).
  assert (Ee : edges T17 c36_dag = [(None, 0, 0); (None, 1, 1); (Some 0, 3, 0); (Some 1, 3, 1)]) by (vm_compute; reflexivity).
  assert (Ec : cedges T17 c36_dag = []) by (vm_compute; reflexivity).
  split; [exact E|]. unfold topological, c36_ord. rewrite Ee, Ec. clear Ee Ec.
  destruct (nodes T17 c36_dag) as [|[ka a] [|[kb b] [|[kc c] [|]]]]; try discriminate E.
  unfold shape in E. cbn [map fst snd] in E. injection E as -> _ _ _ -> _ _ _ -> _ _ _.
  split; [|split; [|split]].
  - intros x. cbn [In]. tauto.
  - cbn. repeat constructor; cbn; intuition discriminate.
  - intros x y q [H|[H|[H|[H|[]]]]]; try discriminate H; injection H as <- <- <-.
    + exists [(1, b)], [], [], a, c. reflexivity.
    + exists [], [(0, a)], [], b, c. reflexivity.
  - intros x y [].
Qed.
(** The deviation: a cz with an inverted control is called cz and taken to be symmetric, so cz0(0,1) followed by cz0(1,0),
    each the other's inverse as an operation, disappears although the pair acts. *)
Definition cz0 : gate T17 := g17 NCz 0%Z (d2 (fun a b => if negb a && b then opp one else one)).
Theorem C36_fuse_adjacents_refuted : let generic := (fun _ _ => OCancel T17) : gate T17 -> gate T17 -> outcome T17 in
  let data := [at17 cz0 [0; 1]; at17 cz0 [1; 0]] in let d := build T17 generic 0 data (empty_dag T17) in
  meq 2 (mthen 2 (gmat T17 cz0) (gmat T17 cz0)) idm /\ topological T17 d [] /\ exists v x, length x = 2 /\ frun T17 (emit T17 [] (gph T17 d)) v x <> frun T17 data v x.
Proof.
  split; [|split].
  - intros [|[] [|[] [|? ?]]] [|[] [|[] [|? ?]]]; try discriminate; intros _ _; apply F17_eq; reflexivity.
  - split; [intros x; cbn; tauto|]. split; [constructor|]. split; intros a b; [intros q|]; intros [].
  - exists (fun _ => one), [false; true]. split; [reflexivity|]. intros H. apply (f_equal (@proj1_sig _ _)) in H. vm_compute in H. discriminate.
Qed.
Print Assumptions C36_fuse_adjacents_refuted.
