(** The circuits behind the relative-phase gates, in the amplitude semantics of Lib/CliffordT.v. *)
From Verif.Mcx Require Import McxModel.
From Verif.Lib Require CliffordT.
From Verif.Synth Require SynthModel SynthProofs.
Import SynthModel SynthProofs.
Local Open Scope nat_scope.

(** basis state of the listed qubits (0,0), (0,1), ... *)
Definition st (l : list bool) : bstate := fun q => nth (snd q) l false.
(** the output amplitude of [qc] at the image of a basis state of [n] qubits under the gates [g] is the input amplitude at that
    basis state times the phase of [g] (and times [norm], the omitted factors) *)
Definition acts_as (n : nat) (qc : list cgate) (g : list gate) (norm : Z) : Prop :=
  forall (f : amp) (l : list bool), length l = n ->
  exists p w, Rev.run g (0%Z, st l) = Some (p, w) /\ run qc f (map (fun i => w (0, i)) (seq 0 n)) = wscale norm (wphase (Z.to_nat (p mod 8)) (f l)).
(** gidney_CCCX, khattar.py 61-103: controls 0, 1, 2, target 3, ancilla 4; [m]: the outcome of the measurement *)
Definition gidney_cccx (m : bool) : list cgate :=
  [H 3; H 4; T 4; CX 1 4; TDG 4; CX 0 4; T 4; CX 1 4; CX 2 4; TDG 4; CX 3 4; T 4; CX 2 4; TDG 4; CX 3 4; SXDG 4; PROJ 4 m] ++
  (if m then [CZ 2 3] else []) ++ [CZ 2 3] ++ (if m then [CZ 0 1; X 4] else []) ++ [H 3].
Lemma pt2_ok : acts_as 3 margolus_qc (pt2 (0, 0) (0, 1) (0, 2)) 4.
Proof.
  intros f [|a [|b [|t [|? ?]]]] E; try discriminate. eexists _, _. split; [reflexivity|]. pose proof (margolus_ok f) as M. set (R := run margolus_qc f) in *. clearbody R.
  destruct a, b, t; cbn; rewrite M; reflexivity.
Qed.
Lemma pt2_inv_ok : acts_as 3 (CliffordT.inv margolus_qc) (McxModel.inv (pt2 (0, 0) (0, 1) (0, 2))) 4.
Proof.
  intros f [|a [|b [|t [|? ?]]]] E; try discriminate. eexists _, _. split; [reflexivity|].
  assert (M : forall a b c, run (CliffordT.inv margolus_qc) f [a; b; c] = wscale 4 (wphase (8 - margolus_phase a b (xorb c (a && b))) (f [a; b; xorb c (a && b)]))).
  { clear. unfold margolus_qc, reduced_margolus_pre, margolus_phase. circ. }
  set (R := run (CliffordT.inv margolus_qc) f) in *. clearbody R.
  destruct a, b, t; cbn; rewrite M; cbv [margolus_phase maslov_phase andb negb xorb Nat.sub wphase]; destruct (f _) as [[[? ?] ?] ?]; cbv [womega wscale]; apply W_eq; lia.
Qed.
Lemma pt3_ok : acts_as 4 maslov_qc (pt3 (0, 0) (0, 1) (0, 2) (0, 3)) 4.
Proof.
  intros f [|a [|b [|c [|t [|? ?]]]]] E; try discriminate. eexists _, _. split; [reflexivity|].
  assert (M : forall a b c t, run maslov_qc f [a; b; c; t] = wscale 4 (wphase (maslov_phase a b c t) (f [a; b; c; xorb t (a && b && c)]))).
  { clear. unfold maslov_qc, reduced_maslov_qc, maslov_phase. circ. }
  set (R := run maslov_qc f) in *. clearbody R.
  destruct a, b, c, t; cbn; rewrite M; reflexivity.
Qed.
Lemma pt3_inv_ok : acts_as 4 (CliffordT.inv maslov_qc) (McxModel.inv (pt3 (0, 0) (0, 1) (0, 2) (0, 3))) 4.
Proof.
  intros f [|a [|b [|c [|t [|? ?]]]]] E; try discriminate. eexists _, _. split; [reflexivity|].
  assert (M : forall a b c t, run (CliffordT.inv maslov_qc) f [a; b; c; t] = wscale 4 (wphase (8 - maslov_phase a b c (xorb t (a && b && c))) (f [a; b; c; xorb t (a && b && c)]))).
  { clear. unfold maslov_qc, reduced_maslov_qc, maslov_phase. circ. }
  set (R := run (CliffordT.inv maslov_qc) f) in *. clearbody R.
  destruct a, b, c, t; cbn; rewrite M; cbv [margolus_phase maslov_phase andb negb xorb Nat.sub wphase]; destruct (f _) as [[[? ?] ?] ?]; cbv [womega wscale]; apply W_eq; lia.
Qed.
Lemma gand_ok : acts_as 3 gidney_qc [GAND (0, 0) (0, 1) (0, 2)] 2.
Proof.
  intros f [|a [|b [|t [|? ?]]]] E; try discriminate. eexists _, _. split; [reflexivity|]. pose proof (gidney_qc_action f) as M. set (R := run gidney_qc f) in *. clearbody R.
  destruct a, b, t; cbn; rewrite M; reflexivity.
Qed.
Lemma cccx_ok m (f : amp) : (forall a b c t, f [a; b; c; t; true] = w0) -> forall a b c t d,
  run (gidney_cccx m) f [a; b; c; t; d] = if d then w0 else wscale 4 (f [a; b; c; xorb t (a && b && c); false]).
Proof. intros Hf a b c t d. unfold gidney_cccx. destruct m, a, b, c, t, d; wcbn; rewrite ?Hf; wsolve. Qed.
