(** C52: fixed Toffoli-type circuits.  C53: multi-controlled X with one dirty ancilla, any number of controls.
    [f] is the amplitude function of an arbitrary input state; [run circuit f b] is the output amplitude at
    basis state [b], times sqrt 2 ^ (scale circuit).  So "run l f b = wscale 2 (f b')" with scale l = 2
    says: the output amplitude at b is exactly the input amplitude at b'. *)
From Verif.Synth Require Import SynthModel SynthProofs.
Local Open Scope Z_scope.

(** ** C52 *)
(** Toffoli implementations, with any control state: the target is flipped iff the controls match, no phase *)
Theorem C52_toffoli : scale toffoli_qc = 2%nat /\ forall f s0 s1 a b c,
  run (ctrl_state_wrap toffoli_qc [s0; s1]) f [a; b; c] = wscale 2 (f [a; b; xorb c (eqb a s0 && eqb b s1)]).
Proof. split; [reflexivity|exact wrap_toffoli]. Qed.
Print Assumptions C52_toffoli.
Theorem C52_gray_synth_toffoli : scale gray_toffoli_qc = 2%nat /\ forall f s0 s1 a b c,
  run (ctrl_state_wrap gray_toffoli_qc [s0; s1]) f [a; b; c] = wscale 2 (f [a; b; xorb c (eqb a s0 && eqb b s1)]).
Proof. split; [reflexivity|exact wrap_gray_toffoli]. Qed.
Print Assumptions C52_gray_synth_toffoli.
(** one clean ancilla (qubit 3), returned clean *)
Theorem C52_amy_toffoli : scale amy_toffoli_qc = 2%nat /\ forall f, (forall a b c, f [a; b; c; true] = w0) ->
  forall a b c d, run amy_toffoli_qc f [a; b; c; d] = if d then w0 else wscale 2 (f [a; b; xorb c (a && b); false]).
Proof. split; [reflexivity|exact amy_ok]. Qed.
Print Assumptions C52_amy_toffoli.
(** relative-phase Toffoli: exact up to the sign of |101> *)
Theorem C52_margolus : scale margolus_qc = 4%nat /\ forall f a b c,
  run margolus_qc f [a; b; c] = wscale 4 (wphase (if a && negb b && c then 4 else 0) (f [a; b; xorb c (a && b)])).
Proof. split; [reflexivity|exact margolus_ok]. Qed.
Print Assumptions C52_margolus.
(** the maslov mcx with 3 and 4 controls: exact, ancilla clean before and after *)
Theorem C52_maslov_mcx_3 : exists l, maslov_mcx 3 = Some l /\ scale l = 10%nat /\
  forall f, (forall a b c t, f [a; b; c; true; t] = w0) -> forall a b c d t,
  run l f [a; b; c; d; t] = if d then w0 else wscale 32 (f [a; b; c; false; xorb t (a && b && c)]).
Proof. eexists. split; [reflexivity|]. split; [reflexivity|]. intros. apply maslov_mcx3_ok; auto. Qed.
Print Assumptions C52_maslov_mcx_3.
Theorem C52_maslov_mcx_4 : exists l, maslov_mcx 4 = Some l /\ scale l = 10%nat /\
  forall f, (forall a b c e t, f [a; b; c; e; true; t] = w0) -> forall a b c e d t,
  run l f [a; b; c; e; d; t] = if d then w0 else wscale 32 (f [a; b; c; e; false; xorb t (a && b && c && e)]).
Proof. eexists. split; [reflexivity|]. split; [reflexivity|]. intros. apply maslov_mcx4_ok; auto. Qed.
Print Assumptions C52_maslov_mcx_4.
(** temporary logical AND: on a clean target the AND is computed without any phase; both outcomes of the
    measurement-based uncomputation (each with amplitude 1/sqrt 2 = 1 / sqrt 2 ^ scale) erase it *)
Theorem C52_logical_and : scale gidney_qc = 2%nat /\ forall f, (forall a b, f [a; b; true] = w0) -> forall a b c,
  run gidney_qc f [a; b; c] = if eqb c (a && b) then wscale 2 (f [a; b; false]) else w0.
Proof.
  split; [reflexivity|]. intros f Hf a b c. rewrite gidney_qc_action. destruct a, b, c; cbn; rewrite ?Hf; reflexivity.
Qed.
Print Assumptions C52_logical_and.
Theorem C52_logical_and_uncompute : forall m, scale (gidney_inv_branch m) = 1%nat /\
  forall f, (forall a b c, c <> a && b -> f [a; b; c] = w0) -> forall a b c,
  run (gidney_inv_branch m) f [a; b; c] = if c then w0 else f [a; b; a && b].
Proof. intros m. split; [destruct m; reflexivity|]. intros f Hf a b c. apply gidney_inv_ok. exact Hf. Qed.
Print Assumptions C52_logical_and_uncompute.
(** The T-depth-one Toffoli used when compiling with mid-circuit measurements is NOT a Toffoli: the
    uniform superposition, which a Toffoli leaves alone, comes back with a sign on |11x>. *)
Theorem C52_jones_toffoli_refuted : exists f, (forall a b c d e, d || e = true -> f [a; b; c; d; e] = w0) /\
  (forall a b c, f [a; b; c; false; false] = (1, 0, 0, 0)) /\
  forall m, run (jones_branch m) f [false; false; false; false; false] = (2, 0, 0, 0) /\
            run (jones_branch m) f [true; true; false; false; false] = (-2, 0, 0, 0).
Proof.
  exists (fun b => if bit b 3 || bit b 4 then w0 else (1, 0, 0, 0)). split; [|split].
  - intros a b c d e E. cbn. rewrite E. reflexivity.
  - reflexivity.
  - intros []; split; vm_compute; reflexivity.
Qed.
Print Assumptions C52_jones_toffoli_refuted.
(** what it does compute: Toffoli times a CZ of the controls *)
Theorem C52_jones_toffoli_partial : forall m f, (forall a b c d e, d || e = true -> f [a; b; c; d; e] = w0) -> forall a b c d e,
  run (jones_branch m) f [a; b; c; d; e] =
  if d || e then w0 else wscale 2 (wphase (if a && b then 4 else 0) (f [a; b; xorb c (a && b); false; false])).
Proof. intros m f. exact (jones_ok f m). Qed.
Print Assumptions C52_jones_toffoli_partial.

(** hypotheses are met by non-trivial states: a superposition of |110>, |011>/2 with clean ancillas *)
Example C52_ex : let f := fun b => if bit b 3 then w0 else if bit b 0 then (2, 0, 0, 0) else if bit b 2 then (0, 1, 0, 0) else w0 in
  (forall a b c, f [a; b; c; true] = w0) /\ run amy_toffoli_qc f [true; true; true; false] = (4, 0, 0, 0)
  /\ run amy_toffoli_qc f [false; true; true; false] = (0, 2, 0, 0).
Proof. split; [reflexivity|]. vm_compute. split; reflexivity. Qed.

(** ** C53: for any number >= 2 of controls, any control state, any position of the qubits in a system of
    [n] qubits and any state of the borrowed (dirty) ancilla *)
Theorem C53_dirty_ancilla_mcx : forall n cs st t anc, (2 <= length cs)%nat -> length st = length cs ->
  NoDup (t :: anc :: cs) -> (forall q, In q (t :: anc :: cs) -> (q < n)%nat) ->
  exists l k, yong_ctrl cs st t anc = Some l /\ 0 < k /\
    forall f b, length b = n -> run l f b = wscale k (f (if in_state b cs st then flip b t else b)).
Proof. exact yong_ctrl_ok. Qed.
Print Assumptions C53_dirty_ancilla_mcx.
Example C53_ex : exists l, yong_ctrl [0; 1; 2; 3; 4]%nat [true; false; true; true; true] 5 6 = Some l /\ NoDup [5; 6; 0; 1; 2; 3; 4]%nat /\ length l = 48%nat.
Proof.
  eexists. split; [reflexivity|]. split; [|vm_compute; reflexivity].
  repeat constructor; cbn; intuition discriminate.
Qed.
