(** C39, C40: multi-controlled X. C63: multi-controlled phase. *)
From Verif.Mcx Require Import McxModel McxSpec McxProofs HybridProofs RevExec TreeProofs CcaProofs GateProofs AncillaProofs.
From Verif.Synth Require Import SynthModel.
From Verif.Mcx Require Import McxModel.
Local Open Scope nat_scope.

(** ** C39 *)
(** hybrid_mcx: any number of controls, any control state, any permitted number of ancillas, with and without measurements *)
Theorem C39_hybrid_mcx : forall (use_mcm : bool) cs t (num_ancilla : option nat) r, cs <> [] -> valid cs t -> before r cs t ->
  exists prog, hybrid_mcx (length cs) use_mcm cs t num_ancilla r = Some prog /\ forall s, clean_from r s -> flips_iff prog cs t s.
Proof. intros m cs t k r Hne V B. exact (hybrid_ok m (length cs) cs t k r (le_n _) V B Hne). Qed.
Print Assumptions C39_hybrid_mcx.
(** hybrid_mcx uses no more ancillas than permitted: besides the controls and the target, at most [k] qubits *)
Theorem C39_ancillas : forall (use_mcm : bool) cs t k r, cs <> [] -> valid cs t -> before r cs t ->
  exists prog anc, hybrid_mcx (length cs) use_mcm cs t (Some k) r = Some prog /\ length anc <= k /\ only_on (map fst cs ++ t :: anc) prog.
Proof.
  intros m cs t k r Hne V B. destruct (hybrid_ok m (length cs) cs t (Some k) r (le_n _) V B Hne) as (prog & E & _).
  destruct (ancillas_ok m _ _ _ _ _ _ E) as (anc & HL & HO). exists prog, anc. auto.
Qed.
Print Assumptions C39_ancillas.
(** the ancilla tree *)
Theorem C39_ancilla_tree : forall cs t r, cs <> [] -> valid cs t -> before r cs t ->
  forall s, clean_from r s -> flips_iff (jasp_balauca_mcx cs t r) cs t s.
Proof. intros cs t r Hne V B s Hs. exact (jasp_mcx_ok cs t r s V B Hne Hs). Qed.
Print Assumptions C39_ancilla_tree.
(** the action of the relative-phase gates used in the two models is the action of their circuits *)
Theorem C39_gate_actions :
  acts_as 3 margolus_qc (pt2 (0, 0) (0, 1) (0, 2)) 4 /\ acts_as 3 (CliffordT.inv margolus_qc) (inv (pt2 (0, 0) (0, 1) (0, 2))) 4 /\
  acts_as 4 maslov_qc (pt3 (0, 0) (0, 1) (0, 2) (0, 3)) 4 /\ acts_as 4 (CliffordT.inv maslov_qc) (inv (pt3 (0, 0) (0, 1) (0, 2) (0, 3))) 4 /\
  acts_as 3 gidney_qc [GAND (0, 0) (0, 1) (0, 2)] 2.
Proof. exact (conj pt2_ok (conj pt2_inv_ok (conj pt3_ok (conj pt3_inv_ok gand_ok)))). Qed.
Print Assumptions C39_gate_actions.
(** seven controls with a mixed control state and three ancillas: the hypotheses hold, and the circuit has a layer of maslov gates *)
Definition ex_cs : list (qubit * bool) := [((0, 0), true); ((0, 1), false); ((0, 2), true); ((0, 3), true); ((0, 4), false); ((0, 5), true); ((0, 6), true)].
Example C39_ex : ex_cs <> [] /\ valid ex_cs (1, 0) /\ before 2 ex_cs (1, 0) /\
  (exists prog, hybrid_mcx 7 false ex_cs (1, 0) (Some 3) 2 = Some prog /\ length prog = 31) /\
  let s : bstate := fun q => (fst q =? 0) && negb ((snd q =? 1) || (snd q =? 4)) in clean_from 2 s /\ matches s ex_cs = true.
Proof.
  split; [discriminate|]. split.
  - split; [|cbn; intuition discriminate]. cbn. repeat constructor; cbn; intuition discriminate.
  - split; [intros q H; cbn in H; intuition (subst; cbn; lia)|]. split; [eexists; split; vm_compute; reflexivity|]. split; [|reflexivity].
    intros k i Hk. cbn. destruct k as [|k]; [lia|reflexivity].
Qed.

(** ** C40 *)
(** every number of controls but four *)
Theorem C40_conditionally_clean_partial : forall cs t r, cs <> [] -> length cs <> 4 -> valid cs t -> before r cs t ->
  forall s, clean_from r s -> flips_iff (khattar_mcx cs t (r, 0)) cs t s.
Proof. intros cs t r Hne H4 V B s Hs. exact (khattar_ok cs t r s V B Hne H4 Hs). Qed.
Print Assumptions C40_conditionally_clean_partial.
(** three controls, traced: the circuit with a measurement, for both outcomes (each with probability 1/2: the scale is 5, so the
    output amplitude is the input amplitude over sqrt 2) *)
Theorem C40_three_controls : forall m : bool, scale (gidney_cccx m) = 5 /\
  forall f : amp, (forall a b c t, f [a; b; c; t; true] = w0) -> forall a b c t d,
  CliffordT.run (gidney_cccx m) f [a; b; c; t; d] = if d then w0 else wscale 4 (f [a; b; c; xorb t (a && b && c); false]).
Proof. intros m. split; [destruct m; reflexivity|]. intros f Hf. exact (cccx_ok m f Hf). Qed.
Print Assumptions C40_three_controls.
(** four controls: the bits are right, but there is a phase, which is -1 (4 units of pi/4) iff the second control does not match and
    exactly one of the third and the fourth does *)
Theorem C40_four_controls_partial : forall cs t r, length cs = 4 -> valid cs t -> before r cs t -> forall s, clean_from r s ->
  exists d : Z, (d mod 8 = if negb (matches s [nth 1 cs (t, true)]) && xorb (matches s [nth 2 cs (t, true)]) (matches s [nth 3 cs (t, true)]) then 4 else 0)%Z /\
  forall p : Z, exec (khattar_mcx cs t (r, 0)) (p, s) ((p + d)%Z, upd s t (xorb (matches s cs) (s t))).
Proof.
  intros cs t r H4 V B s Hs. destruct (khattar_four cs t r s V B H4 Hs) as (d & Hd & E). exists d. split; [|exact E]. rewrite Hd.
  assert (G : forall i, i < 4 -> fl cs s (nth i (map fst cs) t) = matches s [nth i cs (t, true)]).
  { intros i Hi. change t with (fst (t, true)) at 1. rewrite map_nth. rewrite (fl_in cs s (proj1 V)) by (apply nth_In; lia). cbn. rewrite andb_true_r. reflexivity. }
  rewrite !G by lia. reflexivity.
Qed.
Print Assumptions C40_four_controls_partial.
(** so two basis states with the same (not flipped) target get different phases: not a multi-controlled X, even up to a global phase *)
Theorem C40_four_controls_refuted : exists cs t r s s', length cs = 4 /\ valid cs t /\ before r cs t /\ clean_from r s /\ clean_from r s' /\
  matches s cs = false /\ matches s' cs = false /\
  (forall p : Z, exists d, (d mod 8 = 0)%Z /\ exec (khattar_mcx cs t (r, 0)) (p, s) ((p + d)%Z, s)) /\
  (forall p : Z, exists d, (d mod 8 = 4)%Z /\ exec (khattar_mcx cs t (r, 0)) (p, s') ((p + d)%Z, s')).
Proof.
  set (cs := [((0, 0), true); ((0, 1), true); ((0, 2), true); ((0, 3), true)]). set (t := (1, 0)).
  assert (V : valid cs t). { split; [|cbn; intuition discriminate]. cbn. repeat constructor; cbn; intuition discriminate. }
  assert (B : before 2 cs t) by (intros q H; cbn in H; intuition (subst; cbn; lia)).
  exists cs, t, 2, (fun _ => false), (fun q => qeq q (0, 2)).
  assert (C : clean_from 2 (fun q => qeq q (0, 2))) by (intros k i Hk; unfold qeq; cbn; destruct k as [|[|k]]; [lia|lia|reflexivity]).
  assert (C0 : clean_from 2 (fun _ => false)) by (intros k i Hk; reflexivity).
  repeat split; try exact C; try exact C0; try (exact (proj1 V)); try (exact (proj2 V)); try exact B; try reflexivity.
  - intros p. destruct (C40_four_controls_partial cs t 2 eq_refl V B _ C0) as (d & Hd & E). exists d. split; [exact Hd|].
    eapply exec_post; [|apply E]. intros q. unfold upd. cbn. destruct (qeq q t); reflexivity.
  - intros p. destruct (C40_four_controls_partial cs t 2 eq_refl V B _ C) as (d & Hd & E). exists d. split; [exact Hd|].
    eapply exec_post; [|apply E]. intros q. unfold upd. destruct (qeq_spec q t) as [->|]; reflexivity.
Qed.
Print Assumptions C40_four_controls_refuted.
(** hypotheses: [C39_ex]; here six controls, one of them negated *)
Example C40_ex : let cs := firstn 6 ex_cs in cs <> [] /\ length cs <> 4 /\ valid cs (1, 0) /\ before 2 cs (1, 0) /\
  length (khattar_mcx cs (1, 0) (2, 0)) = 34 /\
  exists s', run (khattar_mcx cs (1, 0) (2, 0)) (0%Z, fun q => (fst q =? 0) && negb ((snd q =? 1) || (snd q =? 4))) = Some (0%Z, s') /\ s' (1, 0) = true.
Proof.
  cbv zeta. split; [discriminate|]. split; [discriminate|]. split; [|split; [|split; [|eexists; split]]].
  - split; [|cbn; intuition discriminate]. cbn. repeat constructor; cbn; intuition discriminate.
  - intros q H. cbn in H. intuition (subst; cbn; lia).
  - vm_compute. reflexivity.
  - vm_compute. reflexivity.
  - vm_compute. reflexivity.
Qed.

(** ** C63 *)
(** mcp with method "balauca", not traced, for two or more qubits *)
Theorem C63_mcp_layers_partial : forall cs t r, 2 <= length cs -> valid cs t -> before r cs t ->
  exists u qs u', hybrid_mcp (length cs) cs t r = Some (u, qs, u') /\ forall s, clean_from r s -> s t = false -> phase_iff u qs u' cs s.
Proof. intros cs t r H2 V B. exact (hybrid_mcp_ok (length cs) cs t r (le_n _) V B H2). Qed.
Print Assumptions C63_mcp_layers_partial.
(** with one qubit the phase is controlled by a clean ancilla as well, so that it is never applied *)
Theorem C63_mcp_one_qubit_refuted : forall q b t r, exists u qs u', hybrid_mcp 1 [(q, b)] t r = Some (u, qs, u') /\
  forall s, valid [(q, b)] t -> s t = false -> forall p s1 p1, exec u (p, s) (p1, s1) -> forallb s1 qs = false.
Proof.
  intros q b t r. eexists _, _, _. split; [reflexivity|]. intros s [_ Ht] Hst p s1 p1 E. pose proof (exec_flips [(q, b)] p s) as E'.
  destruct E as (x & R & X). destruct E' as (x' & R' & X'). assert (Q : Some (p1, x) = Some (p, x')) by (transitivity (run (flips [(q, b)]) (p, s)); [symmetry; exact R|exact R']). injection Q as _ ->. cbn [map fst forallb app]. cbn [snd] in X, X'.
  rewrite <- (X t), (X' t), (fl_out [(q, b)] s t Ht), Hst. apply andb_false_r.
Qed.
Print Assumptions C63_mcp_one_qubit_refuted.
(** the ancilla tree (traced), any number of qubits *)
Theorem C63_mcp_ancilla_tree : forall cs t r, cs <> [] -> valid cs t -> before r cs t -> forall s, clean_from r s -> s t = false ->
  let '(u, q, u') := jasp_balauca_mcp cs t r in phase_iff u [q] u' cs s.
Proof. intros cs t r Hne V B s Hs Ht. exact (jasp_mcp_ok cs t r s V B Hne Hs Ht). Qed.
Print Assumptions C63_mcp_ancilla_tree.
(** conditionally clean ancillas, any number of qubits including four *)
Theorem C63_mcp_conditionally_clean : forall cs t r, cs <> [] -> valid cs t -> before r cs t -> forall s, clean_from r s -> s t = false ->
  let '(u, q, u') := khattar_mcp cs t (r, 0) in phase_iff u [q] u' cs s.
Proof. intros cs t r Hne V B s Hs Ht. exact (khattar_mcp_ok cs t r s V B Hne Hs Ht). Qed.
Print Assumptions C63_mcp_conditionally_clean.
(** hypotheses: [C39_ex]; the phase gate acts on the right states *)
Example C63_ex : let s : bstate := fun q => (fst q =? 0) && negb ((snd q =? 1) || (snd q =? 4)) in
  let '(u, q, u') := jasp_balauca_mcp ex_cs (1, 0) 2 in
  exists s1, run u (0%Z, s) = Some (0%Z, s1) /\ s1 q = true /\ matches s ex_cs = true /\ length u = 12.
Proof. cbv zeta. unfold jasp_balauca_mcp. eexists. split; [vm_compute; reflexivity|]. repeat split; vm_compute; reflexivity. Qed.
