(** The mixers act as phases on the prepared state. *)
From Coq Require Import Reals Lra List ZArith Bool Lia QArith Qcanon Ring_theory Ring.
Import ListNotations.
From Verif.Inverse Require Import InvModel InvSpec InvProofs.
From Verif.CtrlOps Require Import CtrlModel CtrlSpec CtrlProofs CtrlComplex.
From Verif.Fourier Require Import FourierModel FourierSpec RegProofs FourierProofs FourierFinal AdderProofs.
From Verif.Qpe Require Import QpeModel QpeSpec QpeProofs QpeMain.
From Verif.Amplify Require Import AmpModel AmpSpec UnitaryProofs RefProofs AmpProofs Conj AmpComplex.
From Verif.Grover Require Import GroverModel GroverSpec GroverProofs GroverExact.
From Verif.Constrained Require Import ConsModel ConsSpec.
Add Ring complex_numbers_k : complex_ring.
Local Open Scope nat_scope.
Notation inner_lin_r := (AmpProofs.inner_lin_r c0 c1 cadd cmul csub copp complex_ring cconj).
Notation inner_lin_l := (AmpProofs.inner_lin_l c0 c1 cadd cmul csub copp complex_ring cexpi ccos csin cconj complex_conjugation).
Notation inner_ext := (UnitaryProofs.inner_ext c0 cadd cmul cconj).
Notation cundo := (AdderProofs.undo c0 c1 cadd cmul csub copp complex_ring cexpi ccos csin ci complex_euler).
Notation cj_mul := (UnitaryProofs.cj_mul c1 cadd cmul copp cexpi ccos csin cconj complex_conjugation).
Notation cj_add := (UnitaryProofs.cj_add c1 cadd cmul copp cexpi ccos csin cconj complex_conjugation).

Lemma cis_inv phi : cmul (cis phi) (cis (- phi)) = c1.
Proof. unfold cis. rewrite cos_neg, sin_neg. pose proof (sin2_cos2 phi) as E. unfold Rsqr in E. apply cplx_eq; cbn; lra. Qed.
Lemma cis_conj phi : cconj (cis phi) = cis (- phi).
Proof. unfold cis, cconj. cbn [fst snd]. rewrite cos_neg, sin_neg. reflexivity. Qed.
Lemma cis_opp_opp phi : cis (- - phi) = cis phi. Proof. f_equal. ring. Qed.
Lemma inner_conj m phi psi : cconj (cinner m phi psi) = cinner m psi phi.
Proof.
  unfold inner. induction (all_bits m) as [|x l IH]; [cbn; apply cplx_eq; cbn; ring|]. cbn [total fold_right]. unfold total in IH. rewrite cj_add, IH, cj_mul. f_equal. apply cplx_eq; cbn; ring.
Qed.
Lemma filter_all {A} (l : list A) : filter (fun _ => true) l = l. Proof. induction l as [|a l IH]; [reflexivity|]. cbn. rewrite IH. reflexivity. Qed.
Section steps.
Context (m : nat) (w : list bool -> bool).
Notation S m := (uniform_state m).
Record good (A B : (list bool -> cplx) -> list bool -> cplx) : Prop := {
  ext_a : forall psi chi, (forall x, length x = m -> psi x = chi x) -> forall x, length x = m -> A psi x = A chi x;
  ext_b : forall psi chi, (forall x, length x = m -> psi x = chi x) -> forall x, length x = m -> B psi x = B chi x;
  lin : forall a b psi phi x, length x = m -> A (fun y => cadd (cmul a (psi y)) (cmul b (phi y))) x = cadd (cmul a (A psi x)) (cmul b (A phi x));
  adj : forall phi psi, cinner m phi (B psi) = cinner m (A phi) psi;
  inv_a : forall psi x, length x = m -> A (B psi) x = psi x;
  inv_b : forall psi x, length x = m -> B (A psi) x = psi x }.
Lemma good_id : good (fun psi => psi) (fun psi => psi). Proof. constructor; intros; try reflexivity; auto. Qed.
Lemma good_comp A B A' B' : good A B -> good A' B' -> good (fun psi => A' (A psi)) (fun psi => B (B' psi)).
Proof.
  intros G G'. constructor.
  - intros psi chi E. apply (ext_a _ _ G'), (ext_a _ _ G), E.
  - intros psi chi E. apply (ext_b _ _ G), (ext_b _ _ G'), E.
  - intros a b psi phi x L. rewrite (ext_a _ _ G' _ _ (fun y Ly => lin _ _ G a b psi phi y Ly) x L). apply (lin _ _ G'), L.
  - intros phi psi. rewrite (adj _ _ G). apply (adj _ _ G').
  - intros psi x L. rewrite (ext_a _ _ G' _ _ (fun y Ly => inv_a _ _ G (B' psi) y Ly) x L). apply (inv_a _ _ G'), L.
  - intros psi x L. rewrite (ext_b _ _ G _ _ (fun y Ly => inv_b _ _ G' (A psi) y Ly) x L). apply (inv_b _ _ G), L.
Qed.
Lemma good_circuit c d : wf_circuit m c -> invert_circuit c = Some d -> good (crun c) (crun d).
Proof.
  intros W H. destruct (cundo m c d W H) as [Wd U]. constructor.
  - intros psi chi E x L. exact (AdderProofs.run_ext c0 c1 cadd cmul copp cexpi ccos csin ci m c psi chi x W E L).
  - intros psi chi E x L. exact (AdderProofs.run_ext c0 c1 cadd cmul copp cexpi ccos csin ci m d psi chi x Wd E L).
  - intros a b psi phi x L. apply (RefProofs.run_lin c0 c1 cadd cmul csub copp complex_ring cexpi ccos csin ci m c a b psi phi _ x W L). reflexivity.
  - exact (UnitaryProofs.adjoint c0 c1 cadd cmul csub copp complex_ring cexpi ccos csin ci complex_euler cconj complex_conjugation m c d W H).
  - intros psi x L. apply U, L.
  - intros psi x L. apply U, L.
Qed.
Lemma good_phase (f : list bool -> bool) phi : good (fun psi x => if f x then cmul (cis phi) (psi x) else psi x) (fun psi x => if f x then cmul (cis (- phi)) (psi x) else psi x).
Proof.
  constructor.
  - intros psi chi E x L. rewrite (E x L). reflexivity.
  - intros psi chi E x L. rewrite (E x L). reflexivity.
  - intros a b psi chi x _. destruct (f x); ring.
  - intros chi psi. unfold inner. apply total_ext. intros x _. destruct (f x); [|reflexivity]. rewrite cj_mul, cis_conj. ring.
  - intros psi x _. destruct (f x); [|reflexivity]. transitivity (cmul (cmul (cis phi) (cis (- phi))) (psi x)); [ring|]. rewrite cis_inv. ring.
  - intros psi x _. destruct (f x); [|reflexivity]. transitivity (cmul (cmul (cis phi) (cis (- phi))) (psi x)); [ring|]. rewrite cis_inv. ring.
Qed.
Lemma uniform_norm : cinner m (S m) (S m) = c1.
Proof.
  unfold inner. pose proof (total_two (all_bits m) (fun _ => true) (re (/ INR (2 ^ m))) c0) as T. cbv beta iota in T.
  rewrite filter_all in T.
  transitivity (ctotal (all_bits m) (fun _ => re (/ INR (2 ^ m)))).
  - apply total_ext. intros x _. change (cconj (S m x)) with (cconj (re (/ sqrt (INR (2 ^ m))))). rewrite conj_re. change (S m x) with (re (/ sqrt (INR (2 ^ m)))). rewrite <- re_mul. f_equal. rewrite <- Rinv_mult, sqrt_sqrt; [reflexivity|]. apply Rlt_le, inr_pos.
  - rewrite T, bits_count. pose proof (inr_pos m). apply cplx_eq; cbn; field; lra.
Qed.
Lemma diffuser_lin phi psi x : ideal_diffuser m phi psi x = cadd (cmul (cmul (csub c1 (cis phi)) (cinner m (S m) psi)) (S m x)) (cmul (copp c1) (psi x)).
Proof. unfold ideal_diffuser. change (fun c : cplx => (fst c, (- snd c)%R)) with cconj. ring. Qed.
Lemma diffuser_inv phi psi x : ideal_diffuser m phi (ideal_diffuser m (- phi) psi) x = psi x.
Proof.
  rewrite diffuser_lin. rewrite (inner_lin_r m (cmul (csub c1 (cis (- phi))) (cinner m (S m) psi)) (copp c1) (S m) (S m) psi) by (intros y _; apply diffuser_lin). rewrite diffuser_lin, uniform_norm.
  set (s := cinner m (S m) psi). set (e := cis phi). set (f := cis (- phi)). assert (E : cmul e f = c1) by apply cis_inv.
  transitivity (cadd (psi x) (cmul (cmul s (S m x)) (csub (csub (cmul e f) c1) c0))); [|rewrite E; ring]. unfold s. ring.
Qed.
Lemma good_diffuser phi : good (ideal_diffuser m phi) (ideal_diffuser m (- phi)).
Proof.
  assert (X : forall phi psi chi, (forall x, length x = m -> psi x = chi x) -> forall x, length x = m -> ideal_diffuser m phi psi x = ideal_diffuser m phi chi x).
  { intros f psi chi E x L. rewrite !diffuser_lin, (E x L). rewrite (inner_ext m (S m) (S m) psi chi (fun _ _ => eq_refl) E). reflexivity. }
  constructor; [apply X|apply X| | | |].
  - intros a b psi chi x L. rewrite !diffuser_lin. rewrite (inner_lin_r m a b (S m) psi chi) by reflexivity. ring.
  - intros chi psi. rewrite (inner_lin_r m (cmul (csub c1 (cis (- phi))) (cinner m (S m) psi)) (copp c1) chi (S m) psi (ideal_diffuser m (- phi) psi)) by (intros y _; apply diffuser_lin).
    rewrite (inner_lin_l m (cmul (csub c1 (cis phi)) (cinner m (S m) chi)) (copp c1) psi (S m) chi (ideal_diffuser m phi chi)) by (intros y _; apply diffuser_lin).
    rewrite cj_mul, inner_conj. replace (cconj (csub c1 (cis phi))) with (csub c1 (cis (- phi))) by (rewrite <- cis_conj; apply cplx_eq; cbn; ring). replace (cconj (copp c1)) with (copp c1) by (apply cplx_eq; cbn; ring). ring.
  - intros psi x _. apply diffuser_inv.
  - intros psi x _. rewrite <- (Ropp_involutive phi) at 2. apply (diffuser_inv (- phi)).
Qed.
Definition wf_step (s : step) : Prop := match s with Circuit c => wf_circuit m c | _ => True end.
Lemma good_step s t : wf_step s -> invert_step s = Some t -> wf_step t /\ good (act m w s) (act m w t).
Proof.
  destruct s as [c|phi|phi|beta]; cbn [invert_step wf_step]; intros W H; try (injection H as <-; split; [exact I|]); cbn [act].
  - destruct (invert_circuit c) as [d|] eqn:E; [|discriminate]. injection H as <-. split; [apply (cundo m c d W E)|apply good_circuit; assumption].
  - apply good_phase.
  - apply good_diffuser.
  - apply good_phase.
Qed.
Lemma acts_app l r psi : acts m w (l ++ r) psi = acts m w r (acts m w l psi). Proof. apply fold_left_app. Qed.
Lemma good_steps l : forall r, Forall wf_step l -> invert_steps l = Some r -> Forall wf_step r /\ good (acts m w l) (acts m w r).
Proof.
  induction l as [|s l IH]; intros r W H; cbn [invert_steps] in H; [injection H as <-; split; [constructor|apply good_id]|]. destruct (invert_steps l) as [r'|]; [|discriminate]. destruct (invert_step s) as [t|] eqn:E; [|discriminate]. injection H as <-.
  inversion W as [|? ? Ws Wl]; subst. destruct (IH r' Wl eq_refl) as [Wr G]. destruct (good_step s t Ws E) as [Wt Gs]. split; [apply Forall_app; split; [exact Wr|constructor; [exact Wt|constructor]]|].
  pose proof (good_comp _ _ _ _ Gs G) as C. destruct C as [C1 C2 C3 C4 C5 C6]. constructor; try exact C1; try exact C3.
  - intros psi chi Ex x L. rewrite !acts_app. apply C2; assumption.
  - intros phi psi. rewrite acts_app. apply C4.
  - intros psi x L. rewrite acts_app. apply C5, L.
  - intros psi x L. rewrite acts_app. apply C6, L.
Qed.
Lemma zero_on_all x : length x = m -> zero_on (seq 0 m) x = bits_eqb x (repeat false m).
Proof.
  intros L. destruct (bits_eqb x (repeat false m)) eqn:E.
  - apply bits_eqb_eq in E. subst x. apply zero_on_true. intros q _. unfold getbit. apply nth_repeat.
  - destruct (zero_on (seq 0 m) x) eqn:Z; [|reflexivity]. rewrite zero_on_true in Z. exfalso. apply not_true_iff_false in E. apply E, bits_eqb_eq. apply nth_ext with (d := false) (d' := false); [rewrite repeat_length; exact L|].
    intros i I. rewrite nth_repeat. apply (Z i). apply in_seq. lia.
Qed.
(** the mixer *)
Lemma conjugated l v u beta psi x : Forall wf_step l -> invert_steps l = Some v -> invert_steps v = Some u -> length x = m ->
  let g := acts m w l (cbasis (repeat false m)) in
  acts m w (v ++ [Zero_phase beta] ++ u) psi x = cadd (psi x) (cmul (cmul (csub (cis beta) c1) (cinner m g psi)) (g x)).
Proof.
  intros W V U L g. destruct (good_steps l v W V) as [Wv G]. destruct (good_steps v u Wv U) as [_ H].
  assert (E : forall psi x, length x = m -> acts m w u psi x = acts m w l psi x).
  { intros f y Ly. rewrite <- (ext_b _ _ H (acts m w v (acts m w l f)) f (fun z Lz => inv_b _ _ G f z Lz) y Ly). apply (inv_b _ _ H), Ly. }
  rewrite !acts_app, E by exact L. set (phi := acts m w v psi). set (z := repeat false m).
  rewrite (ext_a _ _ G _ (fun y => cadd (cmul c1 (phi y)) (cmul (cmul (csub (cis beta) c1) (phi z)) (cbasis z y)))).
  - rewrite (lin _ _ G) by exact L. unfold phi at 1. rewrite (inv_a _ _ G) by exact L. change (acts m w l (cbasis z) x) with (g x).
    assert (P : phi z = cinner m g psi) by (unfold phi; rewrite <- (RefProofs.inner_basis c0 c1 cadd cmul csub copp complex_ring cexpi ccos csin cconj complex_conjugation m z) by apply repeat_length; apply (adj _ _ G)). rewrite P. ring.
  - intros y Ly. cbn [acts fold_left act]. rewrite zero_on_all by exact Ly. fold z. unfold basis. destruct (bits_eqb y z) eqn:B; [apply bits_eqb_eq in B; subst y; ring|ring].
  - exact L.
Qed.
Lemma store_all y : length y = m -> store y (seq 0 m) 0 = repeat false m.
Proof.
  intros Ly. rewrite store_zeros. apply nth_ext with (d := false) (d' := false); [rewrite write_length, repeat_length; exact Ly|]. intros j J. rewrite write_length, Ly in J. rewrite nth_repeat. fold (getbit (write y (seq 0 m) (repeat false (length (seq 0 m)))) j).
    pose proof (read_write y (seq 0 m) (repeat false (length (seq 0 m))) ltac:(split; [apply seq_NoDup|intros q Q; apply in_seq in Q; lia]) (repeat_length _ _)) as RW. unfold read in RW.
    assert (EQ : In (getbit (write y (seq 0 m) (repeat false (length (seq 0 m)))) j) (repeat false (length (seq 0 m)))) by (rewrite <- RW at 2; apply in_map, in_seq; lia). apply repeat_spec in EQ. exact EQ.
Qed.
Lemma h_start x : length x = m -> crun (h_all [Variable_ (seq 0 m)]) (cbasis (repeat false m)) x = S m x.
Proof.
  intros L. rewrite h_all_eq. replace (chosen [Variable_ (seq 0 m)] None) with (seq 0 m) by (cbn; rewrite app_nil_r; reflexivity).
  rewrite (GroverProofs.uniform m (seq 0 m) (repeat false m) x); [|apply seq_NoDup|intros q I; apply in_seq in I; lia|apply repeat_length|rewrite zero_on_all by apply repeat_length; apply bits_eqb_eq; reflexivity|exact L].
  rewrite seq_length.
  assert (SO : same_off (seq 0 m) (repeat false m) x = true).
  { unfold same_off. apply bits_eqb_eq. rewrite <- !store_zeros, !store_all by (try apply repeat_length; exact L). reflexivity. }
  rewrite SO. unfold uniform_state, re. f_equal. pose proof (inr_pos m). pose proof (pow_lt _ m root_pos).
  apply Rsqr_inj; [lra|apply Rlt_le, Rinv_0_lt_compat, sqrt_lt_R0; lra|]. unfold Rsqr. rewrite root_pow, <- Rinv_mult, sqrt_sqrt by lra. reflexivity.
Qed.
Lemma prep_wf k phi : Forall wf_step (prep_psi m k phi).
Proof.
  constructor; [cbn [wf_step]; rewrite h_all_eq; replace (chosen [Variable_ (seq 0 m)] None) with (seq 0 m) by (cbn; rewrite app_nil_r; reflexivity); apply (h_within m (seq 0 m)); intros q I; apply in_seq in I; lia|].
  induction k as [|k IH]; cbn; [constructor|]. repeat constructor. exact IH.
Qed.
Lemma prep_state k phi x : length x = m -> acts m w (prep_psi m k phi) (cbasis (repeat false m)) x = ideal_grover m w phi k x.
Proof.
  revert x. induction k as [|k IH]; intros x L; [apply h_start, L|]. unfold prep_psi in *. rewrite repeat_end. rewrite app_comm_cons, acts_app. cbn [acts fold_left act ideal_grover]. apply (ext_a _ _ (good_diffuser phi)); [|exact L].
  intros y Ly. unfold ideal_oracle. unfold acts in IH. cbn [fold_left act] in IH. rewrite (IH y Ly). reflexivity.
Qed.
Lemma h_invertible qs : exists d, invert_circuit (map qH qs) = Some d.
Proof.
  unfold invert_circuit, inverse_circuit. generalize (@nil (qop * list nat)). induction qs as [|q qs IH]; intros acc; [eexists; reflexivity|]. cbn [map inverse_onto]. apply IH.
Qed.
Lemma invert_app l r : forall u v, invert_steps l = Some u -> invert_steps r = Some v -> invert_steps (l ++ r) = Some (v ++ u).
Proof.
  induction l as [|s l IH]; intros u v U V; cbn [invert_steps app] in *; [injection U as <-; rewrite app_nil_r; exact V|]. destruct (invert_steps l) as [u'|]; [|discriminate]. destruct (invert_step s) as [t|]; [|discriminate]. injection U as <-. rewrite (IH u' v eq_refl V), app_assoc. reflexivity.
Qed.
Lemma steps_invertible l : (forall s, In s l -> invert_step s <> None) -> exists r, invert_steps l = Some r /\ forall s, In s r -> invert_step s <> None.
Proof.
  induction l as [|s l IH]; intros H; [exists []; split; [reflexivity|intros s []]|]. destruct IH as (r & E & R); [intros t T; apply H; right; exact T|]. cbn [invert_steps]. rewrite E. specialize (H s (or_introl eq_refl)). destruct (invert_step s) as [t|] eqn:T; [|congruence].
  exists (r ++ [t]). split; [reflexivity|]. intros x X. apply in_app_iff in X. destruct X as [X|[<-|[]]]; [apply R, X|]. destruct s as [c|phi|phi|beta]; cbn [invert_step] in T; try (injection T as <-; discriminate).
  destruct (invert_circuit c) as [d|] eqn:D; [|discriminate]. injection T as <-. cbn [invert_step]. pose proof (invert_again c d D). destruct (invert_circuit d); [discriminate|congruence].
Qed.
Lemma prep_invertible k phi s : In s (prep_psi m k phi) -> invert_step s <> None.
Proof.
  intros [<-|H].
  - cbn [invert_step]. rewrite h_all_eq. destruct (h_invertible (chosen [Variable_ (seq 0 m)] None)) as [d ->]. discriminate.
  - induction k as [|k IH]; [destruct H|]. destruct H as [<-|[<-|H]]; try discriminate. apply IH, H.
Qed.
End steps.
(** means *)
Lemma total_allowed l (w : list bool -> bool) g psi : ctotal l (fun y => cmul (if w y then cconj g else c0) (psi y)) = cmul (cconj g) (csum (filter w l) psi).
Proof.
  induction l as [|y l IH]; [cbn; apply cplx_eq; cbn; ring|]. cbn [total fold_right filter]. unfold total in IH. rewrite IH. destruct (w y); cbn [csum fold_right]; [change (fold_right (fun x s => cadd (psi x) s) c0 (filter w l)) with (csum (filter w l) psi)|]; ring.
Qed.
