From Verif.Detectors Require Import DetModel DetSpec.
From Coq Require Import ZArith List Bool Permutation Lia Arith Ring.
Import ListNotations.
Local Open Scope nat_scope.

Section proofs.
Context {R : Type} (rO rI : R) (radd rmul rsub : R -> R -> R) (ropp : R -> R) (RT : ring_theory rO rI radd rmul rsub ropp eq).
Add Ring rr : RT.
Notation state := (@state R).
Notation step := (step rO radd rsub).

Lemma pad_length n (l : list R) : length (pad rO n l) = Nat.max n (length l).
Proof. unfold pad. rewrite app_length, repeat_length. lia. Qed.
Lemma pad_nth n (l : list R) k : nth k (pad rO n l) rO = nth k l rO.
Proof.
  unfold pad. destruct (Nat.lt_ge_cases k (length l)) as [L|L]; [now rewrite app_nth1|]. rewrite app_nth2 by exact L. rewrite (nth_overflow l) by exact L.
  generalize (k - length l), (n - length l). clear. intros a b. revert a. induction b as [|b IH]; intros [|a]; cbn; auto.
Qed.
Lemma zip_nth f (a b : list R) k : length a = length b -> f rO rO = rO -> nth k (zip f a b) rO = f (nth k a rO) (nth k b rO).
Proof. revert b k. induction a as [|x a IH]; intros [|y b] k L F; cbn in L; try lia; destruct k; cbn; auto. Qed.
Lemma zip_length f (a b : list R) : length a = length b -> length (zip f a b) = length a.
Proof. revert b. induction a as [|x a IH]; intros [|y b] L; cbn in *; auto; discriminate. Qed.
Lemma add_prefix_nth (a b : list R) k : length b <= length a -> nth k (add_prefix radd a b) rO = radd (nth k a rO) (nth k b rO).
Proof.
  revert b k. induction a as [|x a IH]; intros [|y b] k L; cbn in L; try lia; cbn [add_prefix].
  - destruct k; cbn; ring.
  - destruct k; cbn [nth]; ring.
  - destruct k; cbn [nth]; [reflexivity|]. apply IH. lia.
Qed.
Lemma add_prefix_length (a b : list R) : length (add_prefix radd a b) = length a.
Proof. revert b. induction a as [|x a IH]; intros [|y b]; cbn; auto. Qed.
Lemma add_shift_nth a b k : nth k (add_shift rO radd a b) rO = radd (nth k a rO) (nth k b rO).
Proof.
  unfold add_shift. destruct (Nat.ltb_spec (length a) (length b)).
  - rewrite add_prefix_nth by (rewrite pad_length; lia). now rewrite pad_nth.
  - now rewrite add_prefix_nth by lia.
Qed.
Lemma add_shift_length a b : length (add_shift rO radd a b) = Nat.max (length a) (length b).
Proof. unfold add_shift. rewrite add_prefix_length. destruct (Nat.ltb_spec (length a) (length b)); [rewrite pad_length|]; lia. Qed.
Lemma move_args_nth s old k : nth k (move_args rO rsub s old) rO = rsub (nth k old rO) (nth k s rO).
Proof. unfold move_args. rewrite zip_nth; [now rewrite !pad_nth|rewrite !pad_length; lia|ring]. Qed.
Lemma move_args_length s old : length (move_args rO rsub s old) = Nat.max (length old) (length s).
Proof. unfold move_args. rewrite zip_length; rewrite !pad_length; lia. Qed.

(** the backward loop over a list *)
Definition proc (l : list (instr R)) : state := fold_left step (rev l) (St [] [] [] 0).
Lemma proc_cons x l : proc (x :: l) = step (proc l) x.
Proof. unfold proc. cbn [rev]. rewrite fold_left_app. reflexivity. Qed.

Definition shifts_of (l : list (instr R)) : list (list R) := flat_map (fun x => match x with ShiftCoords s => [s] | _ => [] end) l.
Definition meas_of (l : list (instr R)) : nat := list_sum (map (fun x => match x with Other _ m => m | _ => 0 end) l).
Lemma total_app (a b : list (list R)) k : total rO radd (a ++ b) k = radd (total rO radd a k) (total rO radd b k).
Proof. unfold total. induction a as [|s a IH]; cbn [app fold_right]; [ring|]. rewrite IH. ring. Qed.
Lemma proc_meas l : meas (proc l) = meas_of l.
Proof. induction l as [|x l IH]; [reflexivity|]. rewrite proc_cons. unfold meas_of. destruct x; cbn; rewrite IH; unfold meas_of, list_sum; lia. Qed.
Lemma proc_shift l k : nth k (offset (proc l)) rO = total rO radd (shifts_of l) k.
Proof.
  induction l as [|x l IH]; [destruct k; reflexivity|]. rewrite proc_cons. destruct x; try exact IH. cbn [step offset]. rewrite add_shift_nth, IH. change (shifts_of (ShiftCoords args :: l)) with (args :: shifts_of l).
  unfold total. cbn [fold_right]. ring.
Qed.
Lemma proc_shift_length l n : (forall s, In (ShiftCoords s) l -> length s <= n) -> length (offset (proc l)) <= n.
Proof.
  induction l as [|x l IH]; intros H; [cbn; lia|]. rewrite proc_cons. assert (IH' : length (offset (proc l)) <= n) by (apply IH; intros s I; apply H; now right).
  destruct x; try exact IH'. cbn [step offset]. rewrite add_shift_length. specialize (H args (or_introl eq_refl)). lia.
Qed.
Lemma proc_others l : rev (others (proc l)) = filter (fun x => negb (is_detector x)) l.
Proof. induction l as [|x l IH]; [reflexivity|]. rewrite proc_cons. destruct x; cbn [step others filter is_detector negb]; rewrite ?rev_app_distr; cbn; rewrite IH; reflexivity. Qed.
Lemma proc_dets_all l : Forall (fun x => is_detector x = true) (rev (dets (proc l))).
Proof. induction l as [|x l IH]; [constructor|]. rewrite proc_cons. destruct x; cbn [step dets]; try exact IH. rewrite rev_app_distr. constructor; [reflexivity|exact IH]. Qed.

Lemma detectors_app a b : forall done sh, detectors rO radd done sh (a ++ b) = detectors rO radd done sh a ++ detectors rO radd (done + meas_of a) (sh ++ shifts_of a) b.
Proof.
  induction a as [|x a IH]; intros done sh.
  - cbn. now rewrite Nat.add_0_r, app_nil_r.
  - destruct x; cbn [app detectors]; rewrite IH; cbn [shifts_of flat_map]; fold (shifts_of a); try reflexivity.
    + rewrite <- app_assoc. reflexivity.
    + f_equal. f_equal. unfold meas_of. cbn. unfold list_sum. cbn. lia.
Qed.
Lemma detectors_none l : Forall (fun x => is_detector x = false) l -> forall done sh, detectors rO radd done sh l = [].
Proof. induction l as [|x l IH]; intros F done sh; [reflexivity|]. inversion_clear F as [|? ? F1 F2]. destruct x; try discriminate; cbn; now apply IH. Qed.
Definition to_det done sh (x : instr R) : detector :=
  match x with Detector ts args => Det (map (resolve done) ts) (length args) (fun k => radd (nth k args rO) (total rO radd sh k)) | _ => no_detector rO end.
Lemma detectors_only l : Forall (fun x => is_detector x = true) l -> forall done sh, detectors rO radd done sh l = map (to_det done sh) l.
Proof. induction l as [|x l IH]; intros F done sh; [reflexivity|]. inversion_clear F as [|? ? F1 F2]. destruct x; try discriminate. cbn. now rewrite IH. Qed.

Lemma moved l : forall done sh, Forall2 (same) (map (to_det (done + meas_of l) (sh ++ shifts_of l)) (rev (dets (proc l)))) (detectors rO radd done sh l) /\
  (enough_coords l -> Forall2 (same_exact) (map (to_det (done + meas_of l) (sh ++ shifts_of l)) (rev (dets (proc l)))) (detectors rO radd done sh l)).
Proof.
  induction l as [|x l IH]; intros done sh; [split; constructor|]. rewrite proc_cons. destruct x as [ts args|args|id m|id].
  - cbn [step dets]. rewrite rev_app_distr. cbn [rev app map detectors]. change (meas_of (Detector ts args :: l)) with (meas_of l). change (shifts_of (Detector ts args :: l)) with (shifts_of l).
    assert (SM : same (to_det (done + meas_of l) (sh ++ shifts_of l) (Detector (map (move_target (meas (proc l))) ts) (move_args rO rsub (offset (proc l)) args)))
      (Det (map (resolve done) ts) (length args) (fun k => radd (nth k args rO) (total rO radd sh k)))).
    { split; cbn [to_det records coord].
      - rewrite map_map. apply map_ext. intros [k|i]; [|reflexivity]. cbn. rewrite proc_meas. f_equal. lia.
      - intros k. rewrite move_args_nth, proc_shift, total_app. ring. }
    destruct (IH done sh) as [I1 I2]. split; [constructor; assumption|]. intros [E1 E2]. constructor; [|now apply I2]. split; [exact SM|]. cbn [to_det ncoords].
    rewrite move_args_length. pose proof (proc_shift_length l (length args) E1). lia.
  - cbn [step dets detectors]. change (meas_of (ShiftCoords args :: l)) with (meas_of l). cbn [shifts_of flat_map]. fold (shifts_of l).
    specialize (IH done (sh ++ [args])). rewrite <- app_assoc in IH. exact IH.
  - cbn [step dets detectors]. change (shifts_of (Other id m :: l)) with (shifts_of l). specialize (IH (done + m) sh).
    replace (done + meas_of (Other id m :: l)) with (done + m + meas_of l) by (unfold meas_of; cbn; unfold list_sum; lia). exact IH.
  - apply IH.
Qed.

Lemma filter_meas l : meas_of (filter (fun x => negb (is_detector x)) l) = meas_of l.
Proof. induction l as [|x l IH]; [reflexivity|]. destruct x; unfold meas_of, list_sum in *; cbn in *; lia. Qed.
Lemma filter_shifts l : shifts_of (filter (fun x => negb (is_detector x)) l) = shifts_of l.
Proof. induction l as [|x l IH]; [reflexivity|]. unfold shifts_of in *. destruct x; cbn in *; rewrite ?IH; reflexivity. Qed.
Lemma dets_length l : length (rev (dets (proc l))) = length (filter is_detector l).
Proof. induction l as [|x l IH]; [reflexivity|]. rewrite proc_cons. destruct x; cbn [step dets filter is_detector]; try exact IH. rewrite rev_app_distr. cbn. now rewrite IH. Qed.

Lemma valid_perm_spec n perm : valid_perm n perm = true <-> Permutation (seq 0 n) perm.
Proof.
  unfold valid_perm. rewrite andb_true_iff, Nat.eqb_eq, forallb_forall. split.
  - intros [L H]. apply NoDup_Permutation_bis; [apply seq_NoDup|rewrite seq_length; lia|]. intros x I. specialize (H x I). apply existsb_exists in H.
    destruct H as (y & Iy & E). apply Nat.eqb_eq in E. now subst.
  - intros P. split; [apply Permutation_length in P; rewrite seq_length in P; lia|]. intros x I. apply existsb_exists. exists x. split; [now apply (Permutation_in _ P)|apply Nat.eqb_refl].
Qed.

Lemma permute_result circuit perm out : permute_detectors rO radd rsub circuit perm = Some out ->
  Permutation (seq 0 (length (filter is_detector circuit))) perm /\
  out = filter (fun x => negb (is_detector x)) circuit ++ map (fun k => nth k (rev (dets (proc circuit))) (Repeat 0)) perm.
Proof.
  unfold permute_detectors. destruct (existsb is_repeat circuit); [discriminate|]. fold (proc circuit).
  destruct (valid_perm (length (rev (dets (proc circuit)))) perm) eqn:V; [|discriminate]. intros E. injection E as <-. rewrite dets_length in V. apply valid_perm_spec in V.
  split; [exact V|]. now rewrite proc_others.
Qed.

Lemma permute_accepts circuit perm : (exists out, permute_detectors rO radd rsub circuit perm = Some out) <->
  (forall id, ~ In (Repeat id) circuit) /\ Permutation (seq 0 (length (filter is_detector circuit))) perm.
Proof.
  split.
  - intros (out & E). split; [|now apply permute_result in E]. intros id I. unfold permute_detectors in E.
    replace (existsb is_repeat circuit) with true in E; [discriminate|]. symmetry. apply existsb_exists. exists (Repeat id). now split.
  - intros [N P]. unfold permute_detectors. destruct (existsb is_repeat circuit) eqn:X.
    + apply existsb_exists in X. destruct X as (x & I & E). destruct x; try discriminate. exfalso. now apply (N id).
    + fold (proc circuit). rewrite dets_length. rewrite (proj2 (valid_perm_spec _ _) P). eauto.
Qed.

Lemma perm_in_range n perm i : Permutation (seq 0 n) perm -> i < length perm -> nth i perm 0 < n.
Proof. intros P L. apply (nth_In perm 0) in L. apply (Permutation_in _ (Permutation_sym P)) in L. apply in_seq in L. lia. Qed.

Lemma Forall2_length {A} (Q : A -> A -> Prop) a b : Forall2 Q a b -> length a = length b.
Proof. intros F. induction F; cbn; congruence. Qed.
Lemma Forall2_nth {A} (Q : A -> A -> Prop) (d : A) a b : Forall2 Q a b -> forall i, i < length a -> Q (nth i a d) (nth i b d).
Proof. intros F. induction F as [|x y a b H F IH]; intros i L; cbn in L; [lia|]. destruct i; [exact H|]. apply IH. lia. Qed.

Lemma permute_detectors_meaning (rel : detector -> detector -> Prop) circuit perm out : permute_detectors rO radd rsub circuit perm = Some out ->
  Forall2 rel (map (to_det (0 + meas_of circuit) ([] ++ shifts_of circuit)) (rev (dets (proc circuit)))) (detectors rO radd 0 [] circuit) ->
  permuted rO rel perm (detectors rO radd 0 [] circuit) (detectors rO radd 0 [] out).
Proof.
  intros E F. apply permute_result in E. destruct E as [P ->]. rewrite detectors_app. rewrite (detectors_none (filter (fun x => negb (is_detector x)) circuit)).
  2: { apply Forall_forall. intros x I. apply filter_In in I. destruct I as [_ I]. now destruct (is_detector x). }
  cbn [app]. rewrite filter_meas, filter_shifts. pose proof (Permutation_length P) as LP. rewrite seq_length in LP.
  assert (LD : length (detectors rO radd 0 [] circuit) = length (filter is_detector circuit)).
  { apply Forall2_length in F. rewrite map_length, dets_length in F. now symmetry. }
  rewrite (detectors_only (map (fun k => nth k (rev (dets (proc circuit))) (Repeat 0)) perm)).
  2: { apply Forall_forall. intros x I. apply in_map_iff in I. destruct I as (k & <- & I). pose proof (proc_dets_all circuit) as A. rewrite Forall_forall in A. apply A, nth_In.
       rewrite dets_length. apply (Permutation_in _ (Permutation_sym P)) in I. apply in_seq in I. lia. }
  split; [rewrite !map_length; lia|]. intros i Li.
  set (td := to_det (0 + meas_of circuit) ([] ++ shifts_of circuit)) in *. change (no_detector rO) with (td (Repeat 0)) at 1. rewrite map_nth.
  rewrite (nth_indep _ _ ((fun k => nth k (rev (dets (proc circuit))) (Repeat 0)) 0)) by (now rewrite map_length). rewrite (map_nth (fun k => nth k (rev (dets (proc circuit))) (Repeat 0))).
  rewrite <- (map_nth td). change (td (Repeat 0)) with (no_detector rO). apply Forall2_nth; [exact F|]. rewrite map_length, dets_length. now apply perm_in_range.
Qed.
End proofs.
