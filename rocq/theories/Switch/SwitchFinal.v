(** Proofs about the quantum switch: clean ancillas, the sequential method, definedness, inverses. *)
From Coq Require Import List ZArith Bool Lia Arith QArith Qcanon Ring Ring_theory.
Import ListNotations.
From Verif.Inverse Require Import InvModel InvSpec InvProofs.
From Verif.CtrlOps Require Import CtrlModel CtrlSpec CtrlProofs.
From Verif.Fourier Require Import FourierModel FourierSpec RegProofs FourierProofs FourierFinal AdderProofs.
From Verif.Qpe Require Import QpeModel QpeSpec QpeProofs.
From Verif.Amplify Require Import AmpSpec RefProofs AmpProofs.
From Verif.Switch Require Import SwitchModel SwitchSpec BitProofs SwitchProofs.
Local Open Scope nat_scope.

Lemma off_less N a b c : (forall q, In q b -> In q a) -> acts_off N a c -> acts_off N b c.
Proof. intros H [W O]. split; [exact W|]. intros o qs q I J K. apply (O o qs q I J), H, K. Qed.
Lemma off_control N k l c : k < N -> ~ In k l -> acts_off N (k :: l) c -> acts_off N l (control_on k c).
Proof.
  intros Hk NI A. assert (A1 : acts_off N [k] c) by (apply (off_less N (k :: l)); [intros q [<-|[]]; left; reflexivity|exact A]).
  split; [apply wf_control; assumption|]. destruct A as [_ O]. intros o qs q I J K. unfold control_on in I. apply in_map_iff in I as ([o' qs'] & E & I).
  destruct (is_alloc o' || is_barrier o')%bool; inversion E; subst.
  - apply (O o qs q I J). right. exact K.
  - destruct J as [->|J]; [contradiction|]. apply (O o' qs' q I J). right. exact K.
Qed.
Lemma off_inverse N l c d : acts_off N l c -> wf_circuit N d -> invert_circuit c = Some d -> acts_off N l d.
Proof.
  intros [W O] Wd H. split; [exact Wd|]. apply circuit_shape in H. intros o qs q I J K. assert (I' : In (o, qs) (rev d)) by (apply in_rev in I; exact I).
  destruct (shape_In _ _ _ _ _ _ H I') as (o' & I1 & _). exact (O o' qs q I1 J K).
Qed.
Section ring.
Context {R : Type} (rO rI : R) (radd rmul rsub : R -> R -> R) (ropp : R -> R) (RT : ring_theory rO rI radd rmul rsub ropp eq).
Context (expi chalf shalf : Qc -> R) (im : R).
Add Ring rr_switch2 : RT.
Notation amp := (list bool -> R).
Notation effect := (effect Qcplus rO rI radd rmul ropp expi chalf shalf im).
Notation run := (run_circuit Qcplus rO rI radd rmul ropp expi chalf shalf im).
Notation run_app := (FourierProofs.run_app rO rI radd rmul ropp expi chalf shalf im).
Notation run_x' := (RefProofs.run_x' rO rI radd rmul rsub ropp RT expi chalf shalf im).
Notation selected := (selected rO rI radd rmul ropp expi chalf shalf im).
Notation zeroed := (zeroed rO).
Notation run_ext := (AdderProofs.run_ext rO rI radd rmul ropp expi chalf shalf im).
(** circuits that do not touch qubits respect a condition on these qubits *)
Lemma guard N l c (w : list bool -> bool) phi chi x : acts_off N l c -> (forall y q v, ~ In q l -> w (setbit y q v) = w y) -> length x = N ->
  (forall y, length y = N -> w y = true -> phi y = chi y) -> w x = true -> run c phi x = run c chi x.
Proof.
  intros [W O] S L E Wx. set (g := fun z => if w z then rI else rO).
  assert (M : forall phi, run c (fun z => rmul (g z) (phi z)) x = rmul (g x) (run c phi x)).
  { intros p. apply (QpeProofs.run_moved rO rI radd rmul rsub ropp RT expi chalf shalf im (fun q => ~ In q l) g (fun z => z)) with (N := N); try reflexivity.
    - intros z q v H. unfold g. rewrite S by exact H. reflexivity.
    - exact W.
    - intros o qs q I J. apply (O o qs q I J). }
  assert (GX : g x = rI) by (unfold g; rewrite Wx; reflexivity).
  transitivity (run c (fun z => rmul (g z) (phi z)) x); [rewrite M, GX; ring|]. transitivity (run c (fun z => rmul (g z) (chi z)) x); [|rewrite M, GX; ring].
  apply (run_ext N c); [exact W| |exact L]. intros y Ly. unfold g. destruct (w y) eqn:Wy; [rewrite E by assumption; reflexivity|ring].
Qed.
Lemma keeps_zero N l c q phi x : acts_off N l c -> In q l -> zeroed N [q] phi -> length x = N -> getbit x q = true -> run c phi x = rO.
Proof.
  intros A I Z L G. rewrite (guard N l c (fun y => getbit y q) phi (fun _ => rO) x A); [apply (QpeProofs.run_zero rO rI radd rmul rsub ropp RT)| |exact L| |exact G].
  - intros y p v H. apply getbit_set_other. intros ->. contradiction.
  - intros y Ly Gy. apply Z; [exact Ly|]. exists q. split; [left; reflexivity|exact Gy].
Qed.
Lemma zeroed_in N qs q phi : In q qs -> zeroed N qs phi -> zeroed N [q] phi.
Proof. intros I Z x L (p & [<-|[]] & G). apply Z; [exact L|]. exists q. auto. Qed.
Lemma selected_zeroed N qs index ctrl amount U phi : (forall i, i < amount -> acts_off N qs (U i)) -> zeroed N qs phi -> zeroed N qs (selected index ctrl amount U phi).
Proof.
  intros A Z x L (q & I & G). unfold SwitchSpec.selected. cbv zeta. destruct (enabled ctrl x && _) eqn:E; [|apply Z; [exact L|exists q; auto]].
  apply andb_true_iff in E as [_ E]. apply Nat.ltb_lt in E. apply (keeps_zero N qs _ q); [apply A, E|exact I|apply (zeroed_in N qs); assumption|exact L|exact G].
Qed.
Lemma selected_ext N index ctrl amount U phi chi x : (forall i, i < amount -> wf_circuit N (U i)) -> (forall y, length y = N -> phi y = chi y) -> length x = N -> selected index ctrl amount U phi x = selected index ctrl amount U chi x.
Proof.
  intros W E L. unfold SwitchSpec.selected. cbv zeta. destruct (enabled ctrl x && _) eqn:H; [|apply E, L]. apply andb_true_iff in H as [_ H]. apply Nat.ltb_lt in H. apply (run_ext N); [apply W, H|exact E|exact L].
Qed.

(** ** the tree *)
Lemma tree_effect N index anc ctrl branch U amount c psi : length anc = length index -> NoDup (index ++ anc ++ controls ctrl) -> (forall q, In q (index ++ anc ++ controls ctrl) -> q < N) ->
  amount <= 2 ^ length index -> (forall i, i < amount -> branch i = Some (U i) /\ acts_off N (index ++ anc ++ controls ctrl) (U i)) -> zeroed N anc psi ->
  tree_switch index anc ctrl branch amount = Some c -> forall x, length x = N -> run c psi x = selected index ctrl amount U psi x.
Proof.
  intros LA ND BD AM BR Z E x L.
  assert (HN : 0 < length index) by (destruct index; [discriminate|cbn; lia]).
  assert (NDa : NoDup anc) by (apply nodup_r, nodup_l in ND; exact ND).
  assert (GF : forall y, length y = N -> good index anc (F index ctrl []) y = true <-> forall q, In q anc -> getbit y q = false).
  { intros y Ly. rewrite (good_iff index anc LA). split; intros H.
    - intros q I. destruct (In_nth anc q 0 I) as (d & Hd & Ed). rewrite <- Ed. apply (H d). lia.
    - intros d Hd. rewrite H; [reflexivity|]. apply nth_In. lia. }
  assert (WG : forall y, length y = N -> good index anc (F index ctrl []) y = true -> wipe anc y = y).
  { intros y Ly G. unfold wipe. replace (repeat false (length anc)) with (read y anc); [apply write_read, NDa|]. pose proof (proj1 (GF y Ly) G) as G0. clear - G0. rename G0 into G. induction anc as [|a anc' IH]; [reflexivity|].
    cbn [read map length repeat]. rewrite G by (left; reflexivity). f_equal. apply IH. intros q I. apply G. right. exact I. }
  assert (NG : forall y, length y = N -> good index anc (F index ctrl []) y = false -> exists q, In q anc /\ getbit y q = true).
  { intros y Ly G. destruct (existsb (getbit y) anc) eqn:Ex; [apply existsb_exists in Ex; exact Ex|]. exfalso. enough (good index anc (F index ctrl []) y = true) by congruence. apply GF; [exact Ly|].
    intros q I. destruct (getbit y q) eqn:Eq; [|reflexivity]. assert (existsb (getbit y) anc = true) by (apply existsb_exists; exists q; auto). congruence. }
  assert (A0 : at_ rO N index anc (F index ctrl []) psi psi).
  { intros y Ly. destruct (good index anc (F index ctrl []) y) eqn:G; [rewrite WG by assumption; reflexivity|]. apply Z; [exact Ly|apply NG; assumption]. }
  assert (A := L_tree rO rI radd rmul rsub ropp RT expi chalf shalf im N index anc ctrl LA ND BD branch U amount psi HN AM BR c psi E A0 x L). rewrite A.
  destruct (good index anc (F index ctrl []) x) eqn:G; [rewrite WG by assumption; reflexivity|]. symmetry. apply (selected_zeroed N anc); [|exact Z|exact L|apply NG; assumption].
  intros i Hi. destruct (BR i Hi) as [_ A']. apply (off_less N (index ++ anc ++ controls ctrl)); [intros q I; rewrite !in_app_iff; auto|exact A'].
Qed.

(** ** the sequential method *)
Definition wrapped (ctrl : option nat) (c : body) : body := match ctrl with None => c | Some k => control_on k c end.
Lemma wrapped_off N l ctrl c : (forall q, In q (controls ctrl) -> q < N /\ ~ In q l) -> acts_off N (controls ctrl ++ l) c -> acts_off N l (wrapped ctrl c).
Proof. destruct ctrl as [k|]; cbn [controls wrapped app]; intros H A; [|exact A]. destruct (H k ltac:(left; reflexivity)). apply off_control; assumption. Qed.
Lemma run_wrapped N ctrl c psi x : (forall q, In q (controls ctrl) -> q < N) -> acts_off N (controls ctrl) c -> length x = N -> run (wrapped ctrl c) psi x = if enabled ctrl x then run c psi x else psi x.
Proof.
  destruct ctrl as [k|]; cbn [controls wrapped enabled]; intros H A L; [|reflexivity]. apply (QpeProofs.run_control rO rI radd rmul rsub ropp RT expi chalf shalf im N k); [apply H; left; reflexivity|exact A|exact L].
Qed.
Lemma run_select index q i psi x : i < 2 ^ length index -> run [select index q i] psi x = psi (if Z.to_nat (value x index) =? i then setbit x q (negb (getbit x q)) else x).
Proof.
  intros Hi. unfold run_circuit, select. cbn [fold_left]. rewrite bits_testbit. cbn [InvSpec.effect]. rewrite bits_length, firstn_app, Nat.sub_diag, firstn_all, app_nil_r, skipn_app, Nat.sub_diag, skipn_all.
  cbn [app firstn skipn]. fold (effect (Pauli PX)). fold (read x index). destruct (bits_eqb (read x index) (bits (length index) i)) eqn:E.
  - apply bits_eqb_true in E. apply bits_number_nat in E; [|exact Hi]. rewrite (proj2 (Nat.eqb_eq _ _) E). apply run_x'.
  - destruct (Nat.eqb_spec (Z.to_nat (value x index)) i) as [V|V]; [|reflexivity]. apply bits_number_nat in V; [|exact Hi]. apply bits_eqb_true in V. congruence.
Qed.
Lemma value_set index q v x : ~ In q index -> value (setbit x q v) index = value x index.
Proof. intros H. unfold value. f_equal. unfold read. apply map_ext_in. intros p I. apply getbit_set_other. intros ->. contradiction. Qed.
Lemma sequential_step N index q i c phi x : i < 2 ^ length index -> ~ In q index -> q < N -> acts_off N (q :: index) c -> zeroed N [q] phi -> length x = N ->
  run ([select index q i] ++ control_on q c ++ [select index q i]) phi x = if Z.to_nat (value x index) =? i then run c phi x else phi x.
Proof.
  intros Hi NI Hq A Z L. rewrite !run_app, run_select by exact Hi. set (s := fun y => if Z.to_nat (value y index) =? i then setbit y q (negb (getbit y q)) else y).
  assert (Ls : forall y, length (s y) = length y) by (intros y; unfold s; destruct (_ =? i); [apply setbit_length|reflexivity]).
  assert (A1 : acts_off N [q] c) by (apply (off_less N (q :: index)); [intros p [<-|[]]; left; reflexivity|exact A]).
  fold (s x). rewrite (QpeProofs.run_control rO rI radd rmul rsub ropp RT expi chalf shalf im N q c Hq A1) by (rewrite Ls; exact L).
  assert (ES : forall p y, run [select index q i] p y = p (s y)) by (intros p y; apply run_select, Hi).
  assert (SS : forall y, length y = N -> s (s y) = y).
  { intros y Ly. unfold s. destruct (Z.to_nat (value y index) =? i) eqn:V; [|rewrite V; reflexivity]. rewrite value_set, V by exact NI. rewrite setbit_twice, getbit_set_same, negb_involutive by lia. apply setbit_get. }
  assert (RS : run c (run [select index q i] phi) (s x) = run c phi x).
  { rewrite <- (SS x L) at 2. transitivity (rmul rI (run c phi (s (s x)))); [|ring].
    apply (QpeProofs.run_moved rO rI radd rmul rsub ropp RT expi chalf shalf im (fun p => p <> q /\ ~ In p index) (fun _ => rI) s) with (N := N).
    - intros y p [H1 H2]. unfold s. destruct (_ =? i); [apply getbit_set_other, H1|reflexivity].
    - intros y p v [H1 H2]. unfold s. rewrite value_set by exact H2. destruct (_ =? i); [|reflexivity]. rewrite getbit_set_other by congruence. apply setbit_comm. exact H1.
    - reflexivity.
    - apply A.
    - intros o qs p I J. destruct A as [_ A]. specialize (A o qs p I J). split; intros K; apply A; [left; congruence|right; exact K].
    - intros y Ly. unfold moved. rewrite ES. ring. }
  rewrite RS, ES, SS by exact L.
  assert (KZ : getbit x q = true -> run c phi x = rO) by (intros G; apply (keeps_zero N (q :: index) c q); [exact A|left; reflexivity|exact Z|exact L|exact G]).
  assert (PZ : getbit x q = true -> phi x = rO) by (intros G; apply Z; [exact L|]; exists q; split; [left; reflexivity|exact G]).
  unfold s. destruct (Z.to_nat (value x index) =? i).
  - rewrite getbit_set_same by lia. destruct (getbit x q); cbn [negb]; [rewrite KZ, PZ by reflexivity|]; reflexivity.
  - destruct (getbit x q); [rewrite KZ, PZ by reflexivity|]; reflexivity.
Qed.
Lemma sequential_effect N index q ctrl branch U psi : NoDup (index ++ [q] ++ controls ctrl) -> (forall p, In p (index ++ [q] ++ controls ctrl) -> p < N) -> zeroed N [q] psi ->
  forall times from c, from + times <= 2 ^ length index -> (forall i, i < from + times -> branch i = Some (U i) /\ acts_off N (index ++ [q] ++ controls ctrl) (U i)) ->
  sequential_switch index ctrl branch q from times = Some c -> forall chi, (forall x, length x = N -> chi x = selected index ctrl from U psi x) ->
  forall x, length x = N -> run c chi x = selected index ctrl (from + times) U psi x.
Proof.
  intros ND BD Z. induction times as [|t IH]; intros from c AM BR E chi HC x L; cbn [sequential_switch] in E.
  - assert (c = []) by congruence. subst c. rewrite Nat.add_0_r. apply HC, L.
  - destruct (length index) as [|m] eqn:EN; [discriminate|]. rewrite <- EN in *. destruct (2 ^ length index <=? from) eqn:EL; [discriminate|]. apply Nat.leb_gt in EL.
    destruct (BR from ltac:(lia)) as [EB AF]. rewrite EB in E. destruct (sequential_switch index ctrl branch q (S from) t) as [d|] eqn:Ed; [|discriminate].
    assert (NIq : ~ In q index) by (intros I; apply (apart _ _ ND q I); left; reflexivity).
    assert (CT : forall p, In p (controls ctrl) -> p < N /\ ~ In p (q :: index)).
    { intros p I. split; [apply BD; rewrite !in_app_iff; auto|]. intros [<-|J].
      - apply nodup_r in ND. cbn [app] in ND. inversion ND; subst. contradiction.
      - apply (apart _ _ ND p J). apply in_or_app; auto. }
    assert (AW : acts_off N (q :: index) (wrapped ctrl (U from))).
    { apply wrapped_off; [exact CT|]. apply (off_less N (index ++ [q] ++ controls ctrl)); [intros p I; apply in_app_or in I; destruct I as [I|[<-|I]]; rewrite !in_app_iff; cbn [In]; auto|exact AF]. }
    assert (Ec : c = ([select index q from] ++ control_on q (wrapped ctrl (U from)) ++ [select index q from]) ++ d).
    { rewrite <- !app_assoc. destruct ctrl; cbn [wrapped]; congruence. }
    subst c. rewrite run_app. replace (from + S t) with (S from + t) by lia. apply IH; [lia|intros i Hi; apply BR; lia|exact Ed| |exact L]. clear x L. intros x L.
    assert (ZS : zeroed N [q] (selected index ctrl from U psi)).
    { apply selected_zeroed; [|exact Z]. intros i Hi. destruct (BR i ltac:(lia)) as [_ A]. apply (off_less N (index ++ [q] ++ controls ctrl)); [intros p [<-|[]]; rewrite !in_app_iff; cbn [In]; auto|exact A]. }
    rewrite (sequential_step N); [|exact EL|exact NIq|apply BD; rewrite !in_app_iff; cbn [In]; auto|exact AW|intros y Ly H; rewrite HC by exact Ly; apply ZS; assumption|exact L].
    assert (SL : run (wrapped ctrl (U from)) chi x = if enabled ctrl x then run (U from) (selected index ctrl from U psi) x else selected index ctrl from U psi x).
    { rewrite (run_wrapped N); [|apply CT|apply (off_less N (index ++ [q] ++ controls ctrl)); [intros p I; rewrite !in_app_iff; auto|exact AF]|exact L]. rewrite HC by exact L. destruct (enabled ctrl x); [|reflexivity].
      apply (run_ext N); [apply AF|exact HC|exact L]. }
    rewrite SL, HC by exact L. rewrite (sel_step rO rI radd rmul rsub ropp RT expi chalf shalf im N index [q] ctrl branch U (from + S t) psi AM BR from x ltac:(lia) L).
    rewrite (live_value N) by (try exact L; lia). destruct (enabled ctrl x), (_ =? from); reflexivity.
Qed.
(** ** both *)
Lemma switch_effect (sequential : bool) N index fresh ctrl branch U amount c psi : length fresh = (if sequential then 1 else length index) ->
  NoDup (index ++ fresh ++ controls ctrl) -> (forall q, In q (index ++ fresh ++ controls ctrl) -> q < N) -> amount <= 2 ^ length index ->
  (forall i, i < amount -> branch i = Some (U i) /\ acts_off N (index ++ fresh ++ controls ctrl) (U i)) -> zeroed N fresh psi ->
  (if sequential then sequential_switch index ctrl branch (nth 0 fresh 0) 0 amount else tree_switch index fresh ctrl branch amount) = Some c ->
  zeroed N fresh (run c psi) /\ forall x, length x = N -> run c psi x = selected index ctrl amount U psi x.
Proof.
  intros LF ND BD AM BR Z E. assert (M : forall x, length x = N -> run c psi x = selected index ctrl amount U psi x).
  { destruct sequential; [|apply (tree_effect N index fresh ctrl branch); assumption]. destruct fresh as [|q [|]]; try discriminate. cbn [nth] in E.
    apply (sequential_effect N index q ctrl branch U psi ND BD Z amount 0 c AM BR E). intros x L. unfold SwitchSpec.selected. cbv zeta. rewrite (proj2 (Nat.ltb_ge _ 0)), andb_false_r by lia. reflexivity. }
  split; [|exact M]. intros x L H. rewrite M by exact L. apply (selected_zeroed N fresh); [|exact Z|exact L|exact H].
  intros i Hi. destruct (BR i Hi) as [_ A]. apply (off_less N (index ++ fresh ++ controls ctrl)); [intros q I; rewrite !in_app_iff; auto|exact A].
Qed.
Context (EU : euler rO rI radd rmul ropp expi chalf shalf im).
(** the inverted branches undo the switch *)
Lemma selected_undo N index ctrl amount U V psi x : (forall i, i < amount -> acts_off N (index ++ controls ctrl) (U i) /\ invert_circuit (U i) = Some (V i)) -> length x = N ->
  selected index ctrl amount V (selected index ctrl amount U psi) x = psi x.
Proof.
  intros H L. unfold SwitchSpec.selected at 1. cbv zeta. destruct (enabled ctrl x && _) eqn:E.
  - pose proof E as E0. apply andb_true_iff in E as [E1 E2]. apply Nat.ltb_lt in E2. set (i := Z.to_nat (value x index)) in *. destruct (H i E2) as [A EI].
    destruct (AdderProofs.undo rO rI radd rmul rsub ropp RT expi chalf shalf im EU N (U i) (V i) (proj1 A) EI) as [WV UN].
    transitivity (run (V i) (run (U i) psi) x); [|apply UN, L].
    apply (guard N (index ++ controls ctrl) (V i) (fun y => enabled ctrl y && (Z.to_nat (value y index) =? i))); [apply (off_inverse N _ (U i)); assumption| |exact L| |].
    + intros y q v NI. rewrite value_set by (intros I; apply NI, in_or_app; auto). f_equal. apply enabled_ext. intros p I. apply getbit_set_other. intros ->. apply NI, in_or_app; auto.
    + intros y Ly G. apply andb_true_iff in G as [G1 G2]. apply Nat.eqb_eq in G2. unfold SwitchSpec.selected. cbv zeta. rewrite G1, G2. rewrite (proj2 (Nat.ltb_lt _ _) E2). reflexivity.
    + rewrite E1. unfold i. rewrite Nat.eqb_refl. reflexivity.
  - unfold SwitchSpec.selected. cbv zeta. rewrite E. reflexivity.
Qed.
End ring.

(** ** when a switch is built *)
Section defined.
Context (N : nat) (index anc : list nat) (ctrl : option nat) (branch : nat -> option body).
Notation n := (length index).
Context (ND : NoDup (index ++ anc ++ controls ctrl)) (BD : forall q, In q (index ++ anc ++ controls ctrl) -> q < N).
Lemma wf_x q : q < N -> wf_circuit N [qX q].
Proof. intros H. apply wf_1; [constructor|constructor; [intros []|constructor]|reflexivity|]. intros p [<-|[]]. exact H. Qed.
Lemma wf_cx a b : a < N -> b < N -> a <> b -> wf_circuit N [qCX a b].
Proof.
  intros Ha Hb NE. apply wf_1; [constructor; constructor|constructor; [intros [E|[]]; congruence|constructor; [intros []|constructor]]|reflexivity|]. intros p [<-|[<-|[]]]; assumption.
Qed.
Lemma wf_ccx a b t : a < N -> b < N -> t < N -> a <> b -> a <> t -> b <> t -> wf_circuit N [qCCX a b t].
Proof.
  intros Ha Hb Ht N1 N2 N3. apply wf_1; [constructor; constructor| |reflexivity|intros p [<-|[<-|[<-|[]]]]; assumption].
  constructor; [intros [E|[E|[]]]; congruence|constructor; [intros [E|[]]; congruence|constructor; [intros []|constructor]]].
Qed.
Lemma wf_flat {A} (f : A -> body) l : (forall a, In a l -> wf_circuit N (f a)) -> wf_circuit N (flat_map f l).
Proof. induction l as [|a l IH]; intros H; [constructor|]. cbn [flat_map]. apply wf_app; [apply H; left; reflexivity|apply IH; intros b I; apply H; right; exact I]. Qed.
Section tree_wf.
Context (LA : length anc = n).
Lemma wf_right d : d < n -> wf_circuit N (step_right anc ctrl d).
Proof.
  intros Hd. assert (IA := in_anc index anc LA). assert (BA := anc_bound N index anc ctrl LA BD). destruct d as [|e]; cbn [step_right].
  - destruct ctrl as [c|] eqn:EC; [|apply wf_x, BA, Hd]. apply wf_cx; [apply BD; rewrite !in_app_iff; cbn; auto|apply BA, Hd|]. intros E. subst c.
    apply nodup_r in ND. apply (apart _ _ ND (a_ anc 0)); [apply IA, Hd|left; reflexivity].
  - apply wf_cx; [apply BA; lia|apply BA, Hd|]. intros E. apply (a_inj index anc ctrl LA ND) in E; lia.
Qed.
Lemma ca_facts d : d < n -> ca_ index d < N /\ (forall e, e < n -> ca_ index d <> a_ anc e) /\ (forall c, ctrl = Some c -> ca_ index d <> c) /\ (forall c e, ctrl = Some c -> e < n -> c <> a_ anc e) /\ (forall c, ctrl = Some c -> c < N).
Proof.
  intros Hd. assert (II : In (ca_ index d) index) by (apply nth_In; lia). repeat split.
  - apply BD, in_or_app; left; exact II.
  - intros e He E. apply (apart _ _ ND _ II). rewrite E. apply in_or_app; left. apply (in_anc index anc LA), He.
  - intros c EC E. apply (apart _ _ ND _ II). rewrite E, EC. apply in_or_app; right; left; reflexivity.
  - intros c e EC He E. apply (apart _ _ (nodup_r _ _ ND) (a_ anc e)); [apply (in_anc index anc LA), He|]. rewrite EC. left. exact E.
  - intros c EC. apply BD. rewrite EC, !in_app_iff. cbn. auto.
Qed.
Lemma wf_up d : d < n -> wf_circuit N (up index anc ctrl d).
Proof.
  intros Hd. destruct (ca_facts d Hd) as (F1 & F2 & F3 & F4 & F5). assert (BA := anc_bound N index anc ctrl LA BD). destruct d as [|e]; cbn [up].
  - destruct ctrl as [c|] eqn:EC; [apply wf_ccx; auto|apply wf_cx; auto].
  - apply wf_ccx; try (apply BA; lia); try assumption; try (apply F2; lia). intros E. apply (a_inj index anc ctrl LA ND) in E; lia.
Qed.
Lemma wf_down d : d < n -> wf_circuit N (down index anc ctrl d).
Proof. intros Hd. destruct (ca_facts d Hd) as (F1 & _). apply wf_app; [apply wf_x, F1|]. apply wf_app; [apply wf_up, Hd|apply wf_x, F1]. Qed.
Lemma wf_bounce d : 0 < d -> d < n -> exists c, bounce index anc ctrl d = Some c /\ wf_circuit N c.
Proof.
  intros H0 Hd. destruct d as [|e]; [lia|]. cbn [bounce]. eexists. split; [reflexivity|]. destruct (ca_facts (S e) Hd) as (F1 & F2 & F3 & F4 & F5). assert (BA := anc_bound N index anc ctrl LA BD).
  apply wf_app; [apply wf_right; lia|]. apply wf_app; [apply wf_cx; [apply BA; lia|apply BA; lia|intros E; apply (a_inj index anc ctrl LA ND) in E; lia]|].
  destruct e as [|f].
  - destruct ctrl as [c|] eqn:EC; [apply wf_ccx; auto|apply wf_cx; auto].
  - apply wf_ccx; try (apply BA; lia); try assumption; try (apply F2; lia). intros E. apply (a_inj index anc ctrl LA ND) in E; lia.
Qed.
Context (U : nat -> body) (amount : nat) (HN : 0 < n) (HA : 0 < amount) (AM : amount <= 2 ^ n).
Context (BR : forall i, i < amount -> branch i = Some (U i) /\ acts_off N (index ++ anc ++ controls ctrl) (U i)).
Lemma wf_guarded i : i < amount -> exists c, guarded index anc branch i = Some c /\ wf_circuit N c.
Proof.
  intros Hi. destruct (BR i Hi) as [E A]. unfold guarded. rewrite E. cbn [option_map]. eexists. split; [reflexivity|]. apply wf_control; [apply (anc_bound N index anc ctrl LA BD); lia|].
  apply (off_less N (index ++ anc ++ controls ctrl)); [|exact A]. intros q [<-|[]]. rewrite !in_app_iff. right. left. apply (in_anc index anc LA). lia.
Qed.
Lemma wf_leaf i : S i < amount -> exists c, leaf index anc ctrl branch i = Some c /\ wf_circuit N c.
Proof.
  intros Hi. unfold leaf. destruct (wf_guarded i ltac:(lia)) as (c & -> & Wc), (wf_guarded (S i) Hi) as (d & -> & Wd). eexists. split; [reflexivity|].
  apply wf_app; [exact Wc|]. apply wf_app; [apply wf_right; lia|exact Wd].
Qed.
Lemma wf_loop : forall times pos, 2 * (pos + times) < amount -> exists c, loop index anc ctrl branch pos times = Some c /\ wf_circuit N c.
Proof.
  induction times as [|t IH]; intros pos H; cbn [loop]; [eexists; split; [reflexivity|constructor]|].
  assert (NS : exists m, n = S m) by (exists (n - 1); lia). destruct NS as [m Em]. assert (AM' : amount <= 2 * 2 ^ m) by (rewrite Em in AM; exact AM).
  destruct (carry m pos ltac:(lia)) as (k & r & B1 & B2 & B3). assert (LL : k + S (length r) = m) by (rewrite <- (bits_length m pos), B1, app_length, repeat_length; reflexivity).
  unfold body_fun. cbv zeta. rewrite B3. destruct (wf_leaf (2 * pos) ltac:(lia)) as (c1 & -> & W1). destruct (wf_bounce (n - S k) ltac:(lia) ltac:(lia)) as (c2 & -> & W2).
  destruct (IH (S pos) ltac:(lia)) as (c3 & -> & W3). eexists. split; [reflexivity|]. apply wf_app; [|exact W3]. apply wf_app; [exact W1|]. apply wf_app; [|apply wf_app; [exact W2|]].
  - apply wf_flat. intros j J. apply in_seq in J. apply wf_up. lia.
  - apply wf_flat. intros j J. apply in_seq in J. apply wf_down. lia.
Qed.
Lemma tree_defined : exists c, tree_switch index anc ctrl branch amount = Some c /\ wf_circuit N c.
Proof.
  remember (tree_switch index anc ctrl branch amount) as o eqn:Eo. unfold tree_switch in Eo. assert (NS : exists m, n = S m) by (exists (n - 1); lia). destruct NS as [m Em]. rewrite Em in Eo at 1. destruct amount as [|b'] eqn:Eb; [lia|]. rewrite <- Eb in *.
  assert (HL : 2 * (0 + ((amount + 1) / 2 - 1)) < amount) by (pose proof (Nat.mul_div_le (amount + 1) 2); lia).
  destruct (wf_loop ((amount + 1) / 2 - 1) 0 HL) as (c1 & E1 & W1). rewrite E1 in Eo.
  assert (G : exists c, (if Nat.even amount then leaf index anc ctrl branch (amount - 2) else guarded index anc branch (amount - 1)) = Some c /\ wf_circuit N c).
  { destruct (Nat.even amount) eqn:Ev; [apply wf_leaf; apply Nat.even_spec in Ev; destruct Ev; lia|apply wf_guarded; lia]. }
  destruct G as (c2 & E2 & W2). rewrite E2 in Eo. eexists. split; [exact Eo|]. apply wf_app; [|apply wf_app; [exact W1|apply wf_app; [exact W2|]]].
  - apply wf_flat. intros j J. apply in_seq in J. apply wf_down. lia.
  - unfold go_back. apply wf_flat. intros j J. apply in_seq in J. apply wf_app; [apply wf_up; lia|]. destruct (Nat.testbit _ j); [apply wf_right; lia|constructor].
Qed.
End tree_wf.
End defined.
Lemma sequential_defined N index q ctrl branch U : NoDup (index ++ [q] ++ controls ctrl) -> (forall p, In p (index ++ [q] ++ controls ctrl) -> p < N) -> 0 < length index ->
  forall times from, from + times <= 2 ^ length index -> (forall i, i < from + times -> branch i = Some (U i) /\ acts_off N (index ++ [q] ++ controls ctrl) (U i)) ->
  exists c, sequential_switch index ctrl branch q from times = Some c /\ wf_circuit N c.
Proof.
  intros ND BD HN. induction times as [|t IH]; intros from AM BR; cbn [sequential_switch]; [eexists; split; [reflexivity|constructor]|].
  destruct (length index) as [|m] eqn:EN; [lia|]. rewrite <- EN in *. rewrite (proj2 (Nat.leb_gt _ _)) by lia. destruct (BR from ltac:(lia)) as [-> AF].
  destruct (IH (S from) ltac:(lia) ltac:(intros i Hi; apply BR; lia)) as (d & -> & Wd). eexists. split; [reflexivity|].
  assert (Hq : q < N) by (apply BD; rewrite !in_app_iff; cbn [In]; auto).
  assert (WS : wf_circuit N [select index q from]).
  { apply wf_1; [constructor; constructor| | |].
    - rewrite app_assoc in ND. apply nodup_l in ND. exact ND.
    - cbn [arity]. rewrite map_length, seq_length, app_length. reflexivity.
    - intros p I. apply BD. rewrite app_assoc. apply in_or_app. left. exact I. }
  apply wf_app; [exact WS|]. apply wf_app; [|apply wf_app; [exact WS|exact Wd]]. apply nodup_r in ND. destruct ctrl as [k|].
  - apply wf_control; [exact Hq|]. apply off_control; [apply BD; rewrite !in_app_iff; cbn [In controls]; auto|cbn [controls app] in ND; inversion ND; subst; intros [E|[]]; apply H1; left; congruence|].
    apply (off_less N (index ++ [q] ++ controls (Some k))); [intros p [<-|[<-|[]]]; rewrite !in_app_iff; cbn [In controls]; auto|exact AF].
  - apply wf_control; [exact Hq|]. apply (off_less N (index ++ [q] ++ controls None)); [intros p [<-|[]]; rewrite !in_app_iff; cbn [In controls]; auto|exact AF].
Qed.
