(** What the circuits of a recursion can measure. *)
From Coq Require Import List Arith Bool ZArith Reals Lia Ring Permutation.
Import ListNotations.
From Verif.Inverse Require Import InvSpec InvProofs.
From Verif.CtrlOps Require Import CtrlComplex.
From Verif.StatePrep Require Import PrepModel PrepSpec PrepNum WProofs.
From Verif.Mixers Require Import MixModel MixSpec MixProofs MixProofs2.
From Verif.Portfolio Require Import PortModel PortProofs PortInit.
From Verif.Qiro Require Import QiroModel QiroSpec QiroProofs.

(** * Not gates *)
Fixpoint flips (ks : list nat) (x : list bool) : list bool := match ks with [] => x | k :: ks => flip (flips ks x) k end.
Lemma run_flips ks : forall psi x, mrun (map (fun k => Std (Not k)) ks) psi x = psi (flips ks x).
Proof. induction ks as [|k ks IH]; intros psi x; [reflexivity|]. cbn [map]. change (mrun (map (fun k => Std (Not k)) ks) (apply (Not k) psi) x = psi (flips (k :: ks) x)). rewrite IH. reflexivity. Qed.
Lemma flips_length ks x : length (flips ks x) = length x. Proof. induction ks as [|k ks IH]; [reflexivity|]. cbn [flips]. rewrite flip_length. exact IH. Qed.
Lemma flips_get ks x i : (forall k, In k ks -> k < length x) -> getbit (flips ks x) i = xorb (getbit x i) (Nat.odd (count_occ Nat.eq_dec ks i)).
Proof.
  induction ks as [|k ks IH]; intros H; [cbn; rewrite xorb_false_r; reflexivity|]. cbn [flips count_occ]. rewrite flip_get by (rewrite flips_length; apply H; left; reflexivity). rewrite IH by (intros j J; apply H; right; exact J).
  destruct (Nat.eqb_spec i k) as [E|D], (Nat.eq_dec k i) as [E'|D']; try congruence.
  rewrite Nat.odd_succ, <- Nat.negb_odd. destruct (getbit x i), (Nat.odd _); reflexivity.
Qed.
Lemma indep_init_nots n sol : indep_init n sol = map (fun k => Std (Not k)) (filter (fun i => member i sol) (seq 0 n)).
Proof. unfold indep_init. generalize (seq 0 n). induction l as [|i l IH]; [reflexivity|]. cbn [flat_map filter]. rewrite IH. destruct (member i sol); reflexivity. Qed.
Lemma count_filter (f : nat -> bool) n i : i < n -> Nat.odd (count_occ Nat.eq_dec (filter f (seq 0 n)) i) = f i.
Proof.
  intros I. destruct (f i) eqn:E.
  - rewrite (proj1 (NoDup_count_occ' Nat.eq_dec _) (NoDup_filter f (seq_NoDup n 0)) i); [reflexivity|]. apply filter_In. split; [apply in_seq; lia|exact E].
  - replace (count_occ Nat.eq_dec (filter f (seq 0 n)) i) with 0; [reflexivity|]. symmetry. apply count_occ_not_In. rewrite filter_In. intros [_ C]. congruence.
Qed.

(** * Diagonal gates *)
Lemma keeps_rzz L P a p q : p <> q -> q < L -> keeps L P (rzz a p q). Proof. intros A B. eapply keeps_diag, diag_rzz; assumption. Qed.
Lemma keeps_rzg L P a q : keeps L P (rzg a q). Proof. eapply keeps_diag, diag_rz. Qed.
Lemma keeps_indep_cost L P g sol exc gamma : (forall a b, In (a, b) (edges g) -> a <> b /\ b < L) -> keeps L P (indep_cost (g, sol, exc) gamma).
Proof.
  intros H. unfold indep_cost. apply keeps_app; apply keeps_flat.
  - intros [a b] E. destruct (H a b E). apply keeps_app; [apply keeps_rzz; assumption|apply keeps_app; apply keeps_rzg].
  - intros i _. destruct (member i sol); [apply keeps_nil|apply keeps_rzg].
Qed.
Lemma keeps_clique_cost L P g sol exc gamma : (forall i, In i (nodes g) -> i < L) -> keeps L P (clique_cost (g, sol, exc) gamma).
Proof.
  intros H. unfold clique_cost. apply keeps_app; apply keeps_flat.
  - intros [a b] E. apply in_prod_iff in E. destruct (Nat.ltb_spec a b) as [D|D]; [|apply keeps_nil]. cbn [andb]. destruct (negb _); [|apply keeps_nil]. apply keeps_app; [apply keeps_rzz; [lia|apply H; tauto]|apply keeps_app; apply keeps_rzg].
  - intros i _. destruct (member i sol); [apply keeps_nil|apply keeps_rzg].
Qed.

(** ** The phases of the cost operators *)
Lemma diag_list {A} L (c : A -> list mgate) (f : A -> list bool -> Z) r l : (forall a, In a l -> diag L (c a) (fun x => r * IZR (f a x))%R) -> diag L (flat_map c l) (fun x => r * IZR (zsum (fun a => f a x) l))%R.
Proof.
  induction l as [|a l IH]; intros H; [eapply diag_ext; [apply diag_nil|]; intros; cbn; ring|]. cbn [flat_map]. eapply diag_ext; [apply diag_app; [apply H; left; reflexivity|apply IH; intros b B; apply H; right; exact B]|].
  intros x _. cbn [zsum fold_right]. change (fold_right (fun a s => (f a x + s)%Z) 0%Z l) with (zsum (fun a => f a x) l). rewrite plus_IZR. ring.
Qed.
Lemma diag_edge L a b gamma : a <> b -> b < L -> diag L (rzz (3 * gamma) a b ++ rzg (- gamma) a ++ rzg (- gamma) b) (fun x => gamma / 2 * IZR (edge_value x (a, b)))%R.
Proof.
  intros D B. eapply diag_ext; [apply diag_app; [apply diag_rzz; assumption|apply diag_app; apply diag_rz]|]. intros x _. unfold edge_value, w. destruct (getbit x a), (getbit x b); cbn [xorb]; field.
Qed.
Lemma diag_node L i gamma : diag L (rzg gamma i) (fun x => gamma / 2 * IZR (- plus_minus (getbit x i)))%R.
Proof. eapply diag_ext; [apply diag_rz|]. intros x _. unfold w, plus_minus. destruct (getbit x i); cbn; field. Qed.
Lemma diag_nodes L (sol l : list nat) gamma : diag L (flat_map (fun i => if member i sol then [] else rzg gamma i) l) (fun x => gamma / 2 * IZR (zsum (fun i => (- plus_minus (getbit x i))%Z) (filter (fun i => negb (member i sol)) l)))%R.
Proof.
  induction l as [|i l IH]; [eapply diag_ext; [apply diag_nil|]; intros; cbn; ring|]. cbn [flat_map filter]. destruct (member i sol); cbn [negb app]; [exact IH|]. eapply diag_ext; [apply diag_app; [apply diag_node|exact IH]|].
  intros x _. cbn [zsum fold_right]. match goal with |- context [fold_right ?f 0%Z ?k] => change (fold_right f 0%Z k) with (zsum (fun i => (- plus_minus (getbit x i))%Z) k) end. rewrite plus_IZR. ring.
Qed.
Lemma diag_indep_cost L g sol exc gamma : (forall a b, In (a, b) (edges g) -> a <> b /\ b < L) ->
  diag L (indep_cost (g, sol, exc) gamma) (fun x => gamma / 2 * IZR (zsum (edge_value x) (edges g) + zsum (fun i => (- plus_minus (getbit x i))%Z) (filter (fun i => negb (member i sol)) (nodes g))))%R.
Proof.
  intros H. unfold indep_cost. eapply diag_ext; [apply diag_app; [|apply diag_nodes]|].
  - apply (diag_list L _ (fun e x => edge_value x e)). intros [a b] E. destruct (H a b E). apply diag_edge; assumption.
  - intros x _. cbn beta. rewrite plus_IZR. change (zsum (fun a => edge_value x a) (edges g)) with (zsum (edge_value x) (edges g)). ring.
Qed.
Lemma diag_clique_cost L g sol exc gamma : (forall i, In i (nodes g) -> i < L) ->
  diag L (clique_cost (g, sol, exc) gamma) (fun x => gamma / 2 * IZR (zsum (edge_value x) (filter (fun '(a, b) => (a <? b) && negb (member b (adj g a))) (list_prod (nodes g) (nodes g))) + zsum (fun i => (- plus_minus (getbit x i))%Z) (filter (fun i => negb (member i sol)) (nodes g))))%R.
Proof.
  intros H. unfold clique_cost. eapply diag_ext; [apply diag_app; [|apply diag_nodes]|].
  - apply (diag_list L _ (fun '(a, b) x => if (a <? b) && negb (member b (adj g a)) then edge_value x (a, b) else 0%Z)). intros [a b] E. apply in_prod_iff in E. destruct (Nat.ltb_spec a b) as [D|D]; cbn [andb].
    + destruct (negb _); [apply diag_edge; [lia|apply H; tauto]|]. eapply diag_ext; [apply diag_nil|]. intros; cbn; ring.
    + eapply diag_ext; [apply diag_nil|]. intros; cbn; ring.
  - intros x _. cbn beta. rewrite plus_IZR, Rmult_plus_distr_l. f_equal. f_equal. f_equal. induction (list_prod (nodes g) (nodes g)) as [|[a b] l IH]; [reflexivity|]. cbn [zsum fold_right filter]. destruct ((a <? b) && negb (member b (adj g a))); cbn [zsum fold_right]; unfold zsum in IH; rewrite IH; reflexivity.
Qed.

Lemma zsum_signs x l : zsum (fun i => (- plus_minus (getbit x i))%Z) l = zsum (fun i => if getbit x i then 1%Z else (-1)%Z) l.
Proof. induction l as [|i l IH]; [reflexivity|]. cbn [zsum fold_right]. unfold zsum in IH. rewrite IH. destruct (getbit x i); reflexivity. Qed.
(** * Independent sets *)
Section mis.
Context (n : nat) (G : graph) (Sm : simple n G) (g : graph) (sol exc : list nat) (Inv : indep_inv n G (g, sol, exc)).
Lemma mis_simple : simple_graph n (adj g).
Proof. intros i I j J. apply adj_in in J. destruct Inv as [R _]. destruct (loops n G g sol exc i j Sm R J) as (D & _ & N). split; [|split; [congruence|apply adj_in; unfold adjacent in *; tauto]]. destruct R as [A _]. apply A in N. tauto. Qed.
Definition mis_ok (x : list bool) : Prop := getbit x n = false /\ (forall i, In i sol -> i < n -> getbit x i = true) /\ (forall i, In i exc -> i < n -> getbit x i = false) /\ independent (adj g) (firstn n x).
Lemma mis_mixer beta : keeps (S n) mis_ok (indep_mixer n (g, sol, exc) beta).
Proof.
  unfold indep_mixer. apply keeps_flat. intros i I. apply in_seq in I. destruct (member i (sol ++ exc)) eqn:M; [apply keeps_nil|]. apply member_out in M. rewrite in_app_iff in M.
  apply keeps_step; [apply indep_plain; [exact mis_simple|lia]|]. intros x Lx E (C & A & B & H). rewrite flip_other in C by lia. rewrite indep_eval in E by (try assumption; lia).
  split; [exact C|]. split; [intros j J Lj; rewrite <- (A j J Lj), flip_other; [reflexivity|intros ->; tauto]|]. split; [intros j J Lj; rewrite <- (B j J Lj), flip_other; [reflexivity|intros ->; tauto]|].
  apply (indep_flip n (adj g) mis_simple i); try assumption; lia.
Qed.
Lemma mis_start : supp (S n) mis_ok (mrun (indep_init n sol) (zero_state (S n))).
Proof.
  intros x Lx N. rewrite indep_init_nots, run_flips. unfold zero_state, basis_state. destruct (bits_eqb _ _) eqn:E; [|reflexivity]. exfalso. apply N. apply bits_eqb_eq in E.
  assert (K : forall k, In k (filter (fun i => member i sol) (seq 0 n)) -> k < length x) by (intros k H; apply filter_In in H; destruct H as [H _]; apply in_seq in H; lia).
  assert (V : forall i, i < n -> getbit x i = member i sol).
  { intros i I. pose proof (flips_get _ x i K) as F. rewrite E, get_repeat_false, count_filter in F by exact I. destruct (getbit x i), (member i sol); try reflexivity; discriminate. }
  destruct Inv as [[RA RB] I]. repeat split.
  - pose proof (flips_get _ x n K) as F. rewrite E, get_repeat_false in F. replace (count_occ Nat.eq_dec (filter (fun i => member i sol) (seq 0 n)) n) with 0 in F.
    + cbn [Nat.odd] in F. destruct (getbit x n); [discriminate|reflexivity].
    + symmetry. apply count_occ_not_In. rewrite filter_In, in_seq. lia.
  - intros i S L. rewrite V by exact L. apply member_in, S.
  - intros i X L. rewrite V by exact L. apply member_out. intros S. destruct (I i S) as [A _]. apply RA in A. tauto.
  - intros i j Ii Ij A. rewrite get_firstn in Ii. destruct (Nat.ltb_spec i n); [|discriminate]. rewrite V in Ii by assumption. apply member_in in Ii. apply adj_in in A. destruct (I i Ii) as [_ Nj]. apply (Nj j A).
Qed.
Lemma mis_run angles x : length x = S n -> mrun (indep_circuit n (g, sol, exc) angles) (zero_state (S n)) x <> c0 -> ~ ~ mis_ok x.
Proof.
  intros Lx A B. apply A. unfold indep_circuit. rewrite mrun_app. refine (keeps_layers _ _ _ _ angles _ mis_mixer _ mis_start x Lx B). intros gamma. apply keeps_indep_cost. intros a b E. destruct Inv as [R _].
  destruct (loops n G g sol exc a b Sm R (or_introl E)) as (D & _ & N). split; [exact D|]. destruct R as [RA _]. apply RA in N. lia.
Qed.
Lemma mis_measured angles s a : length s = n -> mrun (indep_circuit n (g, sol, exc) angles) (zero_state (S n)) (s ++ [a]) <> c0 ->
  a = false /\ independent_set G s /\ (forall i, In i sol -> getbit s i = true) /\ (forall i, In i exc -> getbit s i = false).
Proof.
  intros Ls A. assert (Lx : length (s ++ [a]) = S n) by (rewrite app_length; cbn; lia). pose proof (mis_run angles _ Lx A) as D.
  assert (Gn : getbit (s ++ [a]) n = a) by (rewrite get_app, Ls, Nat.ltb_irrefl, Nat.sub_diag; reflexivity).
  assert (Gi : forall i, i < n -> getbit (s ++ [a]) i = getbit s i) by (intros i I; rewrite get_app, Ls; replace (i <? n) with true by (symmetry; apply Nat.ltb_lt; exact I); reflexivity).
  assert (Go : forall i, getbit s i = true -> i < n) by (intros i I; destruct (le_lt_dec n i); [unfold getbit in I; rewrite nth_overflow in I by lia; discriminate|assumption]).
  destruct Inv as [[RA RB] I]. repeat split.
  - destruct a; [|reflexivity]. exfalso. apply D. intros (C & _). rewrite Gn in C. discriminate.
  - intros i j Ii Ij AG. apply D. intros (_ & _ & B & H).
    assert (Xi : ~ In i exc) by (intros X; specialize (B i X (Go i Ii)); rewrite Gi in B by (apply Go, Ii); congruence). assert (Xj : ~ In j exc) by (intros X; specialize (B j X (Go j Ij)); rewrite Gi in B by (apply Go, Ij); congruence).
    apply (H i j).
    + rewrite get_firstn, Gi by (apply Go, Ii). replace (i <? n) with true by (symmetry; apply Nat.ltb_lt, Go, Ii). exact Ii.
    + rewrite get_firstn, Gi by (apply Go, Ij). replace (j <? n) with true by (symmetry; apply Nat.ltb_lt, Go, Ij). exact Ij.
    + apply adj_in. unfold adjacent in *. rewrite !RB. tauto.
  - intros i S. destruct (getbit s i) eqn:E; [reflexivity|]. exfalso. apply D. intros (_ & B & _). destruct (I i S) as [X _]. apply RA in X. destruct X as [X _]. specialize (B i S X). rewrite Gi in B by exact X. congruence.
  - intros i X. destruct (getbit s i) eqn:E; [|reflexivity]. exfalso. apply D. intros (_ & _ & B & _). specialize (B i X (Go i E)). rewrite Gi in B by (apply Go, E). congruence.
Qed.
End mis.

(** * Cliques *)
Section cl.
Context (n : nat) (g : graph) (sol exc : list nat) (HN : forall i, In i (nodes g) -> i < n) (HS : forall i, In i sol -> i < n).
Definition fixed (x : list bool) : Prop := forall i, In i (sol ++ exc) -> getbit x i = Nat.odd (count_occ Nat.eq_dec sol i).
Lemma fixed_set x i b : ~ In i (sol ++ exc) -> fixed (setbit x i b) -> fixed x.
Proof. intros N H j J. rewrite <- (H j J). symmetry. apply getbit_set_other. intros ->. contradiction. Qed.
Lemma fixed_start : supp n fixed (mrun (qiro_init n sol exc) (zero_state n)).
Proof.
  unfold qiro_init. rewrite mrun_app. intros x Lx N. rewrite run_flips.
  set (P := fun x => forall i, In i (sol ++ exc) -> getbit x i = false).
  assert (K : supp n P (mrun (flat_map (fun i => if member i (sol ++ exc) then [] else [Std (U (mk_u (PI / 2) 0 PI 0) i)]) (seq 0 n)) (zero_state n))).
  { apply keeps_flat; [|apply supp_zero; intros i _; apply get_repeat_false]. intros i _. destruct (member i (sol ++ exc)) eqn:M; [apply keeps_nil|]. apply member_out in M. apply keeps_u. intros y b _ H j J. rewrite <- (H j J). symmetry. apply getbit_set_other. intros ->. contradiction. }
  apply K; [rewrite flips_length; exact Lx|]. intros H. apply N. intros i I. specialize (H i I). rewrite flips_get in H by (intros k Hk; rewrite Lx; apply HS, Hk). destruct (getbit x i), (Nat.odd _); try reflexivity; discriminate.
Qed.
Lemma fixed_run angles : supp n fixed (mrun (clique_circuit n (g, sol, exc) angles) (zero_state n)).
Proof.
  unfold clique_circuit. rewrite mrun_app. apply keeps_layers; [| |exact fixed_start].
  - intros gamma. apply keeps_clique_cost, HN.
  - intros beta. unfold qiro_rx_mixer. apply keeps_flat. intros i _. destruct (member i (sol ++ exc)) eqn:M; [apply keeps_nil|]. apply member_out in M. apply keeps_u. intros x b _. apply fixed_set, M.
Qed.
End cl.
(** the invariant when nodes are fixed *)
Definition clique_inv (n : nat) (G : graph) (p : progress graph) : Prop :=
  reduced n G p /\ let '(g, sol, exc) := p in NoDup sol /\ forall s, In s sol -> In s (nodes g) /\ forall i, In i (nodes g) -> i <> s -> adjacent g i s.
Lemma clique_step n G res p : node_first res p -> clique_inv n G p -> clique_inv n G (clique_replace res p).
Proof.
  destruct p as [[g sol] exc]. intros F [R [ND I]]. unfold clique_replace. destruct (find_max (nodes g) (edges g) res sol) as [[[v|a b] s]|] eqn:E; [| |exact (conj R (conj ND I))]; apply max_some in E.
  - destruct E as ([V W] & _). assert (K : forall l, (forall u, In u sol -> ~ In u l) -> forall u, In u sol -> In u (nodes (remove_nodes g l)) /\ forall i, In i (nodes (remove_nodes g l)) -> i <> u -> adjacent (remove_nodes g l) i u).
    { intros l N u U. destruct (I u U) as [A B]. split; [apply remove_node; split; [exact A|apply N, U]|]. intros i Hi D. apply remove_node in Hi. apply remove_adjacent. split; [apply B; tauto|]. split; [tauto|apply N, U]. }
    destruct (s <? 0)%Z.
    + set (r := filter (fun i => negb (member i (adj g v ++ [v]))) (nodes g)).
      assert (Vr : ~ In v r) by (unfold r; rewrite filter_In, negb_member, in_app_iff; cbn; tauto).
      assert (Ur : forall u, In u sol -> ~ In u r).
      { intros u U. unfold r. rewrite filter_In, negb_member, in_app_iff. intros [_ N]. apply N. left. apply adj_in. apply (I u U); [exact V|]. intros ->. contradiction. }
      split; [apply (reduced_remove n G g sol); exact R|]. split; [|intros u U; apply in_app_iff in U; destruct U as [U|[<-|[]]]; [apply (K r Ur u U)|]].
      * apply (Permutation_NoDup (Permutation_cons_append sol v)). constructor; assumption.
      * split; [apply remove_node; tauto|]. intros i Hi D. apply remove_node in Hi. destruct Hi as [Hi Ni]. apply remove_adjacent. split; [|tauto]. unfold r in Ni. rewrite filter_In, negb_member, in_app_iff in Ni.
        destruct (member i (adj g v ++ [v])) eqn:M; [|apply member_out in M; rewrite in_app_iff in M; tauto]. apply member_in in M. apply in_app_iff in M. destruct M as [M|[->|[]]]; [|contradiction]. apply adj_in in M. unfold adjacent in *. tauto.
    + split; [apply (reduced_remove n G g sol); exact R|]. split; [exact ND|]. apply K. intros u U [<-|[]]. contradiction.
  - exfalso. destruct E as (C & _ & _ & M). destruct (F a b C) as (v & Cv & L). specialize (M (Single v) Cv). lia.
Qed.
Lemma clique_rounds n G : forall results p, nodes_first results p -> clique_inv n G p -> clique_inv n G (fold_left (fun p res => clique_replace res p) results p).
Proof. induction results as [|res l IH]; intros p N I; [exact I|]. destruct N as [A B]. apply IH; [exact B|]. apply clique_step; assumption. Qed.

(** * Satisfiability *)
Local Open Scope Z_scope.
Lemma holds_opp t l : l <> 0 -> holds t (- l) = negb (holds t l).
Proof. intros N. unfold holds. destruct (Z.ltb_spec 0 l), (Z.ltb_spec 0 (- l)); try lia; rewrite ?Z.opp_involutive, ?negb_involutive; reflexivity. Qed.
Lemma has_in l c : has l c = true <-> In l c.
Proof. unfold has. rewrite existsb_exists. split; [intros (j & J & E); apply Z.eqb_eq in E; subst; exact J|intros H; exists l; split; [exact H|apply Z.eqb_refl]]. Qed.
Lemma replace_holds t a b c : holds t a = holds t b -> satisfied t (replace_first a b c) = satisfied t c.
Proof. intros H. unfold satisfied. induction c as [|l c IH]; [reflexivity|]. cbn [replace_first]. destruct (Z.eqb_spec l a) as [->|D]; cbn [existsb]; [rewrite H; reflexivity|rewrite IH; reflexivity]. Qed.
Lemma remove_holds t a c : holds t a = false -> satisfied t (remove_first a c) = satisfied t c.
Proof. intros H. unfold satisfied. induction c as [|l c IH]; [reflexivity|]. cbn [remove_first]. destruct (Z.eqb_spec l a) as [->|D]; cbn [existsb]; [rewrite H; reflexivity|rewrite IH; reflexivity]. Qed.
Lemma subst_ok t a b sign c : 0 < a -> 0 < b -> holds t b = (if 0 <? sign then holds t a else negb (holds t a)) -> satisfied t (sat_subst a b sign c) = satisfied t c.
Proof.
  intros A B H. unfold sat_subst. assert (O : forall l, 0 < l -> holds t (- l) = negb (holds t l)) by (intros l L; apply holds_opp; lia).
  set (d := if has b c then replace_first b (if 0 <? sign then a else - a) c else c). assert (D : satisfied t d = satisfied t c).
  { unfold d. destruct (has b c); [|reflexivity]. apply replace_holds. rewrite H. destruct (0 <? sign); [reflexivity|symmetry; apply O, A]. }
  rewrite <- D. destruct (has (- b) d); [|reflexivity]. apply replace_holds. rewrite O, H by exact B. destruct (0 <? sign); [symmetry; apply O, A|apply negb_involutive].
Qed.
Definition one (b : bool) : nat := if b then 1 else 0.
Lemma count_cons t c cs : count_satisfied t (c :: cs) = (one (satisfied t c) + count_satisfied t cs)%nat.
Proof. unfold count_satisfied. cbn [filter]. destruct (satisfied t c); reflexivity. Qed.
Lemma count_map t f cs : (forall c, satisfied t (f c) = satisfied t c) -> count_satisfied t (map f cs) = count_satisfied t cs.
Proof. intros H. induction cs as [|c cs IH]; [reflexivity|]. cbn [map]. rewrite !count_cons, IH, H. reflexivity. Qed.
Lemma count_set t d : forall cs i, (i < length cs)%nat -> (count_satisfied t (set_nth i d cs) + one (satisfied t (nth i cs [])) = count_satisfied t cs + one (satisfied t d))%nat.
Proof.
  induction cs as [|c cs IH]; intros i L; [cbn in L; lia|]. destruct i as [|i]; cbn [set_nth nth]; rewrite !count_cons; [lia|]. cbn [length] in L. specialize (IH i ltac:(lia)). lia.
Qed.
Lemma count_remove t c : satisfied t c = false -> forall cs, count_satisfied t (remove_clause c cs) = count_satisfied t cs.
Proof.
  intros H. induction cs as [|d cs IH]; [reflexivity|]. cbn [remove_clause]. unfold clause_eqb. destruct (list_eq_dec Z.eq_dec d c) as [->|]; rewrite !count_cons; [rewrite H; reflexivity|]. rewrite IH. reflexivity.
Qed.
Lemma loop_ok lit : lit <> 0 -> forall fuel i cs, exists k, forall t, holds t lit = true -> count_satisfied t cs = (k + count_satisfied t (fst (sat_loop fuel lit i cs)))%nat.
Proof.
  intros N. induction fuel as [|fuel IH]; intros i cs; [exists 0%nat; reflexivity|]. cbn [sat_loop]. destruct (Nat.ltb_spec i (length cs)) as [L|L]; [|exists 0%nat; reflexivity].
  set (c := nth i cs []). set (cs' := if has lit c then set_nth i [] cs else _). destruct (IH (S i) cs') as (k & K). destruct (sat_loop fuel lit (S i) cs') as [r m]. cbn [fst] in *.
  exists ((if has lit c then 1 else 0) + k)%nat. intros t T. rewrite <- Nat.add_assoc, <- (K t T). assert (F : holds t (- lit) = false) by (rewrite holds_opp, T by exact N; reflexivity). unfold cs'. destruct (has lit c) eqn:H1.
  - pose proof (count_set t [] cs i L) as E. replace (satisfied t (nth i cs [])) with true in E; [cbn [one satisfied existsb] in E; lia|]. symmetry. unfold satisfied. apply existsb_exists. exists lit. split; [apply has_in, H1|exact T].
  - destruct (has (- lit) c) eqn:H2; [|lia]. destruct (Nat.eqb_spec (length c) 1) as [E1|E1].
    + rewrite count_remove; [lia|]. destruct c as [|l [|l' c']]; [discriminate| |discriminate]. apply has_in in H2. destruct H2 as [->|[]]. unfold satisfied. cbn [existsb]. rewrite F. reflexivity.
    + pose proof (count_set t (remove_first (- lit) c) cs i L) as E. fold c in E. rewrite (remove_holds t (- lit) c F) in E. lia.
Qed.
(** ** Substitutions remove the variable *)
Lemma replace_in a b c x : In x (replace_first a b c) -> x = b \/ In x c.
Proof. induction c as [|l c IH]; cbn [replace_first]; [intros []|]. destruct (l =? a); intros [I|I]; cbn [In]; [left; congruence|tauto|tauto|apply IH in I; tauto]. Qed.
Lemma replace_gone a b c : a <> b -> NoDup c -> ~ In a (replace_first a b c).
Proof.
  intros D. induction c as [|l c IH]; intros N; [intros []|]. inversion N as [|? ? M N']; subst. cbn [replace_first]. destruct (Z.eqb_spec l a) as [->|E]; intros [I|I]; [congruence|contradiction|congruence|exact (IH N' I)].
Qed.
Lemma replace_count a b c x : x <> b -> (count_occ Z.eq_dec (replace_first a b c) x <= count_occ Z.eq_dec c x)%nat.
Proof.
  intros D. induction c as [|l c IH]; cbn [replace_first]; [cbn; lia|]. destruct (l =? a); cbn [count_occ]; [destruct (Z.eq_dec b x) as [E|E]; [congruence|]; destruct (Z.eq_dec l x); lia|destruct (Z.eq_dec l x); lia].
Qed.
Lemma replace_one a b c : a <> b -> (count_occ Z.eq_dec c a <= 1)%nat -> ~ In a (replace_first a b c).
Proof.
  intros D. induction c as [|l c IH]; intros N; [intros []|]. cbn [count_occ] in N. cbn [replace_first]. destruct (Z.eq_dec l a) as [->|E].
  - rewrite Z.eqb_refl. intros [I|I]; [congruence|]. apply (count_occ_In Z.eq_dec) in I. lia.
  - destruct (Z.eqb_spec l a); [contradiction|]. intros [I|I]; [congruence|exact (IH N I)].
Qed.
Lemma subst_gone a b sign c : 0 < a -> 0 < b -> a <> b -> NoDup c -> ~ In b (sat_subst a b sign c) /\ ~ In (- b) (sat_subst a b sign c).
Proof.
  intros A B D N. unfold sat_subst. set (c1 := if has b c then replace_first b (if 0 <? sign then a else - a) c else c).
  assert (H1 : ~ In b c1) by (unfold c1; destruct (has b c) eqn:E; [apply replace_gone; [destruct (0 <? sign); lia|exact N]|intros I; apply has_in in I; congruence]).
  assert (H2 : (count_occ Z.eq_dec c1 (- b) <= 1)%nat).
  { pose proof (proj1 (NoDup_count_occ Z.eq_dec c) N (- b)). unfold c1. destruct (has b c); [|assumption]. etransitivity; [apply replace_count; destruct (0 <? sign); lia|assumption]. }
  destruct (has (- b) c1) eqn:E.
  - split; [intros I; apply replace_in in I; destruct I as [I|I]; [destruct (0 <? sign); lia|contradiction]|]. apply replace_one; [destruct (0 <? sign); lia|exact H2].
  - split; [exact H1|]. intros I. apply has_in in I. congruence.
Qed.
