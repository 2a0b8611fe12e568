(** Soundness of the fusion rules. *)
From Coq Require Import Ring.
From Verif.Passes Require Import FuseModel FuseSpec.
Local Open Scope nat_scope.

Section rules.
Context {R : comring} (T : trig R).
Add Ring Rring4 : (laws R).
Implicit Types (a b : ang T).
Lemma ex_add a b : ex T (aadd a b) = mul (ex T a) (ex T b).
Proof.
  unfold ex. rewrite co_add, si_add. transitivity (add (add (mul (co a) (co b)) (mul (mul (iu T) (iu T)) (mul (si a) (si b)))) (mul (iu T) (add (mul (si a) (co b)) (mul (co a) (si b))))).
  - rewrite iu_sq. ring.
  - ring.
Qed.
Lemma ex_0 : ex T a0 = one. Proof. unfold ex. rewrite co_0, si_0. ring. Qed.
Lemma ex_opp a : mul (ex T (aopp a)) (ex T a) = one.
Proof. rewrite <- ex_add, aadd_comm, aadd_opp. apply ex_0. Qed.
Lemma ex_opp2 a : mul (ex T (aopp a)) (ex T (aadd a a)) = ex T a.
Proof. rewrite ex_add. transitivity (mul (mul (ex T (aopp a)) (ex T a)) (ex T a)); [ring|]. rewrite ex_opp. ring. Qed.
Lemma aopp_add a b : aopp (aadd a b) = aadd (aopp a) (aopp b).
Proof.
  assert (U : forall x y z : ang T, aadd x y = a0 -> aadd x z = a0 -> y = z).
  { intros x y z Hy Hz. rewrite <- (aadd_0 R T y), <- Hz, aadd_assoc, (aadd_comm R T y x), Hy, aadd_comm, aadd_0. reflexivity. }
  apply (U (aadd a b)); [apply aadd_opp|]. rewrite <- aadd_assoc, (aadd_assoc R T b), (aadd_comm R T b), <- (aadd_assoc R T (aopp a)), aadd_opp, aadd_0. apply aadd_opp.
Qed.
Lemma aopp_0 : aopp a0 = a0 :> ang T.
Proof. rewrite <- (aadd_0 R T (aopp a0)), aadd_comm. apply aadd_opp. Qed.

(** ** all strings of length 1, 2, 3 *)
Lemma meq_1 (m m' : mat R) : (forall a b : bool, m [a] [b] = m' [a] [b]) -> meq 1 m m'.
Proof. intros H [|x [|? ?]] [|y [|? ?]]; try discriminate. intros _ _. apply H. Qed.
Lemma meq_2 (m m' : mat R) : (forall a a' b b' : bool, m [a; a'] [b; b'] = m' [a; a'] [b; b']) -> meq 2 m m'.
Proof. intros H [|x [|x' [|? ?]]] [|y [|y' [|? ?]]]; try discriminate. intros _ _. apply H. Qed.
Lemma meq_3 (m m' : mat R) : (forall a a' a'' b b' b'' : bool, m [a; a'; a''] [b; b'; b''] = m' [a; a'; a''] [b; b'; b'']) -> meq 3 m m'.
Proof. intros H [|x [|x' [|x'' [|? ?]]]] [|y [|y' [|y'' [|? ?]]]]; try discriminate. intros _ _. apply H. Qed.
Lemma meq_trans k (a b c : mat R) : meq k a b -> meq k b c -> meq k a c.
Proof. intros H H' r s Lr Ls. rewrite H by assumption. apply H'; assumption. Qed.
Lemma mthen_ext k (a a' b b' : mat R) : meq k a a' -> meq k b b' -> meq k (mthen k a b) (mthen k a' b').
Proof. intros Ha Hb r c Lr Lc. unfold mthen. apply rsum_ext. intros z Hz. apply strings_In in Hz. rewrite Ha, Hb by assumption. reflexivity. Qed.
(** use the given meanings of the two gates *)
Lemma by_name k (a a' b b' g : mat R) : meq k a a' -> meq k b b' -> meq k (mthen k a' b') g -> meq k (mthen k a b) g.
Proof. intros Ha Hb H. apply (meq_trans k _ _ _ (mthen_ext k _ _ _ _ Ha Hb) H). Qed.

(** ** rotations *)
Lemma rz_rz a b : meq 1 (mthen 1 (rzm T a) (rzm T b)) (rzm T (aadd a b)).
Proof. apply meq_1. intros [] []; cbn; rewrite ?aopp_add, ?ex_add; ring. Qed.
Lemma p_p a b : meq 1 (mthen 1 (pm T a) (pm T b)) (pm T (aadd a b)).
Proof. apply meq_1. intros [] []; cbn; rewrite ?ex_add; ring. Qed.
Lemma rz_p a b : meq 1 (mthen 1 (rzm T a) (pm T b)) (mscale (ex T (aopp a)) (pm T (aadd a b))).
Proof.
  apply meq_1. intros [] []; unfold mscale; cbn; rewrite ?ex_add; try ring.
  transitivity (mul (mul (mul (ex T (aopp a)) (ex T a)) (ex T a)) (mul (ex T b) (ex T b))); [rewrite ex_opp|]; ring.
Qed.
Lemma p_rz a b : meq 1 (mthen 1 (pm T a) (rzm T b)) (mscale (ex T (aopp b)) (pm T (aadd a b))).
Proof.
  apply meq_1. intros [] []; unfold mscale; cbn; rewrite ?ex_add; try ring.
  transitivity (mul (mul (mul (ex T (aopp b)) (ex T b)) (ex T b)) (mul (ex T a) (ex T a))); [rewrite ex_opp|]; ring.
Qed.
Lemma rx_rx a b : meq 1 (mthen 1 (rxm T a) (rxm T b)) (rxm T (aadd a b)).
Proof.
  apply meq_1. intros [] []; cbn; rewrite ?co_add, ?si_add; try ring;
  (transitivity (add (mul (co a) (co b)) (mul (mul (iu T) (iu T)) (mul (si a) (si b)))); [ring|rewrite iu_sq; ring]).
Qed.
Lemma ry_ry a b : meq 1 (mthen 1 (rym T a) (rym T b)) (rym T (aadd a b)).
Proof. apply meq_1. intros [] []; cbn; rewrite ?co_add, ?si_add; ring. Qed.
Lemma gp_gp a b : meq 1 (mthen 1 (gpm T a) (gpm T b)) (gpm T (aadd a b)).
Proof. apply meq_1. intros [] []; cbn; rewrite ?ex_add; ring. Qed.
Lemma rz_0 : meq 1 (rzm T a0) idm. Proof. apply meq_1. intros [] []; cbn; rewrite ?aopp_0, ?ex_0; reflexivity. Qed.
Lemma p_0 : meq 1 (pm T a0) idm. Proof. apply meq_1. intros [] []; cbn; rewrite ?aadd_0, ?ex_0; reflexivity. Qed.
Lemma rx_0 : meq 1 (rxm T a0) idm. Proof. apply meq_1. intros [] []; cbn; rewrite ?co_0, ?si_0; try reflexivity; ring. Qed.
Lemma ry_0 : meq 1 (rym T a0) idm. Proof. apply meq_1. intros [] []; cbn; rewrite ?co_0, ?si_0; try reflexivity; ring. Qed.
Lemma and_and cs : meq 3 (mthen 3 (andm (R := R) cs) (andm cs)) idm.
Proof. apply meq_3. intros x y z x' y' z'. destruct cs as [[] []], x, y, z, x', y', z'; cbn; ring. Qed.

(** ** swap with a neighbour *)
Lemma ap_cx01 (v : vec R) x y : ap cxm [0; 1] v [x; y] = v [x; xorb x y].
Proof. destruct x, y; unfold ap; cbn; ring. Qed.
Lemma ap_cx10 (v : vec R) x y : ap cxm [1; 0] v [x; y] = v [xorb x y; y].
Proof. destruct x, y; unfold ap; cbn; ring. Qed.
Lemma ap_d1 (v : vec R) p q x y : ap (m1 p zero zero q) [1] v [x; y] = mul (if y then q else p) (v [x; y]).
Proof. destruct x, y; unfold ap; cbn; ring. Qed.
Lemma ap_d0 (v : vec R) p q x y : ap (m1 p zero zero q) [0] v [x; y] = mul (if x then q else p) (v [x; y]).
Proof. destruct x, y; unfold ap; cbn; ring. Qed.
Lemma ap_h1 (v : vec R) x y : ap (hm T) [1] v [x; y] = mul (rh T) (add (v [x; false]) (if y then opp (v [x; true]) else v [x; true])).
Proof. destruct x, y; unfold ap; cbn; ring. Qed.
Lemma ap_h0 (v : vec R) x y : ap (hm T) [0] v [x; y] = mul (rh T) (add (v [false; y]) (if x then opp (v [true; y]) else v [true; y])).
Proof. destruct x, y; unfold ap; cbn; ring. Qed.
Lemma then_swap (m : mat R) x y x' y' : mthen 2 m swapm [x; y] [x'; y'] = m [y; x] [x'; y'].
Proof. unfold mthen. destruct x, y; cbn; ring. Qed.
Lemma swap_then (m : mat R) x y x' y' : mthen 2 swapm m [x; y] [x'; y'] = m [x; y] [y'; x'].
Proof. unfold mthen. destruct x', y'; cbn; ring. Qed.
Ltac gates := apply meq_2; intros x y x' y'; rewrite ?then_swap, ?swap_then; unfold cmat, crun, swap_rzz, swap_cp, phalf, rzm; cbn [fold_left fst snd];
  repeat (rewrite ?ap_cx01, ?ap_cx10, ?ap_d1, ?ap_d0, ?ap_h1, ?ap_h0).
Lemma swap_cx : meq 2 (mthen 2 swapm cxm) (cmat (R := R) [(cxm, [0; 1]); (cxm, [1; 0])]).
Proof. gates. destruct x, y, x', y'; reflexivity. Qed.
Lemma cx_swap : meq 2 (mthen 2 cxm swapm) (cmat (R := R) [(cxm, [1; 0]); (cxm, [0; 1])]).
Proof. gates. destruct x, y, x', y'; reflexivity. Qed.
Lemma swap_rzz_ok a : meq 2 (mthen 2 swapm (rzzm T a)) (cmat (swap_rzz T a)).
Proof. gates. destruct x, y, x', y'; cbn; ring. Qed.
Lemma rzz_swap_ok a : meq 2 (mthen 2 (rzzm T a) swapm) (cmat (swap_rzz T a)).
Proof. gates. destruct x, y, x', y'; cbn; ring. Qed.
Lemma swap_cp_ok a : meq 2 (mthen 2 swapm (cpm T a)) (cmat (swap_cp T a)).
Proof. assert (H := ex_opp a). gates. unfold cpm. rewrite ex_add. destruct x, y, x', y'; cbn; ring [H]. Qed.
Lemma cp_swap_ok a : meq 2 (mthen 2 (cpm T a) swapm) (cmat (swap_cp T a)).
Proof. assert (H := ex_opp a). gates. unfold cpm. rewrite ex_add. destruct x, y, x', y'; cbn; ring [H]. Qed.
Lemma cz_swap_ok : meq 2 (mthen 2 czm swapm) (cmat [(hm T, [1]); (cxm, [1; 0]); (cxm, [0; 1]); (hm T, [0])]).
Proof.
  assert (H := rh_sq R T). gates.
  destruct x, y, x', y'; cbn; try ring;
  first [transitivity (mul (add one one) (mul (rh T) (rh T))); [rewrite H; reflexivity|ring] | transitivity (opp (mul (add one one) (mul (rh T) (rh T)))); [rewrite H; reflexivity|ring]].
Qed.
End rules.
