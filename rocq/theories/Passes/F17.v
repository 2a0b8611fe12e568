(** The field with 17 elements, as amplitudes for concrete examples: it has an imaginary unit (4), 1/sqrt 2 (14) and eighth roots of unity. *)
From Coq Require Import ZArith Lia Eqdep_dec Bool Ring_theory.
From Verif.Passes Require Import FuseModel.
Local Open Scope Z_scope.
Definition F17 : Type := {z : Z | (z mod 17 =? z) = true}.
Lemma red_ok z : ((z mod 17) mod 17 =? z mod 17) = true. Proof. rewrite Z.mod_mod by lia. apply Z.eqb_refl. Qed.
Definition red (z : Z) : F17 := exist _ (z mod 17) (red_ok z).
Lemma F17_eq (a b : F17) : proj1_sig a = proj1_sig b -> a = b.
Proof. destruct a as [x Hx], b as [y Hy]. cbn. intros ->. f_equal. apply UIP_dec. apply bool_dec. Qed.
Lemma F17_red (a : F17) : red (proj1_sig a) = a. Proof. apply F17_eq. cbn. destruct a as [x Hx]. cbn. apply Z.eqb_eq, Hx. Qed.
Lemma red_eq x y : (exists k, x = y + k * 17) -> red x = red y.
Proof. intros [k ->]. apply F17_eq. cbn. apply Z_mod_plus_full. Qed.
Lemma red_mod x : exists k, proj1_sig (red x) = x + k * 17.
Proof. exists (- (x / 17)). cbn. assert (H := Z.div_mod x 17 ltac:(lia)). lia. Qed.
Definition fadd (a b : F17) := red (proj1_sig a + proj1_sig b).
Definition fmul (a b : F17) := red (proj1_sig a * proj1_sig b).
Definition fsub (a b : F17) := red (proj1_sig a - proj1_sig b).
Definition fopp (a : F17) := red (- proj1_sig a).
Lemma fadd_red x y : fadd (red x) (red y) = red (x + y).
Proof. unfold fadd. destruct (red_mod x) as [j ->], (red_mod y) as [k ->]. apply red_eq. exists (j + k). ring. Qed.
Lemma fmul_red x y : fmul (red x) (red y) = red (x * y).
Proof. unfold fmul. destruct (red_mod x) as [j ->], (red_mod y) as [k ->]. apply red_eq. exists (j * y + k * x + j * k * 17). ring. Qed.
Lemma fsub_red x y : fsub (red x) (red y) = red (x - y).
Proof. unfold fsub. destruct (red_mod x) as [j ->], (red_mod y) as [k ->]. apply red_eq. exists (j - k). ring. Qed.
Lemma fopp_red x : fopp (red x) = red (- x).
Proof. unfold fopp. destruct (red_mod x) as [j ->]. apply red_eq. exists (- j). ring. Qed.
Ltac toZ := intros; repeat match goal with a : F17 |- _ => rewrite <- (F17_red a); generalize (proj1_sig a); clear a; intros a end; rewrite ?fadd_red, ?fmul_red, ?fsub_red, ?fopp_red; repeat rewrite ?fadd_red, ?fmul_red; f_equal; ring.
Lemma F17_ring : ring_theory (red 0) (red 1) fadd fmul fsub fopp eq.
Proof.
  constructor.
  - intros x. rewrite <- (F17_red x). rewrite fadd_red. f_equal.
  - intros x y. unfold fadd. f_equal. ring.
  - intros x y z. rewrite <- (F17_red x), <- (F17_red y), <- (F17_red z), !fadd_red. f_equal. ring.
  - intros x. rewrite <- (F17_red x), fmul_red. f_equal. ring.
  - intros x y. unfold fmul. f_equal. ring.
  - intros x y z. rewrite <- (F17_red x), <- (F17_red y), <- (F17_red z), !fmul_red. f_equal. ring.
  - intros x y z. rewrite <- (F17_red x), <- (F17_red y), <- (F17_red z), !fadd_red, !fmul_red, fadd_red. f_equal. ring.
  - intros x y. rewrite <- (F17_red x), <- (F17_red y), fsub_red, fopp_red, fadd_red. f_equal.
  - intros x. rewrite <- (F17_red x), fopp_red, fadd_red. f_equal. ring.
Qed.
Definition R17 : comring := {| car := F17; zero := red 0; one := red 1; add := fadd; mul := fmul; sub := fsub; opp := fopp; laws := F17_ring |}.
(** angles in units of pi/4 *)
Definition cos8 (k : Z) : Z := match k with 0 => 1 | 1 => 14 | 2 => 0 | 3 => -14 | 4 => -1 | 5 => -14 | 6 => 0 | _ => 14 end.
Definition f_co (k : Z) : R17 := red (cos8 (k mod 8)).
Definition f_si (k : Z) : R17 := red (cos8 ((k - 2) mod 8)).
Lemma mod8_cases k : In (k mod 8) [0; 1; 2; 3; 4; 5; 6; 7].
Proof. assert (H := Z.mod_pos_bound k 8 ltac:(lia)). cbn. lia. Qed.
Lemma mod8_split k : exists j r, k = r + j * 8 /\ In r [0; 1; 2; 3; 4; 5; 6; 7].
Proof. exists (k / 8), (k mod 8). split; [assert (H := Z.div_mod k 8 ltac:(lia)); lia|apply mod8_cases]. Qed.
Ltac fin8 H := cbn [In] in H; repeat (destruct H as [<-|H]); try destruct H.
Lemma f_co_add a b : f_co (a + b) = fsub (fmul (f_co a) (f_co b)) (fmul (f_si a) (f_si b)).
Proof.
  destruct (mod8_split a) as (j & r & -> & Hr), (mod8_split b) as (k & s & -> & Hs). unfold f_co, f_si.
  replace (r + j * 8 + (s + k * 8)) with (r + s + (j + k) * 8) by ring. replace (r + j * 8 - 2) with (r - 2 + j * 8) by ring. replace (s + k * 8 - 2) with (s - 2 + k * 8) by ring. rewrite !Z_mod_plus_full.
  rewrite !fmul_red, fsub_red. apply F17_eq. fin8 Hr; fin8 Hs; reflexivity.
Qed.
Lemma f_si_add a b : f_si (a + b) = fadd (fmul (f_si a) (f_co b)) (fmul (f_co a) (f_si b)).
Proof.
  destruct (mod8_split a) as (j & r & -> & Hr), (mod8_split b) as (k & s & -> & Hs). unfold f_co, f_si.
  replace (r + j * 8 + (s + k * 8) - 2) with (r + s - 2 + (j + k) * 8) by ring. replace (r + j * 8 - 2) with (r - 2 + j * 8) by ring. replace (s + k * 8 - 2) with (s - 2 + k * 8) by ring. rewrite !Z_mod_plus_full.
  rewrite !fmul_red, fadd_red. apply F17_eq. fin8 Hr; fin8 Hs; reflexivity.
Qed.
Lemma f_co_opp a : f_co (- a) = f_co a.
Proof. destruct (mod8_split a) as (j & r & -> & Hr). unfold f_co. replace (- (r + j * 8)) with (- r + (- j) * 8) by ring. rewrite !Z_mod_plus_full. fin8 Hr; reflexivity. Qed.
Lemma f_si_opp a : f_si (- a) = fopp (f_si a).
Proof. destruct (mod8_split a) as (j & r & -> & Hr). unfold f_si. rewrite fopp_red. replace (- (r + j * 8) - 2) with (- r - 2 + (- j) * 8) by ring. replace (r + j * 8 - 2) with (r - 2 + j * 8) by ring. rewrite !Z_mod_plus_full. apply F17_eq. fin8 Hr; reflexivity. Qed.
Definition T17 : trig R17.
Proof.
  refine {| ang := Z; a0 := 0; aadd := Z.add; aopp := Z.opp; aeqb := Z.eqb; co := f_co; si := f_si; iu := red 4 : R17; rh := red 14 : R17 |}.
  - apply Z.eqb_eq.
  - apply Z.add_0_r.
  - apply Z.add_comm.
  - apply Z.add_assoc.
  - apply Z.add_opp_diag_r.
  - reflexivity.
  - reflexivity.
  - exact f_co_add.
  - exact f_si_add.
  - exact f_co_opp.
  - exact f_si_opp.
  - apply F17_eq. reflexivity.
  - apply F17_eq. reflexivity.
Defined.
