(** Property C74 (amplitude amplification). *)
From Coq Require Import Reals Lra List ZArith Bool Lia QArith Qcanon Ring_theory Ring.
Import ListNotations.
From Verif.Inverse Require Import InvModel InvSpec InvProofs.
From Verif.CtrlOps Require Import CtrlModel CtrlSpec CtrlProofs CtrlComplex.
From Verif.Fourier Require Import FourierModel FourierSpec RegProofs FourierProofs FourierFinal AdderProofs.
From Verif.Amplify Require Import AmpModel AmpSpec UnitaryProofs RefProofs AmpProofs Conj AmpComplex ReflectProperties.
Local Open Scope nat_scope.

(** One iteration, over any numbers with a conjugation: let psi = good + bad be the state that state_function prepares from 0 (the other
    qubits having any values), the oracle multiplying good with -1 and leaving bad alone, and let share = <good|good>. Then
    al good + be bad becomes ((1 - 2 share) al + 2 (1 - share) be) good + ((1 - 2 share) be - 2 share al) bad. *)
Theorem C74_iteration : forall (R : Type) rO rI radd rmul rsub ropp, ring_theory rO rI radd rmul rsub ropp eq -> forall (expi chalf shalf : Qc -> R) im,
  euler rO rI radd rmul ropp expi chalf shalf im -> forall conj, conjugation rI radd rmul ropp expi chalf shalf conj ->
  let run := run_circuit Qcplus rO rI radd rmul ropp expi chalf shalf im in
  forall N a u oracle c z good bad, let qs := chosen a None in
  amplitude_amplification a u oracle 1 None = Some c -> a <> [] -> Nat.odd (length (first_entry a)) = true ->
  NoDup qs -> (forall q, In q qs -> q < N) -> within N qs u -> within N qs oracle -> length z = N -> zero_on qs z = true ->
  tags rO rI radd rmul ropp expi chalf shalf im N oracle (run u (basis rO rI z)) good bad ->
  let share := inner rO radd rmul conj N good good in let two := radd rI rI in
  forall al be psi, (forall y, length y = N -> psi y = radd (rmul al (good y)) (rmul be (bad y))) ->
  forall x, length x = N -> run c psi x =
    radd (rmul (radd (rmul (rsub rI (rmul two share)) al) (rmul (rmul two (rsub rI share)) be)) (good x))
         (rmul (rsub (rmul (rsub rI (rmul two share)) be) (rmul (rmul two share) al)) (bad x)).
Proof.
  intros R rO rI radd rmul rsub ropp RT expi chalf shalf im EU conj CJ run N a u oracle c z good bad qs H NE OD ND B Wu Wo Lz Zz T share two al be psi E x L.
  unfold amplitude_amplification in H. destruct (reflection a (Some u) 1%Qc None) as [r|] eqn:HR; [|discriminate]. cbn [repeat concat] in H. rewrite app_nil_r in H. injection H as <-.
  assert (Hv : exists v, invert_circuit u = Some v).
  { destruct (invert_circuit u) as [d|] eqn:D; [eauto|]. destruct a as [|a0 a']; [congruence|]. cbn beta iota delta [reflection] in HR. rewrite D in HR. destruct (reflected (a0 :: a') None); [|discriminate].
    destruct (split_last l) as [[]|]; [|discriminate]. destruct (phase_qubits (a0 :: a')); discriminate. }
  destruct Hv as [v Hv]. pose proof (entry_phase a (reflection_some _ _ _ _ _ HR NE)) as HP.
  unfold run. rewrite (AmpProofs.step rO rI radd rmul rsub ropp RT expi chalf shalf im EU conj CJ N a u oracle r v _ z HR NE HP Hv ND B Wu Wo Lz Zz good bad T al be psi x L E).
  rewrite (phase_odd rO rI radd rmul rsub ropp RT), Nat.even_succ, OD. fold share two. destruct RT. rewrite !Rmul_1_l. reflexivity.
Qed.

(** Over the complex numbers, with share = (sin theta)^2: after state_function and j iterations the state is al good + be bad, with
    al = sin((2 j + 1) theta) / sin theta and be = cos((2 j + 1) theta) / cos theta (if these divisions make sense). *)
Theorem C74_rotation : forall N a u oracle j c z theta good bad, let qs := chosen a None in
  amplitude_amplification a u oracle j None = Some c -> a <> [] -> Nat.odd (length (first_entry a)) = true ->
  NoDup qs -> (forall q, In q qs -> q < N) -> within N qs u -> within N qs oracle -> length z = N -> zero_on qs z = true ->
  ctags N oracle (crun u (cbasis z)) good bad -> cinner N good good = ((sin theta * sin theta)%R, 0%R) ->
  exists al be : R, (sin theta * al = sin (INR (2 * j + 1) * theta))%R /\ (cos theta * be = cos (INR (2 * j + 1) * theta))%R /\
  forall x, length x = N -> crun (u ++ c) (cbasis z) x = cadd (cmul (al, 0%R) (good x)) (cmul (be, 0%R) (bad x)).
Proof.
  intros N a u oracle j c z theta good bad qs H NE OD ND B Wu Wo Lz Zz T HS. unfold amplitude_amplification in H. destruct j as [|j].
  - injection H as <-. exists 1%R, 1%R. cbn [Nat.mul Nat.add INR]. rewrite !Rmult_1_l, !Rmult_1_r. split; [reflexivity|]. split; [reflexivity|]. intros x L. rewrite app_nil_r, (proj1 (T x L)).
    unfold cadd, cmul. cbn. f_equal; ring.
  - destruct (reflection a (Some u) 1%Qc None) as [r|] eqn:HR; [|discriminate]. injection H as <-.
    destruct (rotation N a u oracle r z HR NE ND B Wu Wo Lz Zz good bad T theta HS ltac:(rewrite OD; reflexivity) (S j)) as (al & be & HA & HB & E).
    exists al, be. split; [exact HA|]. split; [exact HB|]. intros x L. rewrite (FourierProofs.run_app c0 c1 cadd cmul copp cexpi ccos csin ci). apply E, L.
Qed.
(** There is such an angle. *)
Theorem C74_angle : forall N a u oracle z good bad, let qs := chosen a None in
  within N qs u -> within N qs oracle -> length z = N -> ctags N oracle (crun u (cbasis z)) good bad ->
  exists theta, (0 <= theta <= PI / 2)%R /\ cinner N good good = ((sin theta * sin theta)%R, 0%R).
Proof.
  intros N a u oracle z good bad qs Wu Wo Lz T. destruct (norm_real N good) as (s & P & E). destruct (norm_real N bad) as (t & P' & E').
  pose proof (bad_bad c0 c1 cadd cmul csub copp complex_ring cexpi ccos csin ci complex_euler cconj complex_conjugation N a u oracle z Wu Wo Lz good bad T) as BB.
  rewrite E', E, <- re_1, <- re_sub in BB. unfold re in BB. injection BB as BB. assert (S1 : (s <= 1)%R) by lra.
  assert (Q : (-1 <= sqrt s <= 1)%R) by (split; [pose proof (sqrt_pos s); lra|rewrite <- sqrt_1; apply sqrt_le_1; lra]). exists (asin (sqrt s)). split.
  - pose proof (asin_bound (sqrt s)) as AB. split; [|apply AB]. destruct (Rlt_le_dec (asin (sqrt s)) 0) as [C|C]; [|exact C]. exfalso.
    pose proof PI_RGT_0. pose proof (sin_lt_0_var (asin (sqrt s)) ltac:(lra) C) as SN. rewrite sin_asin in SN by exact Q. pose proof (sqrt_pos s). lra.
  - rewrite sin_asin by exact Q. rewrite sqrt_sqrt by exact P. exact E.
Qed.
(** The probability of the good part afterwards is (sin((2 j + 1) theta))^2. *)
Theorem C74_probability : forall N a u oracle j c z theta good bad good' bad', let qs := chosen a None in
  amplitude_amplification a u oracle j None = Some c -> a <> [] -> Nat.odd (length (first_entry a)) = true ->
  NoDup qs -> (forall q, In q qs -> q < N) -> within N qs u -> within N qs oracle -> length z = N -> zero_on qs z = true ->
  ctags N oracle (crun u (cbasis z)) good bad -> cinner N good good = ((sin theta * sin theta)%R, 0%R) ->
  ctags N oracle (crun (u ++ c) (cbasis z)) good' bad' ->
  cinner N good' good' = ((sin (INR (2 * j + 1) * theta) * sin (INR (2 * j + 1) * theta))%R, 0%R).
Proof.
  intros N a u oracle j c z theta good bad good' bad' qs H NE OD ND B Wu Wo Lz Zz T HS T'.
  destruct (C74_rotation N a u oracle j c z theta good bad H NE OD ND B Wu Wo Lz Zz T HS) as (al & be & HA & HB & E).
  assert (G : forall x, length x = N -> good' x = cadd (cmul (re al) (good x)) (cmul c0 (good x))).
  { intros x L. assert (EO : crun oracle (crun (u ++ c) (cbasis z)) x = cadd (cmul (re al) (crun oracle good x)) (cmul (re be) (crun oracle bad x))).
    { apply (RefProofs.run_lin c0 c1 cadd cmul csub copp complex_ring cexpi ccos csin ci) with (N := N); [apply Wo|exact L|exact E]. }
    assert (EO' : crun oracle (crun (u ++ c) (cbasis z)) x = cadd (cmul c1 (crun oracle good' x)) (cmul c1 (crun oracle bad' x))).
    { apply (RefProofs.run_lin c0 c1 cadd cmul csub copp complex_ring cexpi ccos csin ci) with (N := N); [apply Wo|exact L|]. intros y Ly. rewrite (proj1 (T' y Ly)). apply cplx_eq; cbn; ring. }
    destruct (T x L) as (_ & O1 & O2). destruct (T' x L) as (S' & O1' & O2'). rewrite O1, O2 in EO. rewrite O1', O2', EO in EO'. rewrite (E x L) in S'. clear - S' EO'.
    destruct (good x) as [g1 g2], (bad x) as [b1 b2], (good' x) as [g1' g2'], (bad' x) as [b1' b2']. unfold cadd, cmul, copp, c0, c1, re in *. cbn in *.
    injection S' as A1 A2. injection EO' as A3 A4. f_equal; lra. }
  rewrite (inner_lin_r c0 c1 cadd cmul csub copp complex_ring cconj N (re al) c0 good' good good good' G).
  rewrite (inner_lin_l c0 c1 cadd cmul csub copp complex_ring cexpi ccos csin cconj complex_conjugation N (re al) c0 good good good good' G), HS, conj_re.
  rewrite (cj_0 c0 c1 cadd cmul csub copp complex_ring cexpi ccos csin cconj complex_conjugation). rewrite <- HA. apply cplx_eq; cbn; ring.
Qed.
Print Assumptions C74_iteration.
Print Assumptions C74_rotation.
Print Assumptions C74_angle.
Print Assumptions C74_probability.

(** ** example: Grover's algorithm on two qubits, the oracle marks 11 *)
Definition uniform : body := [qH 0; qH 1].
Definition mark : body := [qCZ 0 1].
Definition sup : cplx := cmul (FourierProofs.rt ccos) (FourierProofs.rt ccos).
Definition marked (x : list bool) : bool := (getbit x 0 && getbit x 1)%bool.
Definition grover_good (x : list bool) : cplx := if marked x then sup else c0.
Definition grover_bad (x : list bool) : cplx := if marked x then c0 else sup.
Lemma uniform_state x : length x = 2 -> crun uniform (cbasis [false; false]) x = sup.
Proof.
  intros L. destruct x as [|a [|b [|]]]; try discriminate L. unfold uniform, qH. rewrite !(FourierProofs.run_cons c0 c1 cadd cmul copp cexpi ccos csin ci). unfold run_circuit. cbn [fold_left].
  rewrite !(FourierProofs.run_h c0 c1 cadd cmul csub copp complex_ring cexpi ccos csin ci complex_euler). unfold basis, sup. cbn [setbit bits_eqb Bool.eqb andb getbit nth]. ring.
Qed.
Lemma mark_run psi x : crun mark psi x = if marked x then copp (psi x) else psi x.
Proof.
  unfold mark. rewrite (AdderProofs.diag_cz c0 c1 cadd cmul csub copp complex_ring cexpi ccos csin ci complex_euler (length x) 0 1 psi x eq_refl). unfold marked.
  destruct (getbit x 0), (getbit x 1); cbn [b2q andb]; [replace (1 * 1)%Qc with 1%Qc by reflexivity|replace (1 * 0)%Qc with 0%Qc by reflexivity|replace (0 * 1)%Qc with 0%Qc by reflexivity|replace (0 * 0)%Qc with 0%Qc by reflexivity];
    rewrite ?(CtrlProofs.e_1 c0 c1 cadd cmul copp cexpi ccos csin ci complex_euler), ?(CtrlProofs.e_0 c0 c1 cadd cmul copp cexpi ccos csin ci complex_euler); ring.
Qed.
Lemma sup_value : sup = ((1 / 2)%R, 0%R).
Proof.
  pose proof (FourierProofs.rt_2 c0 c1 cadd cmul csub copp complex_ring cexpi ccos csin ci complex_euler) as H. fold sup in H. destruct sup as [a b]. unfold cadd, c1 in H. cbn in H. injection H as H1 H2. f_equal; lra.
Qed.
Example C74_hypotheses : (exists c, amplitude_amplification [Variable_ [0; 1]] uniform mark 1 None = Some c) /\ within 2 [0; 1] uniform /\ within 2 [0; 1] mark /\
  ctags 2 mark (crun uniform (cbasis [false; false])) grover_good grover_bad /\ cinner 2 grover_good grover_good = ((sin (PI / 6) * sin (PI / 6))%R, 0%R).
Proof.
  split; [eexists; reflexivity|]. split; [split; [apply (wf_app 2 [qH 0] [qH 1]); apply wf_h; lia|intros o l q [E|[E|[]]] I; injection E as <- <-; cbn in *; lia]|].
  split; [split; [apply (FourierFinal.wf_2 2); [repeat constructor|reflexivity|lia|lia|lia]|intros o l q [E|[]] I; injection E as <- <-; cbn in *; lia]|]. split.
  - intros x L. rewrite uniform_state by exact L. rewrite !mark_run. unfold grover_good, grover_bad. destruct (marked x); (split; [ring|split; ring || reflexivity]).
  - unfold inner. cbn [all_bits map app total fold_right]. unfold grover_good, marked. cbn [getbit nth andb]. rewrite sin_PI6, sup_value. unfold cadd, cmul, cconj, c0. cbn. f_equal; field.
Qed.
(** one iteration finds 11 with certainty *)
Example C74_example : forall c good' bad', amplitude_amplification [Variable_ [0; 1]] uniform mark 1 None = Some c ->
  ctags 2 mark (crun (uniform ++ c) (cbasis [false; false])) good' bad' -> cinner 2 good' good' = c1.
Proof.
  intros c good' bad' H T'. destruct C74_hypotheses as (_ & Wu & Wo & T & HS).
  rewrite (C74_probability 2 [Variable_ [0; 1]] uniform mark 1 c [false; false] (PI / 6) grover_good grover_bad good' bad' H ltac:(discriminate) eq_refl ltac:(repeat constructor; cbn; lia) ltac:(intros q I; cbn in I; lia) Wu Wo eq_refl eq_refl T HS T').
  replace (INR (2 * 1 + 1) * (PI / 6))%R with (PI / 2)%R by (cbn; field). rewrite sin_PI2. unfold c1. f_equal; ring.
Qed.
