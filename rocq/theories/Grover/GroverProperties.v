(** Property C77 (tagging states, Grover's algorithm). *)
From Coq Require Import Reals Lra List ZArith Bool Lia QArith Qcanon Ring_theory Ring.
Import ListNotations.
From Verif.Inverse Require Import InvModel InvSpec InvProofs.
From Verif.CtrlOps Require Import CtrlModel CtrlSpec CtrlProofs CtrlComplex.
From Verif.Fourier Require Import FourierModel FourierSpec RegProofs FourierProofs FourierFinal AdderProofs.
From Verif.Amplify Require Import AmpModel AmpSpec UnitaryProofs RefProofs AmpProofs Conj AmpComplex ReflectProperties.
From Verif.Grover Require Import GroverModel GroverSpec TagProofs GroverProofs GroverReal GroverExact.
Local Open Scope nat_scope.
Add Ring complex_numbers_p : complex_ring.

(** tag_state multiplies the amplitude of a basis state with exp(i phase) if every variable of the dictionary has its value there, and
    leaves the other amplitudes alone: any registers, values and phases, any state of any number of qubits. *)
Theorem C77_tag_state : forall (R : Type) rO rI radd rmul rsub ropp, ring_theory rO rI radd rmul rsub ropp eq -> forall (expi chalf shalf : Qc -> R) im,
  euler rO rI radd rmul ropp expi chalf shalf im -> forall d phase c, tag_state d phase = Some c -> (forall e, In e d -> fits e) ->
  forall x, register (concat (map fst d)) x -> forall psi, let run := run_circuit Qcplus rO rI radd rmul ropp expi chalf shalf im in
  (tagged d x -> run c psi x = rmul (expi phase) (psi x)) /\ (~ tagged d x -> run c psi x = psi x).
Proof.
  intros R rO rI radd rmul rsub ropp RT expi chalf shalf im EU d phase c H F x Rg psi run. destruct (tag_string_fit d F) as (s & Es & Ls & Hs).
  unfold run. rewrite (run_tag rO rI radd rmul rsub ropp RT expi chalf shalf im EU d phase c s psi x H Es Ls Rg). destruct (bits_eqb _ s) eqn:E.
  - apply bits_eqb_eq in E. split; [reflexivity|]. intros N. exfalso. apply N, Hs, E.
  - split; [|reflexivity]. intros T. apply Hs in T. apply bits_eqb_eq in T. congruence.
Qed.
(** It is defined for values that fit, if there is a qubit at all. *)
Theorem C77_tag_defined : forall d phase, (forall e, In e d -> fits e) -> concat (map fst d) <> [] -> tag_state d phase <> None.
Proof.
  intros d phase F NE. destruct (tag_string_fit d F) as (s & Es & Ls & _). unfold tag_state. rewrite Es. destruct (split_last (concat (map fst d))) as [[front last]|] eqn:ES; [|apply split_last_none in ES; contradiction].
  apply split_last_eq in ES. rewrite ES, app_length in Ls. cbn [length] in Ls. destruct (rev s) as [|b t] eqn:Er; [apply (f_equal (@length bool)) in Er; rewrite rev_length in Er; cbn in Er; lia|].
  assert (Lt : length (rev t) = length front). { apply (f_equal (@length bool)) in Er. rewrite rev_length in Er. cbn [length] in Er. rewrite rev_length. lia. }
  unfold tag_gate. apply Nat.eqb_eq in Lt. rewrite Lt. destruct (Qc_eq_bool phase 1), front; discriminate.
Qed.
(** A number that the register cannot hold is refused, whatever the other entries are. *)
Theorem C77_tag_refuses : forall d reg n phase, In (reg, Code n) d -> ~ (0 <= n < 2 ^ Z.of_nat (length reg))%Z -> tag_state d phase = None.
Proof.
  intros d reg n phase I NF. assert (E : tag_string d = None).
  { induction d as [|[r t] d IH]; [destruct I|]. cbn [tag_string]. destruct I as [E|I].
    - injection E as -> ->. cbn [tag_bits]. unfold bin_rep_reversed. destruct (Z.ltb_spec n 0); [reflexivity|]. destruct (Z.leb_spec (2 ^ Z.of_nat (length reg)) n); [reflexivity|lia].
    - rewrite (IH I). destruct (tag_bits r t); reflexivity. }
  unfold tag_state. rewrite E. reflexivity.
Qed.

(** The amplitudes after k iterations, from qubits that are 0 (the other qubits having any values z), for an oracle that multiplies the
    winners with -1: with M winners among the 2^m values of the m qubits and sin theta = sqrt(M / 2^m), a winner has the amplitude
    sin((2k+1) theta) / sqrt M and a loser cos((2k+1) theta) / sqrt(2^m - M), up to one sign for all of them. *)
Theorem C77_amplitudes : forall N a oracle w z k c theta, let qs := chosen a None in let M := winners w z qs in let m := length qs in
  grovers_alg a oracle k 1%Qc = Some c -> a <> [] -> NoDup qs -> (forall q, In q qs -> q < N) -> within N qs oracle ->
  (forall psi x, length x = N -> crun oracle psi x = if w x then copp (psi x) else psi x) ->
  length z = N -> zero_on qs z = true -> sin theta = sqrt (INR M / INR (2 ^ m)) -> (0 <= cos theta)%R ->
  exists s : R, (s = 1 \/ s = -1)%R /\
  (forall b, length b = m -> let amplitude := crun c (cbasis z) (write z qs b) in
     if w (write z qs b) then cmul (sqrt (INR M), 0%R) amplitude = ((s * sin (INR (2 * k + 1) * theta))%R, 0%R)
     else cmul (sqrt (INR (2 ^ m) - INR M), 0%R) amplitude = ((s * cos (INR (2 * k + 1) * theta))%R, 0%R)) /\
  (forall x, length x = N -> write x qs (read z qs) <> z -> crun c (cbasis z) x = c0).
Proof.
  intros N a oracle w z k c theta qs M m H NE ND B Wo OR Lz Zz HT HC.
  pose proof (inr_pos m) as NP. assert (M0 : (0 <= INR M)%R) by apply pos_INR. assert (D0 : (0 <= INR M / INR (2 ^ m))%R) by (apply Rmult_le_pos; [exact M0|apply Rlt_le, Rinv_0_lt_compat, NP]).
  assert (HT2 : (sin theta * sin theta = INR M / INR (2 ^ m))%R) by (rewrite HT; apply sqrt_sqrt, D0).
  destruct (grover_state N a oracle w z NE ND B Wo OR Lz Zz k c H theta HT2) as (s & al & be & S1 & HA & HB & E). exists s. split; [exact S1|].
  assert (ROOT : (0 < root ^ m)%R) by (apply pow_lt, root_pos). assert (RQ : (root ^ m = / sqrt (INR (2 ^ m)))%R).
  { apply Rsqr_inj; [lra|apply Rlt_le, Rinv_0_lt_compat, sqrt_lt_R0, NP|]. unfold Rsqr. rewrite root_pow, <- Rinv_mult, sqrt_sqrt by lra. reflexivity. }
  assert (MS : (sqrt (INR M) * root ^ m = sin theta)%R) by (rewrite RQ, HT; unfold Rdiv; rewrite sqrt_mult_alt by exact M0; rewrite <- sqrt_inv; reflexivity || (rewrite sqrt_inv; reflexivity)).
  assert (CS : (sqrt (INR (2 ^ m) - INR M) * root ^ m = cos theta)%R).
  { assert (C2 : (cos theta * cos theta = (INR (2 ^ m) - INR M) * / INR (2 ^ m))%R). { pose proof (sin2_cos2 theta) as T. unfold Rsqr in T. rewrite HT2 in T. transitivity (1 - INR M / INR (2 ^ m))%R; [lra|field; lra]. }
    assert (LE : (0 <= INR (2 ^ m) - INR M)%R). { assert (0 <= (INR (2 ^ m) - INR M) * / INR (2 ^ m))%R by (rewrite <- C2; nra). pose proof (Rinv_0_lt_compat _ NP). nra. }
    apply Rsqr_inj; [apply Rmult_le_pos; [apply sqrt_pos|lra]|exact HC|]. unfold Rsqr. rewrite C2, <- root_pow. rewrite <- (sqrt_sqrt (INR (2 ^ m) - INR M)) at 3 by exact LE. ring. }
  assert (Rz : register qs z) by (split; [exact ND|rewrite Lz; exact B]). split.
  - intros b Lb amplitude. unfold amplitude. rewrite E by (rewrite write_length; exact Lz). unfold good_part, bad_part. rewrite (Psi_val N a z ND B Lz Zz) by (rewrite write_length; exact Lz). fold qs m.
    assert (SO : same_off qs z (write z qs b) = true) by (unfold same_off; apply bits_eqb_eq; symmetry; apply write_write; rewrite ?repeat_length; auto). rewrite SO.
    destruct (w (write z qs b)).
    + rewrite <- HA, <- MS. apply cplx_eq; cbn; ring.
    + rewrite <- HB, <- CS. apply cplx_eq; cbn; ring.
  - intros x Lx NZ. rewrite E by exact Lx. unfold good_part, bad_part. rewrite (Psi_val N a z ND B Lz Zz x Lx). fold qs. destruct (same_off qs z x) eqn:SO; [|destruct (w x); ring].
    exfalso. apply NZ. unfold same_off in SO. apply bits_eqb_eq in SO. rewrite <- (write_write x qs (repeat false (length qs)) (read z qs)), <- SO, write_write, write_read by (rewrite ?repeat_length, ?read_length; auto). reflexivity.
Qed.
(** The probability of a winner is (sin((2k+1) theta))^2. *)
Theorem C77_probability : forall N a oracle w z k c theta, let qs := chosen a None in let M := winners w z qs in
  grovers_alg a oracle k 1%Qc = Some c -> a <> [] -> NoDup qs -> (forall q, In q qs -> q < N) -> within N qs oracle ->
  (forall psi x, length x = N -> crun oracle psi x = if w x then copp (psi x) else psi x) ->
  length z = N -> zero_on qs z = true -> (sin theta * sin theta = INR M / INR (2 ^ length qs))%R ->
  win_probability w (crun c (cbasis z)) z qs = (sin (INR (2 * k + 1) * theta) * sin (INR (2 * k + 1) * theta))%R.
Proof.
  intros N a oracle w z k c theta qs M H NE ND B Wo OR Lz Zz HT2. set (m := length qs) in *. pose proof (inr_pos m) as NP.
  destruct (grover_state N a oracle w z NE ND B Wo OR Lz Zz k c H theta HT2) as (s & al & be & S1 & HA & HB & E). assert (SS : (s * s = 1)%R) by (destruct S1; subst s; ring).
  assert (G : forall l, (forall b, In b l -> length b = m) -> fold_right (fun b acc => ((if w (write z qs b) then norm2 (crun c (cbasis z) (write z qs b)) else 0) + acc)%R) 0%R l =
    (INR (length (filter (fun b => w (write z qs b)) l)) * (al * al * / INR (2 ^ m)))%R).
  { induction l as [|b l IH]; intros Hl; [cbn; ring|]. cbn [fold_right filter]. rewrite IH by (intros; apply Hl; right; assumption). assert (Lb : length b = m) by (apply Hl; left; reflexivity).
    destruct (w (write z qs b)) eqn:W; [|cbn [length]; ring]. cbn [length]. rewrite S_INR. rewrite E by (rewrite write_length; exact Lz). unfold good_part, bad_part. rewrite W.
    rewrite (Psi_val N a z ND B Lz Zz) by (rewrite write_length; exact Lz). fold qs m.
    assert (SO : same_off qs z (write z qs b) = true) by (unfold same_off; apply bits_eqb_eq; symmetry; apply write_write; rewrite ?repeat_length; auto). rewrite SO.
    unfold norm2, cadd, cmul, re, c0. cbn [fst snd]. rewrite <- root_pow. transitivity ((s * s) * (al * al * (root ^ m * root ^ m)) + INR (length (filter (fun b => w (write z qs b)) l)) * (al * al * (root ^ m * root ^ m)))%R; [ring|]. rewrite SS. ring. }
  unfold win_probability. rewrite G by apply all_bits_length. fold m. rewrite <- HA. transitivity (INR M / INR (2 ^ m) * (al * al))%R; [unfold M, winners, Rdiv, m; ring|]. rewrite <- HT2. ring.
Qed.
(** With the default number of iterations and at most an eighth of the values winning, the probability of a winner is at least
    1 - 5 M / 2^m. *)
Theorem C77_default_success : forall N a oracle w z k c, let qs := chosen a None in let M := winners w z qs in
  grovers_alg a oracle k 1%Qc = Some c -> a <> [] -> NoDup qs -> (forall q, In q qs -> q < N) -> within N qs oracle ->
  (forall psi x, length x = N -> crun oracle psi x = if w x then copp (psi x) else psi x) ->
  length z = N -> zero_on qs z = true -> default_iterations (states_amount a) M k -> 0 < M -> 8 * M <= 2 ^ length qs ->
  (1 - 5 * (INR M / INR (2 ^ length qs)) <= win_probability w (crun c (cbasis z)) z qs)%R.
Proof.
  intros N a oracle w z k c qs M H NE ND B Wo OR Lz Zz DI HM H8. assert (SA : states_amount a = 2 ^ length qs).
  { unfold states_amount, qs, chosen. rewrite flattened_registers. f_equal. clear. induction (registers a) as [|r l IH]; [reflexivity|]. cbn. rewrite app_length. unfold list_sum in IH. rewrite IH. reflexivity. }
  rewrite SA in DI. set (m := length qs) in *. pose proof (inr_pos m) as NP. set (t := asin (sqrt (INR M / INR (2 ^ m)))).
  assert (D0 : (0 <= INR M / INR (2 ^ m))%R) by (apply Rmult_le_pos; [apply pos_INR|apply Rlt_le, Rinv_0_lt_compat, NP]).
  assert (D1 : (INR M / INR (2 ^ m) <= 1)%R). { apply Rmult_le_reg_r with (INR (2 ^ m)); [exact NP|]. unfold Rdiv. rewrite Rmult_assoc, Rinv_l, Rmult_1_r, Rmult_1_l by lra. apply le_INR. lia. }
  assert (Q : (0 <= sqrt (INR M / INR (2 ^ m)) <= 1)%R) by (split; [apply sqrt_pos|rewrite <- sqrt_1; apply sqrt_le_1; lra]).
  assert (ST : (sin t * sin t = INR M / INR (2 ^ m))%R) by (unfold t; rewrite sin_asin by lra; apply sqrt_sqrt, D0).
  assert (T : (0 <= t <= PI / 2)%R). { pose proof (asin_bound (sqrt (INR M / INR (2 ^ m)))) as AB. fold t in AB. split; [|apply AB]. destruct (Rlt_le_dec t 0) as [C|C]; [|exact C]. exfalso.
    pose proof PI_RGT_0. pose proof (sin_lt_0_var t ltac:(lra) C) as SN. unfold t in SN. rewrite sin_asin in SN by lra. lra. }
  pose proof (C77_probability N a oracle w z k c t H NE ND B Wo OR Lz Zz ST) as CP. cbv zeta in CP. fold qs in CP. rewrite CP. apply (default_success (2 ^ m) M k t HM H8 DI T ST).
Qed.
(** With three quarters of the values winning, the default number of iterations is 1 and the probability of a winner is 0. *)
Theorem C77_many_winners_refuted : forall N a oracle w z k c, let qs := chosen a None in let M := winners w z qs in
  grovers_alg a oracle k 1%Qc = Some c -> a <> [] -> NoDup qs -> (forall q, In q qs -> q < N) -> within N qs oracle ->
  (forall psi x, length x = N -> crun oracle psi x = if w x then copp (psi x) else psi x) ->
  length z = N -> zero_on qs z = true -> default_iterations (states_amount a) M k -> 4 * M = 3 * 2 ^ length qs ->
  win_probability w (crun c (cbasis z)) z qs = 0%R.
Proof.
  intros N a oracle w z k c qs M H NE ND B Wo OR Lz Zz DI HM. assert (SA : states_amount a = 2 ^ length qs).
  { unfold states_amount, qs, chosen. rewrite flattened_registers. f_equal. clear. induction (registers a) as [|r l IH]; [reflexivity|]. cbn. rewrite app_length. unfold list_sum in IH. rewrite IH. reflexivity. }
  rewrite SA in DI. set (m := length qs) in *. pose proof (inr_pos m) as NP. assert (X : exists n, 0 < n /\ 2 ^ m = 4 * n /\ M = 3 * n).
  { destruct m as [|[|j]]; [cbn in HM; lia|cbn in HM; lia|]. exists (2 ^ j). cbn [Nat.pow] in *. pose proof (Nat.pow_nonzero 2 j). lia. }
  destruct X as (n & Hn & E1 & E2). rewrite E1, E2 in DI. apply default_three_quarters in DI; [|exact Hn]. subst k. assert (PN : (0 < INR n)%R) by (apply lt_0_INR, Hn).
  assert (ST : (sin (PI / 3) * sin (PI / 3) = INR M / INR (2 ^ m))%R). { rewrite sin_PI3, E1, E2, !mult_INR. cbn [INR]. replace (sqrt 3 / 2 * (sqrt 3 / 2))%R with (sqrt 3 * sqrt 3 / 4)%R by field. rewrite sqrt_sqrt by lra. field. lra. }
  pose proof (C77_probability N a oracle w z 1 c (PI / 3) H NE ND B Wo OR Lz Zz ST) as CP. cbv zeta in CP. fold qs in CP. rewrite CP. cbn [Nat.mul Nat.add INR]. replace ((1 + 1 + 1) * (PI / 3))%R with PI by field. rewrite sin_PI. ring.
Qed.

(** The circuits with a phase are the ideal steps (the phase being a rational multiple of pi), for arguments that have all the qubits. *)
Theorem C77_circuit : forall m a oracle (w : list bool -> bool) phase k c, let qs := chosen a None in
  grovers_alg a oracle k phase = Some c -> a <> [] -> Nat.odd (length (first_entry a)) = true -> NoDup qs -> (forall q, In q qs <-> q < m) -> within m qs oracle ->
  (forall psi x, length x = m -> crun oracle psi x = if w x then cmul (cexpi phase) (psi x) else psi x) ->
  forall x, length x = m -> crun c (cbasis (repeat false m)) x = ideal_grover m w (PI * Q2R (this phase)) k x.
Proof.
  intros m a oracle w phase k c qs H NE OD ND B Wo OR. set (z := repeat false m). assert (Lz : length z = m) by apply repeat_length.
  assert (Zg : forall q, getbit z q = false) by (intros q; unfold getbit, z; apply nth_repeat). assert (Zz : zero_on qs z = true) by (apply zero_on_true; intros; apply Zg).
  assert (Bq : forall q, In q qs -> q < m) by (intros q I; apply B, I). assert (Lq : length qs = m).
  { transitivity (length (seq 0 m)); [|apply seq_length]. apply Nat.le_antisymm; apply NoDup_incl_length; try exact ND; try apply seq_NoDup; intros q I; [apply in_seq; apply B in I; lia|apply in_seq in I; apply B; lia]. }
  assert (PZ : forall x, length x = m -> store x qs 0 = z).
  { intros x L. rewrite store_zeros. apply nth_ext with (d := false) (d' := false); [rewrite write_length; lia|]. intros i Hi. rewrite write_length, L in Hi. unfold z. rewrite nth_repeat. fold (getbit (write x qs (repeat false (length qs))) i).
    assert (Ii : In i qs) by (apply B, Hi). pose proof (read_write x qs (repeat false (length qs)) ltac:(split; [exact ND|rewrite L; exact Bq]) (repeat_length _ _)) as RW. unfold read in RW.
    assert (EQ : In (getbit (write x qs (repeat false (length qs))) i) (repeat false (length qs))) by (rewrite <- RW at 2; apply in_map, Ii). apply repeat_spec in EQ. exact EQ. }
  assert (SO : forall x, length x = m -> same_off qs z x = true).
  { intros x L. unfold same_off. apply bits_eqb_eq. rewrite <- !store_zeros. rewrite (PZ x L), (PZ z Lz). reflexivity. }
  assert (UV : forall x, length x = m -> crun (h_all a) (cbasis z) x = uniform_state m x).
  { intros x L. rewrite h_all_eq. fold qs. rewrite (uniform m qs z x ND Bq Lz Zz L), SO by exact L. rewrite Lq. unfold uniform_state, re. f_equal. pose proof (inr_pos m). pose proof (pow_lt _ m root_pos).
    apply Rsqr_inj; [lra|apply Rlt_le, Rinv_0_lt_compat, sqrt_lt_R0; lra|]. unfold Rsqr. rewrite root_pow, <- Rinv_mult, sqrt_sqrt by lra. reflexivity. }
  unfold grovers_alg in H. destruct k as [|k']; [injection H as <-; intros x L; apply UV, L|]. destruct (diffuser a phase None None) as [r|] eqn:HD; [|discriminate].
  remember (S k') as j eqn:Ej. assert (Hc : c = h_all a ++ concat (repeat (oracle ++ r) j)) by congruence. subst c. clear H Ej. unfold diffuser in HD.
  assert (DIFF : forall psi x, length x = m -> crun r psi x = ideal_diffuser m (PI * Q2R (this phase)) psi x).
  { intros psi x L. pose proof (C73_state c0 c1 cadd cmul csub copp complex_ring cexpi ccos csin ci complex_euler cconj complex_conjugation m a (h_all a) phase None r HD NE OD ltac:(rewrite h_all_eq; apply h_within, Bq) ND Bq psi x L) as E. cbv zeta in E.
    fold qs in E. rewrite (PZ x L) in E. rewrite E. unfold ideal_diffuser. change (cis (PI * Q2R (this phase))) with (cexpi phase). rewrite UV by exact L.
    f_equal. f_equal. f_equal. unfold inner. apply total_ext. intros y I. apply all_bits_length in I. rewrite (UV y I). reflexivity. }
  rewrite (FourierProofs.run_app c0 c1 cadd cmul copp cexpi ccos csin ci). induction j as [|j IH]; intros x L; [apply UV, L|].
  rewrite repeat_end, !(FourierProofs.run_app c0 c1 cadd cmul copp cexpi ccos csin ci). rewrite DIFF by exact L. cbn [ideal_grover].
  assert (EXT : forall psi chi, (forall y, length y = m -> psi y = chi y) -> ideal_diffuser m (PI * Q2R (this phase)) psi x = ideal_diffuser m (PI * Q2R (this phase)) chi x).
  { intros psi chi E. unfold ideal_diffuser. rewrite (E x L). f_equal. f_equal. f_equal. unfold inner. apply total_ext. intros y I. apply all_bits_length in I. rewrite (E y I). reflexivity. }
  apply EXT. intros y Ly. rewrite OR by exact Ly. unfold ideal_oracle. rewrite (IH y Ly). reflexivity.
Qed.
(** The exact algorithm: with its number of iterations and its phase, every loser has the amplitude 0 and every winner the probability
    1 / M, for every number of qubits and every set of M > 0 winners. *)
Theorem C77_exact : forall m w k, let M := length (filter w (all_bits m)) in 0 < M -> exact_iterations (2 ^ m) M k ->
  let psi := ideal_grover m w (exact_phi (2 ^ m) M k) k in
  forall x, length x = m -> if w x then norm2 (psi x) = (/ INR M)%R else psi x = c0.
Proof.
  intros m w k M HM HK psi x L. destruct (w x) eqn:W; [apply exact_winners; assumption|apply exact_losers; assumption].
Qed.
(** Searching one state with tag_state as the oracle and the default number of iterations: on m >= 3 qubits the tagged state is measured
    with a probability of at least 1 - 5 / 2^m. *)
Theorem C77_search : forall N a d oracle z k c, let qs := chosen a None in let m := length qs in
  tag_state d 1%Qc = Some oracle -> (forall e, In e d -> fits e) -> concat (map fst d) = qs -> grovers_alg a oracle k 1%Qc = Some c ->
  a <> [] -> NoDup qs -> (forall q, In q qs -> q < N) -> length z = N -> zero_on qs z = true -> default_iterations (states_amount a) 1 k -> 3 <= m ->
  exists b, length b = m /\ tagged d (write z qs b) /\ (1 - 5 / INR (2 ^ m) <= norm2 (crun c (cbasis z) (write z qs b)))%R.
Proof.
  intros N a d oracle z k c qs m HO F EQ H NE ND B Lz Zz DI H3. destruct (tag_string_fit d F) as (s & Es & Ls & Hs). rewrite EQ in Ls, Hs. fold m in Ls.
  assert (Rz : register qs z) by (split; [exact ND|rewrite Lz; exact B]). set (w := fun x => bits_eqb (read x qs) s).
  assert (OR : forall psi x, length x = N -> crun oracle psi x = if w x then copp (psi x) else psi x).
  { intros psi x L. rewrite (run_tag c0 c1 cadd cmul csub copp complex_ring cexpi ccos csin ci complex_euler d 1%Qc oracle s psi x HO Es); [|rewrite EQ; exact Ls|rewrite EQ; split; [exact ND|rewrite L; exact B]].
    rewrite EQ, (CtrlProofs.e_1 c0 c1 cadd cmul copp cexpi ccos csin ci complex_euler). unfold w. destruct (bits_eqb _ s); ring. }
  assert (Wo : within N qs oracle) by (rewrite <- EQ in *; apply tag_within with (phase := 1%Qc); assumption).
  assert (M1 : winners w z qs = 1).
  { unfold winners. fold m. pose proof (total_count (all_bits m) (fun b => w (write z qs b)) 1) as T.
    rewrite (FourierProofs.total_pick c0 c1 cadd cmul csub copp complex_ring m s _ Ls) in T.
    - unfold w in T at 1. rewrite read_write in T by assumption. rewrite (proj2 (bits_eqb_eq s s) eq_refl) in T. unfold re in T. injection T as T. rewrite Rmult_1_r in T. apply INR_eq. rewrite <- T. reflexivity.
    - intros b Lb NB. unfold w. rewrite read_write by assumption. destruct (bits_eqb b s) eqn:E; [apply bits_eqb_eq in E; contradiction|reflexivity]. }
  assert (SA : states_amount a = 2 ^ m).
  { unfold states_amount, m, qs, chosen. rewrite flattened_registers. f_equal. clear. induction (registers a) as [|r l IH]; [reflexivity|]. cbn. rewrite app_length. unfold list_sum in IH. rewrite IH. reflexivity. }
  rewrite SA in DI. pose proof (inr_pos m) as NP. assert (H8 : 8 * 1 <= 2 ^ m) by (change (8 * 1) with (2 ^ 3); apply Nat.pow_le_mono_r; lia). assert (H8R : (8 <= INR (2 ^ m))%R) by (apply le_INR in H8; rewrite mult_INR in H8; cbn [INR] in H8; lra).
  assert (D0 : (0 <= INR 1 / INR (2 ^ m))%R) by (apply Rmult_le_pos; [apply pos_INR|apply Rlt_le, Rinv_0_lt_compat, NP]).
  assert (D1 : (INR 1 / INR (2 ^ m) <= 1)%R) by (apply Rmult_le_reg_r with (INR (2 ^ m)); [exact NP|]; unfold Rdiv; rewrite Rmult_assoc, Rinv_l, Rmult_1_r, Rmult_1_l by lra; cbn [INR]; lra).
  set (v := sqrt (INR 1 / INR (2 ^ m))). assert (Q : (0 <= v <= 1)%R) by (unfold v; split; [apply sqrt_pos|rewrite <- sqrt_1; apply sqrt_le_1; lra]).
  set (t := asin v). assert (ST : sin t = v) by (unfold t; apply sin_asin; lra).
  assert (T : (0 <= t <= PI / 2)%R). { pose proof (asin_bound v) as AB. fold t in AB. split; [|apply AB]. destruct (Rlt_le_dec t 0) as [C|C]; [|exact C]. exfalso. pose proof PI_RGT_0. pose proof (sin_lt_0_var t ltac:(lra) C). lra. }
  assert (CT : (0 <= cos t)%R) by (apply cos_ge_0; pose proof PI_RGT_0; lra).
  destruct (C77_amplitudes N a oracle w z k c t H NE ND B Wo OR Lz Zz ltac:(fold qs; rewrite M1; exact ST) CT) as (sg & SG & AMP & _). fold qs in AMP. fold m in AMP. rewrite M1 in AMP.
  exists s. split; [exact Ls|]. split; [apply Hs, read_write; assumption|]. specialize (AMP s Ls). cbv zeta in AMP. unfold w in AMP at 1. rewrite read_write in AMP by assumption. rewrite (proj2 (bits_eqb_eq s s) eq_refl) in AMP.
  set (amp := crun c (cbasis z) (write z qs s)) in *. cbn [INR] in AMP. rewrite sqrt_1 in AMP. assert (EA : amp = ((sg * sin (INR (2 * k + 1) * t))%R, 0%R)) by (rewrite <- AMP; apply cplx_eq; cbn; ring).
  rewrite EA. unfold norm2. cbn [fst snd]. assert (SS : (sg * sg = 1)%R) by (destruct SG; subst sg; ring).
  replace (sg * sin (INR (2 * k + 1) * t) * (sg * sin (INR (2 * k + 1) * t)) + 0 * 0)%R with (sin (INR (2 * k + 1) * t) * sin (INR (2 * k + 1) * t))%R by (transitivity ((sg * sg) * (sin (INR (2 * k + 1) * t) * sin (INR (2 * k + 1) * t)))%R; [rewrite SS; ring|ring]).
  replace (5 / INR (2 ^ m))%R with (5 * (INR 1 / INR (2 ^ m)))%R by (cbn [INR]; field; lra). apply (default_success (2 ^ m) 1 k t); [lia|exact H8|exact DI|exact T|rewrite ST; apply sqrt_sqrt, D0].
Qed.
Print Assumptions C77_tag_state.
Print Assumptions C77_tag_defined.
Print Assumptions C77_tag_refuses.
Print Assumptions C77_amplitudes.
Print Assumptions C77_probability.
Print Assumptions C77_default_success.
Print Assumptions C77_many_winners_refuted.
Print Assumptions C77_circuit.
Print Assumptions C77_exact.
Print Assumptions C77_search.

(** ** examples *)
(** two variables of two qubits and one; the tagged values are 2 and the string "1": bits 01 and 1, lowest first *)
Example tag_runs : exists c, tag_state [([0; 1], Code 2); ([3], Bits [true])] 1%Qc = Some c /\ c = [(Ctrl [false; true] (Pauli PZ), [0; 1; 3])].
Proof. eexists. split; reflexivity. Qed.
Example tag_fits : forall e, In e [([0; 1], Code 2); ([3], Bits [true])] -> fits e.
Proof. intros e [<-|[<-|[]]]; cbn; [split; [lia|discriminate]|reflexivity]. Qed.
Example tag_holds : tagged [([0; 1], Code 2); ([3], Bits [true])] [false; true; false; true] /\ ~ tagged [([0; 1], Code 2); ([3], Bits [true])] [true; true; false; true].
Proof. split; [intros e [<-|[<-|[]]]; reflexivity|]. intros T. specialize (T _ (or_introl eq_refl)). cbn in T. discriminate T. Qed.
Example tag_too_large : tag_state [([0; 1], Code 4)] 1%Qc = None. Proof. reflexivity. Qed.
(** a search on three qubits, two of one variable and one of another *)
Definition search_args : list qarg := [Variable_ [0; 1]; Variable_ [2]].
Definition search_tag : list (list nat * tag) := [([0; 1], Code 2); ([2], Bits [true])].
Lemma pi_small : (PI < 7 / 2)%R.
Proof. pose proof (PI_ineq 2) as [_ H]. unfold tg_alt, PI_tg in H. cbn in H. lra. Qed.
Example search_case : (exists oracle c, tag_state search_tag 1%Qc = Some oracle /\ grovers_alg search_args oracle 2 1%Qc = Some c) /\ (forall e, In e search_tag -> fits e) /\
  concat (map fst search_tag) = chosen search_args None /\ NoDup (chosen search_args None) /\ zero_on (chosen search_args None) [false; false; false] = true /\
  default_iterations (states_amount search_args) 1 2.
Proof.
  split; [eexists; eexists; split; reflexivity|]. split; [intros e [<-|[<-|[]]]; cbn; [split; [lia|discriminate]|reflexivity]|]. split; [reflexivity|].
  split; [cbn; repeat constructor; cbn; intuition lia|]. split; [reflexivity|]. exists (PI / 4 * sqrt (INR 8 / INR 1))%R. split; [rewrite Rminus_diag_eq by reflexivity; rewrite Rabs_R0; lra|].
  cbn [INR]. set (q := sqrt _). assert (Q0 : (0 <= q)%R) by apply sqrt_pos. assert (Q2 : (q * q = 8)%R) by (unfold q; rewrite sqrt_sqrt; lra).
  assert (Q : (282 / 100 <= q <= 283 / 100)%R) by (split; destruct (Rle_lt_dec q (283/100)); destruct (Rle_lt_dec (282/100) q); nra).
  pose proof pi_small. pose proof PI2_3_2. assert (X : (3 / 4 * (282 / 100) <= PI / 4 * q <= 7 / 8 * (283 / 100))%R) by (unfold Rdiv in *; split; nra). unfold Rabs. destruct (Rcase_abs _); lra.
Qed.
(** the exact algorithm on two qubits with one winner *)
Example exact_case : let w := fun x => bits_eqb x [true; false] in length (filter w (all_bits 2)) = 1 /\ exact_iterations (2 ^ 2) 1 1.
Proof.
  split; [reflexivity|]. unfold exact_iterations, exact_theta. assert (E : asin (sqrt (INR 1 / INR (2 ^ 2))) = (PI / 6)%R).
  { replace (INR 1 / INR (2 ^ 2))%R with (/ 2 * / 2)%R by (cbn; field). rewrite sqrt_square by lra. replace (/ 2)%R with (sin (PI / 6)) by (rewrite sin_PI6; field). apply asin_sin. pose proof PI_RGT_0. lra. }
  rewrite E. pose proof PI_RGT_0. replace (PI / (4 * (PI / 6)))%R with (3 / 2)%R by (field; lra). cbn [INR]. lra.
Qed.
(** three of four values win: two qubits, the oracle marks all but 00 *)
Definition many (x : list bool) : bool := (getbit x 0 || getbit x 1)%bool.
Definition many_oracle : body := [(Pauli PZ, [0]); (Pauli PZ, [1]); (Ctrl [true] (Pauli PZ), [0; 1])].
Example many_case : (exists c, grovers_alg [Variable_ [0; 1]] many_oracle 1 1%Qc = Some c) /\ within 2 [0; 1] many_oracle /\ 4 * winners many [false; false] [0; 1] = 3 * 2 ^ 2 /\
  forall psi x, length x = 2 -> crun many_oracle psi x = if many x then copp (psi x) else psi x.
Proof.
  split; [eexists; reflexivity|]. split.
  { apply (within_app' 2 _ [_] [_; _]); [|apply (within_app' 2 _ [_] [_])]; apply within_1; try reflexivity; try (constructor; constructor; fail); try (repeat constructor; cbn; intuition lia); try (cbn; intuition lia). }
  split; [reflexivity|].
  intros psi x L. unfold many_oracle, run_circuit, many. cbn [fold_left]. change [0; 1] with ([0] ++ [1]) at 1. rewrite (ctrl_any c0 c1 cadd cmul copp cexpi ccos csin ci) by reflexivity. rewrite !(RefProofs.run_z c0 c1 cadd cmul csub copp complex_ring cexpi ccos csin ci).
  unfold read. cbn [map bits_eqb]. destruct (getbit x 0), (getbit x 1); cbn [Bool.eqb andb orb]; ring.
Qed.
