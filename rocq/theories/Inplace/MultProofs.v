(** The multiplication circuit multiplies the register. *)
From Coq Require Import List ZArith Bool Lia Arith QArith Qround Qcanon Ring Ring_theory.
Import ListNotations.
From Verif.Inverse Require Import InvModel InvSpec InvProofs.
From Verif.CtrlOps Require Import CtrlModel CtrlSpec CtrlProofs.
From Verif.Fourier Require Import FourierModel FourierSpec RegProofs FourierProofs FourierFinal AdderProofs.
From Verif.Sbp Require Import NumProofs CircProofs.
From Verif.Inplace Require Import InplModel.
Local Open Scope nat_scope.

Lemma cp_angle_ok f k : cp_angle f k = angle f (k + 2).
Proof. unfold cp_angle. rewrite angle_zq. ring. Qed.
Lemma angle_pow z j l : angle (z * 2 ^ Z.of_nat l) (l + j) = angle z j.
Proof.
  induction l as [|l IH]; [cbn [Z.of_nat Nat.add]; rewrite Z.pow_0_r, Z.mul_1_r; reflexivity|]. rewrite Nat2Z.inj_succ, Z.pow_succ_r by lia.
  replace (z * (2 * 2 ^ Z.of_nat l))%Z with (2 * (z * 2 ^ Z.of_nat l))%Z by ring. cbn [Nat.add]. rewrite angle_S. exact IH.
Qed.
Fixpoint fphase (m : Z) (k : nat) (bs : list bool) : Qc :=
  match bs with [] => 0%Qc | b :: bs => (angle (match bs with [] => m - 1 | _ => m end) (k + 2) * b2q b + fphase m (S k) bs)%Qc end.
Fixpoint bphase (k : nat) (bs : list bool) : Qc :=
  match bs with [] => 0%Qc | b :: bs => (match bs with [] => 0%Qc | _ => angle (-1) (k + 2) * b2q b end + bphase (S k) bs)%Qc end.
Lemma angle_bit z n b : (angle z n * b2q b = angle (z * b2z b) n)%Qc.
Proof. rewrite b2q_zq, !angle_zq, zq_mul. ring. Qed.
Lemma number_rev_cons b bs : number (rev (b :: bs)) = (number (rev bs) + 2 ^ Z.of_nat (length bs) * b2z b)%Z.
Proof. cbn [rev]. rewrite number_app, rev_length. cbn [number]. destruct b; cbn [b2z]; ring. Qed.
Lemma odd_pow_add a n c : 0 < n -> Z.odd (a + 2 ^ Z.of_nat n * c) = Z.odd a.
Proof. intros H. destruct n as [|n]; [lia|]. rewrite Nat2Z.inj_succ, Z.pow_succ_r by lia. rewrite <- Z.mul_assoc. apply Z.odd_add_mul_2. Qed.
Lemma fphase_ok m : forall bs k, fphase m k bs = angle (m * reading true bs - Z.b2z (Z.odd (reading true bs))) (length bs + (k + 1)).
Proof.
  unfold reading. induction bs as [|b bs IH]; intros k; [rewrite angle_zq; cbn [rev number]; rewrite Z.mul_0_r; change (zq (0 - Z.b2z (Z.odd 0))) with 0%Qc; cbn [fphase]; ring|].
  cbn [fphase]. rewrite IH, number_rev_cons. destruct bs as [|b' bs].
  - cbn [rev number length Nat.add]. rewrite angle_bit. change (angle (m * 0 - Z.b2z (Z.odd 0)) (S k + 1)) with (angle (m * 0 - 0) (S k + 1)). rewrite Z.mul_0_r, angle_zq with (z := (0 - 0)%Z). change (zq (0 - 0)) with 0%Qc.
    replace (S (k + 1)) with (k + 2) by lia. transitivity (angle ((m - 1) * b2z b) (k + 2)); [ring|]. f_equal. destruct b; cbn; ring.
  - set (l := b' :: bs). rewrite odd_pow_add by (cbn; lia). rewrite angle_bit. replace (length (b :: l) + (k + 1)) with (length l + (k + 2)) by (cbn [length]; lia). replace (length l + (S k + 1)) with (length l + (k + 2)) by lia.
    rewrite <- (angle_pow (m * b2z b) (k + 2) (length l)), <- angle_add. f_equal. ring.
Qed.
Lemma bphase_ok : forall bs k, bphase k bs = angle (- (reading true bs - Z.b2z (Z.odd (reading true bs)))) (length bs + (k + 1)).
Proof.
  unfold reading. induction bs as [|b bs IH]; intros k; [rewrite angle_zq; cbn [rev number]; change (zq (- (0 - Z.b2z (Z.odd 0)))) with 0%Qc; cbn [bphase]; ring|].
  cbn [bphase]. rewrite IH, number_rev_cons. destruct bs as [|b' bs].
  - cbn [rev number length Nat.add]. rewrite !angle_zq. change (zq (- (0 - Z.b2z (Z.odd 0)))) with 0%Qc. destruct b; cbn [b2z]; change (zq (- (0 + 2 ^ Z.of_nat 0 * 1 - Z.b2z (Z.odd (0 + 2 ^ Z.of_nat 0 * 1))))) with 0%Qc; change (zq (- (0 + 2 ^ Z.of_nat 0 * 0 - Z.b2z (Z.odd (0 + 2 ^ Z.of_nat 0 * 0))))) with 0%Qc; ring.
  - set (l := b' :: bs). rewrite odd_pow_add by (cbn; lia). rewrite angle_bit. replace (length (b :: l) + (k + 1)) with (length l + (k + 2)) by (cbn [length]; lia). replace (length l + (S k + 1)) with (length l + (k + 2)) by lia.
    rewrite <- (angle_pow (-1 * b2z b) (k + 2) (length l)), <- angle_add. f_equal. ring.
Qed.
Lemma bits_of_app n z : bits_of (S n) z = bits_of n z ++ [Z.testbit z (Z.of_nat n)].
Proof. unfold bits_of. rewrite seq_S, map_app. reflexivity. Qed.
Lemma write_app x : forall a b u v, length u = length a -> write x (a ++ b) (u ++ v) = write (write x b v) a u.
Proof. induction a as [|q a IH]; intros b [|c u] v L; try discriminate; [reflexivity|]. cbn [app write]. rewrite IH by (injection L; auto). reflexivity. Qed.

Section ring.
Context {R : Type} (rO rI : R) (radd rmul rsub : R -> R -> R) (ropp : R -> R) (RT : ring_theory rO rI radd rmul rsub ropp eq).
Context (expi chalf shalf : Qc -> R) (im : R).
Context (EU : euler rO rI radd rmul ropp expi chalf shalf im).
Add Ring rr6 : RT.
Notation effect := (effect Qcplus rO rI radd rmul ropp expi chalf shalf im).
Notation run := (run_circuit Qcplus rO rI radd rmul ropp expi chalf shalf im).
Notation diag := (diag rO rI radd rmul ropp expi chalf shalf im).
Notation diag_nil := (diag_nil rO rI radd rmul rsub ropp RT expi chalf shalf im EU).
Notation diag_app := (diag_app rO rI radd rmul rsub ropp RT expi chalf shalf im EU).
Notation diag_ext := (diag_ext rO rI radd rmul ropp expi chalf shalf im).
Notation diag_cp := (diag_cp rO rI radd rmul rsub ropp RT expi chalf shalf im EU).
Notation e_add := (e_add rO rI radd rmul ropp expi chalf shalf im EU).
Notation e_0 := (e_0 rO rI radd rmul ropp expi chalf shalf im EU).
Notation e_1 := (e_1 rO rI radd rmul ropp expi chalf shalf im EU).
Notation e_shift := (FourierProofs.e_shift rO rI radd rmul rsub ropp RT expi chalf shalf im EU).
Notation rt := (@rt R chalf).
Notation rt_2 := (FourierProofs.rt_2 rO rI radd rmul rsub ropp RT expi chalf shalf im EU).
Notation run_app := (FourierProofs.run_app rO rI radd rmul ropp expi chalf shalf im).
Notation run_h := (FourierProofs.run_h rO rI radd rmul rsub ropp RT expi chalf shalf im EU).
Local Notation amp := (list bool -> R).
Local Infix "+" := radd. Local Infix "*" := rmul. Local Notation "- a" := (ropp a).

Lemma diag_frow N m q : forall qs k, diag N (forward_row m q k qs) (fun x => b2q (getbit x q) * fphase m k (read x qs))%Qc.
Proof.
  induction qs as [|t qs IH]; intros k; cbn [forward_row read map fphase].
  - eapply diag_ext; [apply diag_nil|]. intros x _. cbv beta. apply f_equal. ring.
  - change (?g :: ?l) with ([g] ++ l). eapply diag_ext; [apply diag_app; [apply diag_cp|apply IH]|]. cbv beta. intros x _. apply f_equal. rewrite cp_angle_ok. destruct qs; cbn [read map]; ring.
Qed.
Lemma diag_brow N q : forall qs k, diag N (backward_row q k qs) (fun x => b2q (getbit x q) * bphase k (read x qs))%Qc.
Proof.
  induction qs as [|t qs IH]; intros k; cbn [backward_row read map bphase].
  - eapply diag_ext; [apply diag_nil|]. intros x _. cbv beta. apply f_equal. ring.
  - destruct qs as [|t' qs].
    + eapply diag_ext; [apply diag_app; [apply IH|apply diag_nil]|]. cbv beta. intros x _. apply f_equal. cbn [read map bphase]. ring.
    + eapply diag_ext; [apply diag_app; [apply IH|apply diag_cp]|]. cbv beta. intros x _. apply f_equal. rewrite cp_angle_ok. cbn [read map]. ring.
Qed.
Lemma mult_run m : Z.odd m = true -> forall qv (psi : amp) x, register qv x -> run (forward m qv ++ backward qv) psi (store x (rev qv) (m * value x (rev qv))) = psi x.
Proof.
  intros M. induction qv as [|q qv IH]; intros psi x Rg; [reflexivity|]. destruct qv as [|t qv].
  - cbn [forward backward app rev]. unfold run_circuit. cbn [fold_left]. apply f_equal. unfold store, value. cbn [read map length write number]. unfold bits_of. cbn [seq map Z.of_nat].
    rewrite <- (setbit_get x q) at 3. f_equal. rewrite Z.bit0_odd. rewrite Z.odd_mul, M. destruct (getbit x q); reflexivity.
  - set (qs := t :: qv) in *. destruct (register_cons _ _ _ Rg) as (Nq & Rq & Lq). set (l := length qs).
    change (forward m (q :: qs)) with ([qH q] ++ forward_row m q 0 qs ++ forward m qs). change (backward (q :: qs)) with (backward qs ++ backward_row q 0 qs ++ [qH q]).
    set (V := value x (rev qs)). set (V' := ((m * V) mod 2 ^ Z.of_nat l)%Z). set (c := (m * V / 2 ^ Z.of_nat l)%Z).
    assert (P2 : (0 < 2 ^ Z.of_nat l)%Z) by (apply Z.pow_pos_nonneg; lia).
    assert (DM : (m * V = 2 ^ Z.of_nat l * c + V')%Z) by (apply Z.div_mod; lia).
    set (tb := getbit x q). set (b := Z.odd (b2z tb + c)).
    assert (Nr : ~ In q (rev qs)) by (rewrite <- in_rev; exact Nq).
    assert (Y : store x (rev (q :: qs)) (m * value x (rev (q :: qs))) = setbit (store x (rev qs) (m * V)) q b).
    { unfold store. cbn [rev]. rewrite app_length. cbn [length]. rewrite Nat.add_1_r, bits_of_app, write_app by (rewrite bits_of_length; reflexivity). cbn [write].
      rewrite write_set by exact Nr. unfold value at 1 2. unfold read. rewrite map_app, number_app, map_length, rev_length. cbn [map number]. fold (read x (rev qs)). fold (value x (rev qs)). fold V. fold l tb.
      replace ((if tb then 1 else 0) + 2 * 0)%Z with (b2z tb) by (destruct tb; reflexivity).
      assert (E : (m * (V + 2 ^ Z.of_nat l * b2z tb) = m * V + (m * b2z tb) * 2 ^ Z.of_nat l)%Z) by ring. rewrite E. f_equal; [f_equal|].
      - rewrite <- bits_mod, Z_mod_plus_full, bits_mod. reflexivity.
      - assert (TB : forall a, Z.testbit a (Z.of_nat l) = Z.odd (a / 2 ^ Z.of_nat l)) by (intros a; rewrite <- Z.bit0_odd, Z.div_pow2_bits, Z.add_0_l by lia; reflexivity).
        unfold b. rewrite TB, Z.div_add by lia. fold c. rewrite !Z.odd_add, Z.odd_mul, M. cbn [andb]. apply xorb_comm. }
    rewrite Y. set (y := store x (rev qs) (m * V)).
    replace (([qH q] ++ forward_row m q 0 qs ++ forward m qs) ++ backward qs ++ backward_row q 0 qs ++ [qH q]) with ([qH q] ++ forward_row m q 0 qs ++ (forward m qs ++ backward qs) ++ backward_row q 0 qs ++ [qH q]) by (rewrite !app_assoc; reflexivity).
    rewrite !run_app. set (phi := run [qH q] psi).
    assert (Ly : length y = length x) by (unfold y, store; apply write_length).
    assert (S : forall s, run (backward_row q 0 qs) (run (forward m qs ++ backward qs) (run (forward_row m q 0 qs) phi)) (setbit y q s) = expi (zq c * b2q s)%Qc * phi (setbit x q s)).
    { intros s. rewrite (diag_brow (length x) q qs 0) by (rewrite setbit_length; exact Ly).
      assert (Es : setbit y q s = store (setbit x q s) (rev qs) (m * value (setbit x q s) (rev qs))).
      { assert (VV : value (setbit x q s) (rev qs) = V).
        { unfold V, value. apply f_equal. unfold read. apply map_ext_in. intros p I. rewrite getbit_set_other; [reflexivity|]. intros ->. contradiction. }
        rewrite VV. unfold y, store. rewrite write_set by exact Nr. reflexivity. }
      rewrite Es at 3. rewrite IH by (apply (register_length _ x); [rewrite setbit_length; reflexivity|exact Rq]). rewrite (diag_frow (length x) m q qs 0) by apply setbit_length.
      rewrite !getbit_set_same by lia. rewrite fphase_ok, bphase_ok. rewrite !read_length.
      assert (R1 : reading true (read (setbit x q s) qs) = V). { unfold reading, V, value. rewrite <- read_rev. f_equal. unfold read. apply map_ext_in. intros p I. rewrite getbit_set_other; [reflexivity|]. intros ->. contradiction. }
      assert (R2 : reading true (read (setbit y q s) qs) = V'). { unfold reading. rewrite <- read_rev. transitivity (value y (rev qs)).
        - unfold value. f_equal. unfold read. apply map_ext_in. intros p I. rewrite getbit_set_other; [reflexivity|]. intros ->. contradiction.
        - unfold y. rewrite value_store by (apply register_rev, Rq). rewrite rev_length. reflexivity. }
      rewrite R1, R2. assert (OV : Z.odd V' = Z.odd V). { replace V' with (m * V + 2 ^ Z.of_nat l * (Z.opp c))%Z by lia. rewrite odd_pow_add by (unfold l; cbn; lia). rewrite Z.odd_mul, M. reflexivity. }
      rewrite OV. fold l. match goal with |- ?a * (?b * ?d) = _ => transitivity ((a * b) * d); [ring|] end. f_equal. rewrite <- e_add. apply f_equal.
      replace (l + (0 + 1))%nat with (S l) by lia. rewrite <- Qcmult_plus_distr_r, <- angle_add, Qcmult_comm. f_equal.
      replace (Z.opp (V' - Z.b2z (Z.odd V)) + (m * V - Z.b2z (Z.odd V)))%Z with (c * 2 ^ Z.of_nat l)%Z by lia.
      replace (S l) with (l + 1)%nat by lia. rewrite angle_pow. rewrite angle_zq. cbn [Qcpower]. pose proof half_2 as H2. transitivity (half * zq 2 * zq c)%Qc; [ring|]. rewrite H2. ring. }
    change (run [qH q] ?p ?z) with (effect gH [q] p z). rewrite run_h. rewrite !setbit_twice, <- (run_app (forward m qs) (backward qs)), !S. rewrite getbit_set_same by lia. unfold phi. change (run [qH q] psi) with (effect gH [q] psi). rewrite !run_h, !setbit_twice, !getbit_set_same by lia. cbn [b2q].
    replace (zq c * 0)%Qc with 0%Qc by ring. rewrite e_0, e_1. rewrite Qcmult_1_r.
    assert (E : expi (b2q b) * expi (zq c) = expi (b2q tb)).
    { rewrite <- e_add. unfold b. set (u := (b2z tb + c)%Z). apply (e_shift _ _ (c - Z.div2 u)). rewrite !b2q_zq, <- !zq_add. f_equal. pose proof (Zdiv2_odd_eqn u) as D. unfold b2z at 1. destruct (Z.odd u); unfold u in *; lia. }
    pose proof rt_2 as T. transitivity (rt * rt * ((psi (setbit x q false) + psi (setbit x q true)) + (expi (b2q b) * expi (zq c)) * (psi (setbit x q false) + - rI * psi (setbit x q true)))); [ring|]. rewrite E.
    transitivity ((rt * rt + rt * rt) * psi x); [|rewrite T; ring]. rewrite <- (setbit_get x q) at 5. fold tb. destruct tb; cbn [b2q]; [rewrite e_1|rewrite e_0]; ring.
Qed.
End ring.
