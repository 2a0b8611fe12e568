(** Fermat's little theorem over the integers (not in the standard library), by the
    permutation of the residues 1, ..., p-1 induced by multiplication with a. *)
From Coq Require Import ZArith List Lia Znumtheory Zpow_facts Permutation.
Import ListNotations.
Local Open Scope Z_scope.

Definition zprod (l : list Z) : Z := fold_right Z.mul 1 l.

Lemma zprod_perm l l' : Permutation l l' -> zprod l = zprod l'.
Proof. unfold zprod. induction 1; cbn [fold_right]; [reflexivity|now rewrite IHPermutation|ring|congruence]. Qed.

Lemma zprod_map_mod p a : 0 < p -> forall l, zprod (map (fun i => (a * i) mod p) l) mod p = (a ^ Z.of_nat (length l) * zprod l) mod p.
Proof.
  intros Hp. induction l as [|x l IH]; [reflexivity|].
  cbn [map zprod fold_right length]. change (fold_right Z.mul 1 (map (fun i : Z => (a * i) mod p) l)) with (zprod (map (fun i : Z => (a * i) mod p) l)).
  change (fold_right Z.mul 1 l) with (zprod l).
  rewrite Z.mul_mod, IH by lia. rewrite Z.mod_mod by lia. rewrite <- Z.mul_mod by lia.
  rewrite Nat2Z.inj_succ, Z.pow_succ_r by lia. f_equal. ring.
Qed.

Lemma small_multiple x k p : x = k * p -> - p < x < p -> x = 0.
Proof. intros -> H. assert (k = 0) by nia. subst. reflexivity. Qed.

Lemma zprod_rel_prime p : forall l, (forall x, In x l -> rel_prime p x) -> rel_prime p (zprod l).
Proof.
  induction l as [|x l IH]; intros H; cbn.
  - apply rel_prime_sym, rel_prime_1.
  - apply rel_prime_mult; [apply H; now left|apply IH; intros; apply H; now right].
Qed.

Theorem fermat p a : prime p -> a mod p <> 0 -> a ^ (p - 1) mod p = 1.
Proof.
  intros Pp Ha. pose proof (prime_ge_2 p Pp) as P2.
  set (l := map Z.of_nat (seq 1 (Z.to_nat (p - 1)))).
  assert (Lm : forall x, In x l <-> 1 <= x < p).
  { intros x. unfold l. rewrite in_map_iff. split.
    - intros (k & <- & H). apply in_seq in H. lia.
    - intros H. exists (Z.to_nat x). split; [lia|]. apply in_seq. lia. }
  assert (Ra : rel_prime p a).
  { apply prime_rel_prime; [exact Pp|]. intros D. apply Ha. apply Z.mod_divide; [lia|exact D]. }
  assert (ND : NoDup l).
  { unfold l. apply FinFun.Injective_map_NoDup; [intros x y; lia|apply seq_NoDup]. }
  assert (ND' : NoDup (map (fun i => (a * i) mod p) l)).
  { apply NoDup_nth with (d := (a * 0) mod p). rewrite map_length. intros i j Hi Hj E.
    rewrite !(map_nth (fun i => (a * i) mod p)) in E.
    assert (Ii : In (nth i l 0) l) by now apply nth_In. assert (Ij : In (nth j l 0) l) by now apply nth_In.
    rewrite Lm in Ii, Ij. apply (proj1 (NoDup_nth l 0) ND); try assumption.
    assert (D : (p | a * (nth i l 0 - nth j l 0))).
    { apply Z.mod_divide; [lia|]. rewrite Z.mul_sub_distr_l, Zminus_mod, E, Z.sub_diag. apply Z.mod_0_l. lia. }
    apply (Gauss p a _ D) in Ra. destruct Ra as [k K]. apply small_multiple in K; lia. }
  assert (PM : Permutation (map (fun i => (a * i) mod p) l) l).
  { apply NoDup_Permutation_bis; [exact ND'|rewrite map_length; lia|].
    intros y Hy. apply in_map_iff in Hy. destruct Hy as (i & <- & Hi). rewrite Lm in *.
    pose proof (Z.mod_pos_bound (a * i) p ltac:(lia)).
    destruct (Z.eq_dec ((a * i) mod p) 0) as [E|E]; [|lia]. exfalso.
    apply Z.mod_divide in E; [|lia]. apply (Gauss p a _ E) in Ra. destruct Ra as [k K]. apply small_multiple in K; lia. }
  pose proof (zprod_map_mod p a ltac:(lia) l) as E. rewrite (zprod_perm _ _ PM) in E.
  assert (LL : Z.of_nat (length l) = p - 1) by (unfold l; rewrite map_length, seq_length; lia). rewrite LL in E.
  assert (RP : rel_prime p (zprod l)).
  { apply zprod_rel_prime. intros x Hx. apply Lm in Hx. apply prime_rel_prime; [exact Pp|].
    intros [k K]. apply small_multiple in K; lia. }
  assert (D : (p | zprod l * (a ^ (p - 1) - 1))).
  { apply Z.mod_divide; [lia|]. replace (zprod l * (a ^ (p - 1) - 1)) with (a ^ (p - 1) * zprod l - zprod l) by ring.
    rewrite Zminus_mod, <- E, Z.sub_diag. apply Z.mod_0_l. lia. }
  apply (Gauss p _ _ D) in RP. destruct RP as [k K].
  replace (a ^ (p - 1)) with (1 + k * p) by lia. rewrite Z.mod_add by lia. apply Z.mod_small. lia.
Qed.

(** x^(1 + k (p-1)) = x (mod p), also for multiples of p *)
Lemma fermat_cycle p x k : prime p -> 0 <= k -> (p | x ^ (1 + (p - 1) * k) - x).
Proof.
  intros Pp Hk. pose proof (prime_ge_2 p Pp) as P2.
  assert (E0 : 0 <= (p - 1) * k) by (apply Z.mul_nonneg_nonneg; lia).
  rewrite Z.pow_add_r by lia. rewrite Z.pow_1_r.
  destruct (Z.eq_dec (x mod p) 0) as [E|E].
  - apply Z.mod_divide in E; [|lia]. replace (x * x ^ ((p - 1) * k) - x) with (x * (x ^ ((p - 1) * k) - 1)) by ring.
    now apply Z.divide_mul_l.
  - apply (fermat p x Pp) in E. rewrite Z.pow_mul_r by lia.
    assert (F : (x ^ (p - 1)) ^ k mod p = 1).
    { rewrite Zpower_mod, E by lia. rewrite Z.pow_1_l by lia. apply Z.mod_small. lia. }
    replace (x * (x ^ (p - 1)) ^ k - x) with (x * ((x ^ (p - 1)) ^ k - 1)) by ring. apply Z.divide_mul_r.
    apply Z.mod_divide; [lia|]. rewrite Zminus_mod, F, (Z.mod_small 1) by lia. reflexivity.
Qed.
