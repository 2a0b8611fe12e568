(** Property C13: continued fraction convergents of BigIntegers.  [cf_digits], [convergent]:
    CFSpec.v.  [value], [wf]: BigIntSpec.v.  The BigInteger division is wrong for some operands
    (C08), so the results below assume that every division that is made is one of those proved
    exact: the denominator fits in one limb, or no partial quotient of a/b has a base-2^32 digit
    above 2^32 - 4. *)
From Verif.BigInt Require Import BigIntSpec BigIntModel.
From Verif.ContFrac Require Import CFSpec CFModel CFProofs.
From Coq Require Import ZArith List Lia.
Import ListNotations.
Local Open Scope Z_scope.

(** every pair of positive integers has exactly one list of partial quotients *)
Theorem C13_digits_exist : forall a b, 0 < b -> exists l, cf_digits a b l /\ forall l', cf_digits a b l' -> l = l'.
Proof.
  exact (fun a b H => match cf_digits_ex a b H with
    ex_intro _ l Hl => ex_intro _ l (conj Hl (cf_digits_fun a b l Hl)) end).
Qed.
Print Assumptions C13_digits_exist.

(** the generator yields exactly the convergents of a/b in order, max(1, max_terms) of them at most *)
Theorem C13_convergents_partial : forall a b ds mt fuel, wf a -> wf b -> length a = length b -> 0 < value b ->
  cf_digits (value a) (value b) ds ->
  value b < 2 ^ 32 \/ Forall (fun x => forall i : nat, (x / (2 ^ 32) ^ Z.of_nat i) mod 2 ^ 32 <= 2 ^ 32 - 4) ds ->
  (length ds <= fuel)%nat ->
  exists out, bi_contfrac_convergents fuel a b mt = Ok out /\
    Forall (fun '(p, q) => wf p /\ wf q /\ length p = length a /\ length q = length a) out /\
    map (fun '(p, q) => (value p, value q)) out =
      map (convergent ds) (seq 0 (match mt with
                                  | None => length ds
                                  | Some m => Nat.min (Nat.max 1 (m - 0)) (length ds)
                                  end)).
Proof. exact convergents_correct. Qed.
Print Assumptions C13_convergents_partial.

(** all convergents are in lowest terms with denominators at most b; the last one is a/b itself *)
Theorem C13_lowest_terms : forall a b ds, 0 <= a -> 0 < b -> cf_digits a b ds ->
  (forall k, (k < length ds)%nat -> let '(p, q) := convergent ds k in Z.gcd p q = 1 /\ 0 <= p <= a /\ 0 <= q <= b) /\
  last (map (convergent ds) (seq 0 (length ds))) (0, 0) = (a / Z.gcd a b, b / Z.gcd a b).
Proof.
  intros a b ds Ha Hb HC. split.
  - intros k Hk. pose proof (zconv_coprime a b ds a b 0 1 1 0 HC Ha (st_inv_init a b)) as F.
    rewrite zconv_spec in F. rewrite Forall_forall in F. apply F. apply in_map. apply in_seq. lia.
  - rewrite <- zconv_spec. apply (zconv_last a b ds a b 0 1 1 0 HC Ha (or_intror Hb) (st_inv_init a b)).
Qed.
Print Assumptions C13_lowest_terms.

(** |a/b - p_k/q_k| <= 1/(q_k q_(k+1)) *)
Theorem C13_error : forall a b ds k, 0 <= a -> 0 < b -> cf_digits a b ds -> (S k < length ds)%nat ->
  let '(p, q) := convergent ds k in Z.abs (a * q - b * p) * snd (convergent ds (S k)) <= b.
Proof.
  intros a b ds k Ha Hb HC Hk.
  destruct (zconv_error a b ds a b 0 1 1 0 HC Ha (st_inv_init a b)) as [_ E]. rewrite zconv_spec in E.
  destruct (convergent ds k) as [p q] eqn:E1. destruct (convergent ds (S k)) as [p' q'] eqn:E2.
  apply (E k p q p' q').
  - rewrite <- E1. apply map_nth_error. rewrite (nth_error_nth' (seq 0 (length ds)) 0%nat) by (rewrite seq_length; lia).
    rewrite seq_nth by lia. reflexivity.
  - rewrite <- E2. apply map_nth_error. rewrite (nth_error_nth' (seq 0 (length ds)) 0%nat) by (rewrite seq_length; lia).
    rewrite seq_nth by lia. reflexivity.
Qed.
Print Assumptions C13_error.

(** Legendre's criterion, the fact the period recovery in Shor's algorithm uses: a fraction s/r in
    lowest terms with |a/b - s/r| < 1/(2 r^2) is one of the yielded convergents. *)
Theorem C13_legendre_partial : forall a b ds fuel s r, wf a -> wf b -> length a = length b -> 0 < value b ->
  cf_digits (value a) (value b) ds ->
  value b < 2 ^ 32 \/ Forall (fun x => forall i : nat, (x / (2 ^ 32) ^ Z.of_nat i) mod 2 ^ 32 <= 2 ^ 32 - 4) ds ->
  (length ds <= fuel)%nat ->
  1 <= r -> Z.gcd s r = 1 -> 2 * r * Z.abs (value a * r - value b * s) < value b ->
  exists out, bi_contfrac_convergents fuel a b None = Ok out /\
    In (s, r) (map (fun '(p, q) => (value p, value q)) out).
Proof.
  intros a b ds fuel s r Wa Wb L Hb HC HD HF Hr G HE.
  destruct (convergents_correct a b ds None fuel Wa Wb L Hb HC HD HF) as (out & O1 & _ & O3).
  exists out. split; [exact O1|]. unfold vals in O3. rewrite O3. cbn [cut]. rewrite <- zconv_spec.
  destruct (legendre_core (value a) (value b) s r ds (value a) (value b) 0 1 1 0 HC) as [E|E]; try assumption.
  - pose proof (BigIntLemmas.value_bound _ Wa). lia.
  - apply st_inv_init.
  - lia.
  - reflexivity.
  - injection E as _ E. lia.
Qed.
Print Assumptions C13_legendre_partial.

(** invalid operands are rejected *)
Theorem C13_rejects : forall fuel a b mt, length a <> length b -> bi_contfrac_convergents fuel a b mt = AssertionError.
Proof.
  intros fuel a b mt H. unfold bi_contfrac_convergents. apply Nat.eqb_neq in H. rewrite H. reflexivity.
Qed.
Print Assumptions C13_rejects.

(** Counterexample to the unrestricted claim: the division of C08. *)
Theorem C13_convergents_refuted : exists a b p q, wf a /\ wf b /\ length a = length b /\ 0 < value b /\
  bi_contfrac_convergents 1 a b (Some 1%nat) = Ok [(p, q)] /\
  forall ds, cf_digits (value a) (value b) ds -> (value p, value q) <> convergent ds 0.
Proof.
  exists [5; 2147483648; 2147483648], [4294967295; 2147483648; 0]. eexists. eexists.
  split; [wf_lit|]. split; [wf_lit|]. split; [reflexivity|]. split; [reflexivity|].
  split; [vm_compute; reflexivity|].
  intros ds HC E. inversion HC; subst; revert E; vm_compute; discriminate.
Qed.
Print Assumptions C13_convergents_refuted.

(** [bi_contfrac_best_approx] and [bi_shor_recover_denominator] return for no valid operands. *)
Theorem C13_best_approx_refuted : forall a b d, wf a -> wf b -> length a = length b -> 0 < value b -> length d = length a ->
  bi_contfrac_best_approx a b None = TypeError /\ bi_contfrac_best_approx a b (Some d) = TypeError /\
  bi_shor_recover_denominator a b d = TypeError.
Proof.
  intros a b d Wa Wb L Hb Hd.
  assert (E : bi_contfrac_best_approx a b (Some d) = TypeError)
    by (apply best_approx_TypeError; try assumption; intros e He; injection He as <-; exact Hd).
  split; [apply best_approx_TypeError; try assumption; discriminate|]. split; [exact E|].
  unfold bi_shor_recover_denominator. rewrite Hd, Nat.eqb_refl, E. reflexivity.
Qed.
Print Assumptions C13_best_approx_refuted.

(** 427/1024 = [0; 2, 2, 1, 1, 20, 1, 3]; the phase 5/12 is recovered as the fifth convergent, and
    an expansion of two-limb operands *)
Example C13_ex : let a := [427; 0] in let b := [1024; 0] in let ds := [0; 2; 2; 1; 1; 20; 1; 3] in
  wf a /\ wf b /\ 0 < value b < 2 ^ 32 /\ cf_digits (value a) (value b) ds /\
  2 * 12 * Z.abs (value a * 12 - value b * 5) < value b /\
  bi_contfrac_convergents 8 a b (Some 5%nat) =
    Ok [([0; 0], [1; 0]); ([1; 0], [2; 0]); ([2; 0], [5; 0]); ([3; 0], [7; 0]); ([5; 0], [12; 0])] /\
  bi_contfrac_convergents 9 [7; 3] [5; 2] None = Ok [([1; 0], [1; 0]); ([3; 0], [2; 0]); ([7; 3], [5; 2])].
Proof.
  cbv zeta. split; [wf_lit|]. split; [wf_lit|]. split; [split; reflexivity|]. split.
  -
    apply (cf_next 427 1024); [reflexivity|discriminate|].
    apply (cf_next 1024 427); [reflexivity|discriminate|].
    apply (cf_next 427 170); [reflexivity|discriminate|].
    apply (cf_next 170 87); [reflexivity|discriminate|].
    apply (cf_next 87 83); [reflexivity|discriminate|].
    apply (cf_next 83 4); [reflexivity|discriminate|].
    apply (cf_next 4 3); [reflexivity|discriminate|].
    apply (cf_last 3 1); reflexivity.
  - vm_compute. auto.
Qed.
