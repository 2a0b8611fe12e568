(** The modular operators for sums and differences. *)
From Coq Require Import List ZArith Znumtheory Bool Arith Lia Morphisms.
Import ListNotations.
From Verif.Inverse Require Import InvSpec InvProofs.
From Verif.CtrlOps Require Import CtrlSpec CtrlProofs.
From Verif.Fourier Require Import FourierSpec RegProofs.
From Verif.ModTools Require Import ModToolsModel ModToolsProofs.
From Verif.Modular Require Import ModModel ModSpec ViewProofs ModAddProofs.
Local Open Scope Z_scope.

Definition reduce (N : Z) (a : operand) : operand := match a with Cl z => Cl (z mod N) | _ => a end.
Lemma enabled_control x ctrl : enabled x ctrl = forallb (getbit x) (opt_control ctrl).
Proof. destruct ctrl; cbn; [rewrite andb_true_r|]; reflexivity. Qed.
Lemma off_in ctrl away q : off_control ctrl away -> In q away -> ~ In q (opt_control ctrl).
Proof. destruct ctrl; cbn; [intros O I [-> | []]; tauto|tauto]. Qed.
Section one.
Context (x : list bool) (a : operand) (b : list nat) (N : Z) (ctrl : option nat) (sign rnn : nat).
Context (Rg : register (b ++ [sign; rnn]) x) (Cs : getbit x sign = false) (Cr : getbit x rnn = false) (HN : 0 < N <= two (length b))
        (HB : value x b < N) (Oc : off_control ctrl (b ++ [sign; rnn])) (Fa : fits x N (b ++ [sign; rnn]) a).
Lemma mod_adder_run : execute (mod_adder a b N ctrl sign rnn) x = store x b ((value x b + if enabled x ctrl then amount x a else 0) mod N).
Proof.
  assert (P := adder_run x b sign rnn N (reduce N a) (opt_control ctrl)). cbv zeta in P.
  assert (E : mod_adder a b N ctrl sign rnn = [Add (opt_control ctrl) (reduce N a) (b ++ [sign]); Sub [] (Cl N) (b ++ [sign]); Cx sign rnn; Add [rnn] (Cl N) (b ++ [sign]);
    Sub (opt_control ctrl) (reduce N a) (b ++ [sign]); Cx sign rnn; Flip rnn; Add (opt_control ctrl) (reduce N a) (b ++ [sign])]) by (destruct a; reflexivity).
  rewrite E, P; auto.
  - f_equal. unfold result. rewrite <- enabled_control. destruct (enabled x ctrl); [|reflexivity].
    destruct a as [z|qs]; [|reflexivity]. cbn [reduce amount]. rewrite Zplus_mod_idemp_r. reflexivity.
  - intros q I. apply (off_in ctrl (b ++ [sign; rnn])); auto.
  - intros q I. destruct a as [z|qs]; cbn; [trivial|]. intros J. apply (proj1 Fa q J I).
  - intros _. destruct a as [z|qs]; cbn [reduce amount]; [apply Z.mod_pos_bound; lia|]. pose proof (value_range x qs). destruct Fa. lia.
Qed.
End one.
Lemma mod_adder_valid x a b N ctrl sign rnn : register (b ++ [sign; rnn]) x -> off_control ctrl (b ++ [sign; rnn]) -> fits x N (b ++ [sign; rnn]) a ->
  valid (length x) (mod_adder a b N ctrl sign rnn).
Proof.
  intros Rg Oc Fa. assert (Rg' := Rg). replace (b ++ [sign; rnn]) with ((b ++ [sign]) ++ [rnn]) in Rg' by (rewrite <- app_assoc; reflexivity).
  apply register_app in Rg'. destruct Rg' as ((D & L) & (_ & L2) & Off).
  assert (Lr : (rnn < length x)%nat) by (apply L2; left; reflexivity).
  assert (Ls : (sign < length x)%nat) by (apply L; rewrite in_app_iff; right; left; reflexivity).
  assert (Ne : sign <> rnn) by (intros E; apply (Off sign); [rewrite in_app_iff; right; left; reflexivity|left; congruence]).
  assert (In' : forall q, In q (b ++ [sign]) -> In q (b ++ [sign; rnn])).
  { intros q. rewrite !in_app_iff. cbn. tauto. }
  assert (Va : valid_step (length x) (Add (opt_control ctrl) (reduce N a) (b ++ [sign]))).
  { split; [exact D|]. split; [exact L|]. intros q I. split; [apply (off_in ctrl _ q Oc); auto|]. destruct a as [z|qs]; cbn; [trivial|]. intros J. apply (proj1 Fa q J). auto. }
  assert (Vn : forall c, (forall q, In q (b ++ [sign]) -> ~ In q c) -> valid_step (length x) (Add c (Cl N) (b ++ [sign]))).
  { intros c O. split; [exact D|]. split; [exact L|]. intros q I. split; [auto|trivial]. }
  assert (E : mod_adder a b N ctrl sign rnn = [Add (opt_control ctrl) (reduce N a) (b ++ [sign]); Sub [] (Cl N) (b ++ [sign]); Cx sign rnn; Add [rnn] (Cl N) (b ++ [sign]);
    Sub (opt_control ctrl) (reduce N a) (b ++ [sign]); Cx sign rnn; Flip rnn; Add (opt_control ctrl) (reduce N a) (b ++ [sign])]) by (destruct a; reflexivity).
  rewrite E. repeat apply Forall_cons; try apply Forall_nil; try exact Va; try (split; [exact Ne|split; assumption]); try exact Lr.
  - apply (Vn []). intros q _ [].
  - apply (Vn [rnn]). exact Off.
Qed.
Lemma fits_store x N away a b z : (forall q, In q b -> In q away) -> fits x N away a -> fits (store x b z) N away a /\ amount (store x b z) a = amount x a.
Proof.
  intros S F. destruct a as [k|qs]; [split; [trivial|reflexivity]|]. destruct F as (A & V).
  assert (E : value (store x b z) qs = value x qs) by (apply value_store_off; intros p I J; apply (A p I); auto).
  cbn. rewrite E. split; [split; [exact A|exact V]|reflexivity].
Qed.
Lemma enabled_store x ctrl b z : off_control ctrl b -> enabled (store x b z) ctrl = enabled x ctrl.
Proof. destruct ctrl; cbn; intros O; [apply store_other; exact O|reflexivity]. Qed.
Lemma mod_adder_inverse x a b N ctrl sign rnn : register (b ++ [sign; rnn]) x -> getbit x sign = false -> getbit x rnn = false -> 0 < N <= two (length b) ->
  value x b < N -> off_control ctrl (b ++ [sign; rnn]) -> fits x N (b ++ [sign; rnn]) a ->
  execute (inverted (mod_adder a b N ctrl sign rnn)) x = store x b ((value x b - if enabled x ctrl then amount x a else 0) mod N).
Proof.
  intros Rg Cs Cr HN HB Oc Fa. set (A := if enabled x ctrl then amount x a else 0). set (w := (value x b - A) mod N).
  destruct (register_app _ _ _ Rg) as (Rb & _ & Off).
  assert (W : 0 <= w < N) by (apply Z.mod_pos_bound; lia). pose proof (value_range x b) as V.
  assert (Sub : forall q, In q b -> In q (b ++ [sign; rnn])) by (intros q I; rewrite in_app_iff; auto).
  destruct (fits_store x N _ a b w Sub Fa) as (Fa' & Ea).
  assert (Vw : value (store x b w) b = w) by (rewrite value_store by exact Rb; apply Z.mod_small; lia).
  assert (Oc' : off_control ctrl b) by (destruct ctrl; cbn in *; auto).
  assert (P : execute (mod_adder a b N ctrl sign rnn) (store x b w) = x).
  { rewrite mod_adder_run; auto.
    - rewrite Vw, enabled_store, Ea by exact Oc'. fold A. assert (K : (w + A) mod N = value x b) by (unfold w; rewrite Zplus_mod_idemp_l, Z.sub_add; apply Z.mod_small; lia). rewrite K.
      rewrite store_store by apply (proj1 Rb). apply store_value. apply (proj1 Rb).
    - apply (register_length _ x); [rewrite store_length|]; auto.
    - rewrite store_other; [exact Cs|]. intros I. apply (Off sign I). left. reflexivity.
    - rewrite store_other; [exact Cr|]. intros I. apply (Off rnn I). right. left. reflexivity.
    - lia. }
  rewrite <- P at 1. apply inverted_undoes. apply mod_adder_valid; auto. apply (register_length _ x); [rewrite store_length|]; auto.
Qed.

(** ** residues *)
Definition unit_of (N s E : Z) : Prop := (forall k v, stands_for N s k v <-> 0 <= k < N /\ 0 <= v < N /\ k = (v * E) mod N) /\
  (forall q i, modulus q = N -> shift q = s -> 0 <= i < N -> encoder q i = Some ((i * E) mod N)) /\
  exists F, (E * F) mod N = 1 /\ forall i, 0 <= i -> exists k, pow2_py (i - s) N = Some k /\ k = (2 ^ i * F) mod N.
Lemma cancel N u w a b : 2 <= N -> (u * w) mod N = 1 -> (a * u) mod N = (b * u) mod N -> a mod N = b mod N.
Proof.
  intros HN U H. assert (K : forall c, c mod N = (c * u * w) mod N).
  { intros c. rewrite <- Z.mul_assoc, <- Zmult_mod_idemp_r, U, Z.mul_1_r. reflexivity. }
  rewrite (K a), (K b), <- (Zmult_mod_idemp_l (a * u)), H, Zmult_mod_idemp_l. reflexivity.
Qed.
Lemma eq_mod N a b : 0 < N -> 0 <= a < N -> a mod N = b mod N -> a = b mod N.
Proof. intros HN A H. rewrite <- H. symmetry. apply Z.mod_small. exact A. Qed.
Lemma inv_pow N k : 2 <= N -> Z.odd N = true -> 0 <= k -> exists r, modinv_py (2 ^ k) N = Some r /\ 0 <= r < N /\ (2 ^ k * r) mod N = 1.
Proof.
  intros HN O K. destruct (modinv_py_spec (2 ^ k) N) as (H & _); [apply Z.pow_nonneg; lia|exact HN|]. apply H. apply gcd_pow2_odd; auto.
Qed.
Lemma unit_exists N s : 2 <= N -> good N s -> exists E, unit_of N s E.
Proof.
  intros HN G. destruct (Z_le_gt_dec 0 s) as [S|S].
  - exists (2 ^ s). split; [|split].
    + intros k v. unfold stands_for. rewrite (proj2 (Z.leb_le 0 s)) by lia. split; intros (K & V & H); (split; [exact K|split; [exact V|]]).
      * apply eq_mod; auto. lia.
      * rewrite H, Z.mod_mod by lia. reflexivity.
    + intros q i M Sh I. unfold encoder. rewrite M, Sh, (proj2 (Z.leb_gt N i)), (proj2 (Z.ltb_ge i 0)), (proj2 (Z.leb_le 0 s)) by lia. rewrite mont_enc_py_value by lia. reflexivity.
    + destruct (Z.eq_dec s 0) as [->|Sp].
      * exists 1. split; [apply Z.mod_small; cbn; lia|]. intros i I. rewrite Z.sub_0_r. unfold pow2_py. rewrite (proj2 (Z.leb_le 0 i)) by lia. exists (2 ^ i mod N). rewrite Z.mul_1_r. auto.
      * destruct G as [?|G]; [lia|]. destruct (inv_pow N s HN G S) as (F & _ & HF & EF). exists F. split; [exact EF|]. intros i I. unfold pow2_py. destruct (Z.leb_spec 0 (i - s)) as [D|D].
        -- eexists. split; [reflexivity|]. apply (cancel N (2 ^ s) F); auto. rewrite <- Z.pow_add_r by lia. replace (i - s + s) with i by lia.
           replace (2 ^ i * F * 2 ^ s) with (2 ^ i * (2 ^ s * F)) by ring. rewrite <- (Zmult_mod_idemp_r (2 ^ s * F)), EF, Z.mul_1_r. reflexivity.
        -- destruct (inv_pow N (- (i - s)) HN G) as (r & Er & Hr & Pr); [lia|]. rewrite Er. eexists. split; [reflexivity|].
           apply (cancel N (2 ^ (- (i - s))) r); auto. rewrite (Z.mul_comm r), Pr.
           replace (2 ^ i * F * 2 ^ (- (i - s))) with (2 ^ s * F); [symmetry; exact EF|]. replace s with (- (i - s) + i) at 1 by lia. rewrite Z.pow_add_r by lia. ring.
  - destruct G as [?|G]; [lia|]. destruct (inv_pow N (- s) HN G) as (R & ER & HR & PR); [lia|]. exists R. split; [|split].
    + intros k v. unfold stands_for. rewrite (proj2 (Z.leb_gt 0 s)) by lia. split; intros (K & V & H); (split; [exact K|split; [exact V|]]).
      * apply eq_mod; auto; [lia|]. apply (cancel N (2 ^ (- s)) R); auto. rewrite H. replace (v * R * 2 ^ (- s)) with (v * (2 ^ (- s) * R)) by ring.
        rewrite <- Zmult_mod_idemp_r, PR, Z.mul_1_r. reflexivity.
      * rewrite H, Zmult_mod_idemp_l. replace (v * R * 2 ^ (- s)) with (v * (2 ^ (- s) * R)) by ring. rewrite <- Zmult_mod_idemp_r, PR, Z.mul_1_r. reflexivity.
    + intros q i M Sh I. unfold encoder. rewrite M, Sh, (proj2 (Z.leb_gt N i)), (proj2 (Z.ltb_ge i 0)), (proj2 (Z.leb_gt 0 s)) by lia. rewrite ER. rewrite mont_enc_py_value by lia. reflexivity.
    + exists (2 ^ (- s)). split; [rewrite Z.mul_comm; exact PR|]. intros i I. unfold pow2_py. rewrite (proj2 (Z.leb_le 0 (i - s))) by lia. eexists. split; [reflexivity|].
      rewrite <- Z.pow_add_r by lia. reflexivity.
Qed.

(** ** the operators *)
Section operators.
Context (q : qmod) (o : other) (sign rnn : nat) (x : list bool) (b : list nat) (v w : Z).
Let N := modulus q.
Context (HN : 2 <= N) (G : good N (shift q)) (Rg : register (b ++ [sign; rnn]) x) (Cs : getbit x sign = false) (Cr : getbit x rnn = false)
        (HB : represents x b N (shift q) v) (Ho : operand_means x N (shift q) (b ++ [sign; rnn]) o w).
Lemma normalize_same : same_shift q o = true -> exists a E, normalize q o = Some a /\ fits x N (b ++ [sign; rnn]) a /\ unit_of N (shift q) E /\ amount x a mod N = (w * E) mod N /\ 0 <= w < N.
Proof.
  intros S. destruct (unit_exists N (shift q) HN G) as (E & U). assert (U' := U). destruct U' as (U1 & U2 & _).
  destruct o as [z|p|qs]; cbn [normalize operand_means same_shift] in *.
  - subst w. fold N. rewrite (U2 q (z mod N)) by (auto; apply Z.mod_pos_bound; lia). cbn. exists (Cl ((z mod N * E) mod N)), E. split; [reflexivity|]. split; [exact I|]. split; [exact U|].
    split; [cbn; rewrite Z.mod_mod by lia; reflexivity|apply Z.mod_pos_bound; lia].
  - destruct Ho as (M & Gp & (Rp & Fp & Sp) & Ap). apply Z.eqb_eq in S. rewrite <- S in Sp. apply U1 in Sp. destruct Sp as (K & V & Ek). exists (Qu (reg p)), E. split; [reflexivity|]. split; [split; [exact Ap|apply K]|]. split; [exact U|]. split; [|exact V].
    cbn. rewrite Ek, Z.mod_mod by lia. reflexivity.
  - destruct Ho as (S0 & Aq & Vq & W). exists (Qu qs), E. pose proof (value_range x qs). split; [reflexivity|]. split; [split; [exact Aq|exact Vq]|]. split; [exact U|]. split; [|lia]. cbn. subst w.
    assert (stands_for N (shift q) (value x qs) (value x qs)) as P.
    { unfold stands_for. rewrite S0. cbn. rewrite Z.mul_1_r. split; [lia|]. split; [lia|reflexivity]. }
    apply U1 in P. destruct P as (_ & _ & P). rewrite P at 1. apply Z.mod_mod. lia.
Qed.
Lemma rep_bounds : 0 < N <= two (length b). Proof. destruct HB as (_ & F & _). lia. Qed.
Lemma rep_value : value x b < N. Proof. destruct HB as (_ & _ & K & _). lia. Qed.
Lemma sum_means E k1 k2 : unit_of N (shift q) E -> value x b = k1 -> k2 mod N = (w * E) mod N -> stands_for N (shift q) ((k1 + k2) mod N) ((v + w) mod N) /\ stands_for N (shift q) ((k1 - k2) mod N) ((v - w) mod N).
Proof.
  intros (U & _) V K. destruct HB as (_ & _ & B). rewrite V in B. apply U in B. destruct B as (_ & _ & B).
  split; apply U; (split; [apply Z.mod_pos_bound; lia|split; [apply Z.mod_pos_bound; lia|]]).
  - rewrite Zmult_mod_idemp_l, B, Zplus_mod_idemp_l, <- Zplus_mod_idemp_r, K, Zplus_mod_idemp_r. f_equal. ring.
  - rewrite Zmult_mod_idemp_l, B, Zminus_mod_idemp_l, <- Zminus_mod_idemp_r, K, Zminus_mod_idemp_r. f_equal. ring.
Qed.
Lemma sum_run a E : normalize q o = Some a -> fits x N (b ++ [sign; rnn]) a -> unit_of N (shift q) E -> amount x a mod N = (w * E) mod N ->
  (exists k, execute (mod_adder a b N None sign rnn) x = store x b k /\ stands_for N (shift q) k ((v + w) mod N)) /\
  (exists k, execute (inverted (mod_adder a b N None sign rnn)) x = store x b k /\ stands_for N (shift q) k ((v - w) mod N)).
Proof.
  intros _ F U A. pose proof rep_bounds as RB. pose proof rep_value as RV. destruct (sum_means E (value x b) (amount x a) U eq_refl A) as (S1 & S2). split.
  - exists ((value x b + amount x a) mod N). split; [|exact S1]. rewrite mod_adder_run; auto. exact I.
  - exists ((value x b - amount x a) mod N). split; [|exact S2]. rewrite mod_adder_inverse; auto. exact I.
Qed.
End operators.
Lemma copy_run : forall a b x, length a = length b -> register b x -> apart a b -> (forall q, In q b -> getbit x q = false) -> execute (copy a b) x = write x b (read x a).
Proof.
  induction a as [|p a IH]; intros [|q b] x L R A Z; cbn in L; try discriminate; [reflexivity|].
  change (copy (p :: a) (q :: b)) with (Cx p q :: copy a b). rewrite execute_cons. cbn [perform]. rewrite (Z q) by (left; reflexivity). rewrite xorb_false_r.
  destruct (register_app [q] b x R) as (Rq & Rb & O). assert (Nq : ~ In q b) by (apply O; left; reflexivity).
  rewrite IH.
  - change (read x (p :: a)) with (getbit x p :: read x a). cbn [write]. rewrite write_set by exact Nq. f_equal. f_equal. apply map_ext_in. intros r I. apply getbit_set_other. intros Er. apply (A r); [right; exact I|left; congruence].
  - lia.
  - apply (register_length _ x); [rewrite setbit_length|]; auto.
  - intros r I J. apply (A r); right; auto.
  - intros r I. rewrite getbit_set_other by (intros Er; subst; auto). apply Z. right. exact I.
Qed.
Lemma copy_store a b x : length a = length b -> register b x -> apart a b -> (forall q, In q b -> getbit x q = false) -> execute (copy a b) x = store x b (value x a).
Proof.
  intros L R A Z. rewrite copy_run by auto. unfold store, value. f_equal. replace (length b) with (length (read x a)) by (rewrite read_length; exact L). symmetry. apply bits_number.
Qed.
Lemma zero_bits x b : (forall q, In q b -> getbit x q = false) -> value x b = 0.
Proof. induction b as [|q b IH]; intros H; [reflexivity|]. rewrite value_cons, (H q), IH; [reflexivity| |left; reflexivity]. intros r I. apply H. right. exact I. Qed.

Section in_place.
Context (q : qmod) (o : other) (sign rnn : nat) (x : list bool) (v w : Z).
Let N := modulus q.
Let away := reg q ++ [sign; rnn].
Context (HN : 2 <= N) (G : good N (shift q)) (Rg : register away x) (Cs : getbit x sign = false) (Cr : getbit x rnn = false)
        (HB : represents x (reg q) N (shift q) v) (Ho : operand_means x N (shift q) away o w).
Lemma isub_run : same_shift q o = true -> exists p k, isub q o sign rnn = Some p /\ execute p x = store x (reg q) k /\ stands_for N (shift q) k ((v - w) mod N).
Proof.
  intros S. destruct (normalize_same q o sign rnn x (reg q) w) as (a & E & Ha & Fa & U & A & _); auto.
  destruct (sum_run q o sign rnn x (reg q) v w HN Rg Cs Cr HB a E) as (_ & k & Ek & Sk); auto.
  unfold isub. rewrite Ha, S. exists (inverted (mod_adder a (reg q) N None sign rnn)), k. auto.
Qed.
Lemma iadd_same : same_shift q o = true -> exists p k, iadd q o sign rnn = Some p /\ execute p x = store x (reg q) k /\ stands_for N (shift q) k ((v + w) mod N).
Proof.
  intros S. destruct (normalize_same q o sign rnn x (reg q) w) as (a & E & Ha & Fa & U & A & _); auto.
  destruct (sum_run q o sign rnn x (reg q) v w HN Rg Cs Cr HB a E) as ((k & Ek & Sk) & _); auto.
  unfold iadd. rewrite Ha, S. exists (mod_adder a (reg q) N None sign rnn), k. auto.
Qed.
End in_place.

Lemma madd_run q sign rnn s E F : let N := modulus q in let away := reg q ++ [sign; rnn] in 2 <= N <= two (length (reg q)) -> unit_of N (shift q) E ->
  (forall i, 0 <= i -> exists k, pow2_py (i - s) N = Some k /\ k = (2 ^ i * F) mod N) ->
  forall a i x, register away x -> getbit x sign = false -> getbit x rnn = false -> value x (reg q) < N -> apart a away ->
  exists p, montgomery_addition_from i a s N q sign rnn = Some p /\ execute p x = store x (reg q) ((value x (reg q) + E * (2 ^ Z.of_nat i * value x a * F)) mod N).
Proof.
  intros N away HN U HF. induction a as [|c a IH]; intros i x Rg Cs Cr HB A.
  - exists []. split; [reflexivity|]. destruct (register_app _ _ _ Rg) as (Rb & _ & _). rewrite value_nil. replace (E * (2 ^ Z.of_nat i * 0 * F)) with 0 by ring. rewrite Z.add_0_r. pose proof (value_range x (reg q)).
    rewrite Z.mod_small by lia. symmetry. apply store_value. apply (proj1 Rb).
  - destruct (register_app _ _ _ Rg) as (Rb & _ & Off). cbn [montgomery_addition_from]. destruct (HF (Z.of_nat i)) as (k & Ek & Hk); [lia|]. rewrite Ek.
    assert (K : 0 <= k < N) by (subst k; apply Z.mod_pos_bound; lia). destruct U as (U1 & U2 & U3).
    cbn [normalize]. fold N. rewrite Z.mod_small by exact K. rewrite (U2 q k) by auto. cbn [option_map].
    set (z := (k * E) mod N). assert (Z0 : 0 <= z < N) by (apply Z.mod_pos_bound; lia).
    assert (Oc : off_control (Some c) away) by (cbn; apply A; left; reflexivity).
    assert (R := mod_adder_run x (Cl z) (reg q) N (Some c) sign rnn Rg Cs Cr ltac:(lia) HB Oc I).
    set (r := (value x (reg q) + if enabled x (Some c) then amount x (Cl z) else 0) mod N) in *. assert (Hr : 0 <= r < N) by (apply Z.mod_pos_bound; lia).
    assert (Vr : value (store x (reg q) r) (reg q) = r) by (rewrite value_store by exact Rb; apply Z.mod_small; lia).
    destruct (IH (S i) (store x (reg q) r)) as (p & Ep & Hp).
    + apply (register_length _ x); [rewrite store_length|]; auto.
    + rewrite store_other; [exact Cs|]. intros J. apply (Off sign J). left. reflexivity.
    + rewrite store_other; [exact Cr|]. intros J. apply (Off rnn J). right. left. reflexivity.
    + lia.
    + intros y J. apply A. right. exact J.
    + rewrite Ep. eexists. split; [reflexivity|]. rewrite execute_app, R, Hp, store_store, Vr by apply (proj1 Rb). f_equal.
      rewrite (value_store_off x) by (intros y J J'; apply (A y); [right; exact J|unfold away; rewrite in_app_iff; left; exact J']).
      unfold r. cbn [enabled amount]. rewrite Zplus_mod_idemp_l, value_cons, Nat2Z.inj_succ, Z.pow_succ_r by lia.
      set (va := value x a). set (vq := value x (reg q)). destruct (getbit x c).
      * assert (P : z mod N = (E * (2 ^ Z.of_nat i * F)) mod N).
        { unfold z. rewrite Z.mod_mod, Hk, Zmult_mod_idemp_l by lia. f_equal. ring. }
        replace (vq + z + E * (2 * 2 ^ Z.of_nat i * va * F)) with (z + (vq + E * (2 * 2 ^ Z.of_nat i * va * F))) by ring.
        rewrite <- Zplus_mod_idemp_l, P, Zplus_mod_idemp_l. f_equal. ring.
      * f_equal. ring.
Qed.

Lemma iadd_run q o sign rnn x v w : let N := modulus q in let away := reg q ++ [sign; rnn] in 2 <= N -> good N (shift q) -> register away x -> getbit x sign = false -> getbit x rnn = false ->
  represents x (reg q) N (shift q) v -> operand_means x N (shift q) away o w ->
  exists p k, iadd q o sign rnn = Some p /\ execute p x = store x (reg q) k /\ stands_for N (shift q) k ((v + w) mod N).
Proof.
  intros N away HN G Rg Cs Cr HB Ho. destruct (same_shift q o) eqn:S; [apply iadd_same; auto|].
  destruct o as [z|p|qs]; cbn [same_shift operand_means] in *; [discriminate| |destruct Ho as (Ho & _); rewrite Ho in S; discriminate].
  unfold iadd. cbn [normalize same_shift]. rewrite S. destruct Ho as (M & Gp & (Rp & Fp & Sp) & Ap). rewrite M.
  destruct (unit_exists N (shift q) HN G) as (E & U). destruct (unit_exists N (shift p) HN Gp) as (Ep & Up & _ & F & EF & PF).
  assert (HB' := HB). destruct HB' as (Rb & Fb & Sb). destruct (madd_run q sign rnn (shift p) E F) with (a := reg p) (i := 0%nat) (x := x) as (pr & Epr & Hpr); auto.
  { unfold stands_for in Sb. apply Sb. }
  fold N in Epr. rewrite Epr. eexists _, _. split; [reflexivity|]. split; [exact Hpr|]. fold N.
  apply Up in Sp. destruct Sp as (_ & _ & Vp).
  refine (proj1 (sum_means q sign rnn x (reg q) v w HN Cs Cr HB E (value x (reg q)) _ U eq_refl _)).
  fold N. cbn [Z.of_nat]. rewrite Z.pow_0_r, Z.mul_1_l, Vp. rewrite <- (Zmult_mod_idemp_r ((w * Ep) mod N * F) E), Zmult_mod_idemp_l. replace (w * Ep * F) with (w * (Ep * F)) by ring.
  rewrite <- (Zmult_mod_idemp_r (Ep * F)), EF, Z.mul_1_r, Zmult_mod_idemp_r. f_equal. ring.
Qed.

Section out_of_place.
Context (q : qmod) (o : other) (res : list nat) (sign rnn : nat) (x : list bool) (v w : Z).
Let N := modulus q.
Let away := res ++ [sign; rnn].
Context (HN : 2 <= N) (G : good N (shift q)) (Rg : register away x) (Fr : forall p, In p away -> getbit x p = false) (Ap : apart (reg q) away)
        (Ls : length res = length (reg q)) (HB : represents x (reg q) N (shift q) v) (Ho : operand_means x N (shift q) away o w) (S : same_shift q o = true).
Lemma parts : register res x /\ getbit x sign = false /\ getbit x rnn = false /\ ~ In sign res /\ ~ In rnn res.
Proof.
  destruct (register_app _ _ _ Rg) as (Rb & _ & Off). split; [exact Rb|]. split; [apply Fr; unfold away; rewrite in_app_iff; right; left; reflexivity|].
  split; [apply Fr; unfold away; rewrite in_app_iff; right; right; left; reflexivity|]. split; intros I; apply (Off _ I); [left|right; left]; reflexivity.
Qed.
Lemma means_store k : operand_means (store x res k) N (shift q) away o w.
Proof.
  assert (Sub : forall p, In p res -> In p away) by (intros p I; unfold away; rewrite in_app_iff; auto).
  destruct o as [z|p|qs]; cbn [operand_means] in *; [exact Ho| |].
  - destruct Ho as (M & Gp & (Rp & Fp & Sp) & A). repeat (split; [assumption|]). split; [|exact A]. split; [apply (register_length _ x); [rewrite store_length|]; auto|]. split; [exact Fp|].
    rewrite value_store_off; [exact Sp|]. intros r I J. apply (A r I). auto.
  - destruct Ho as (S0 & A & V & W). rewrite value_store_off by (intros r I J; apply (A r I); auto). auto.
Qed.
Lemma rep_store k u : stands_for N (shift q) k u -> represents (store x res k) res N (shift q) u.
Proof.
  intros Sk. destruct parts as (Rr & _). destruct HB as (_ & Fb & _). split; [apply (register_length _ x); [rewrite store_length|]; auto|]. split; [rewrite Ls; exact Fb|].
  rewrite value_store by exact Rr. rewrite Z.mod_small; [exact Sk|]. rewrite Ls. destruct Sk as (K & _). lia.
Qed.
Lemma held k : register away (store x res k) /\ getbit (store x res k) sign = false /\ getbit (store x res k) rnn = false.
Proof.
  destruct parts as (Rr & Cs & Cr & Os & Or). split; [apply (register_length _ x); [rewrite store_length|]; auto|]. rewrite !store_other by assumption. auto.
Qed.
Lemma both : exists a, normalize q o = Some a /\ forall k u, stands_for N (shift q) k u ->
  (exists k', execute (mod_adder a res N None sign rnn) (store x res k) = store x res k' /\ stands_for N (shift q) k' ((u + w) mod N)) /\
  (exists k', execute (inverted (mod_adder a res N None sign rnn)) (store x res k) = store x res k' /\ stands_for N (shift q) k' ((u - w) mod N)).
Proof.
  destruct parts as (Rr & Cs0 & Cr0 & _). destruct (normalize_same q o sign rnn x res w) as (a0 & _ & Ha & _); auto. exists a0. split; [exact Ha|]. intros k u Sk. destruct (held k) as (R & Cs & Cr).
  destruct (normalize_same q o sign rnn (store x res k) res w) as (a & E & Ha' & Fa & U & A & _); auto; [apply means_store|]. assert (Eq : a = a0) by congruence. subst a. clear Ha'.
  destruct (sum_run q o sign rnn (store x res k) res u w HN R Cs Cr (rep_store k u Sk) a0 E) as ((k1 & E1 & S1) & (k2 & E2 & S2)); auto.
  fold N in E1, E2. rewrite store_store in E1, E2 by apply (proj1 Rr). split; [exists k1|exists k2]; auto.
Qed.
Lemma copied : execute (copy (reg q) res) x = store x res (value x (reg q)).
Proof.
  destruct parts as (Rr & _). assert (Sub : forall p, In p res -> In p away) by (intros p I; unfold away; rewrite in_app_iff; auto).
  apply copy_store; auto. intros p I J. apply (Ap p I). auto.
Qed.
Lemma add_run : exists p k, add q o res sign rnn = Some (p, mkq res N (shift q)) /\ execute p x = store x res k /\ stands_for N (shift q) k ((v + w) mod N).
Proof.
  destruct both as (a & Ha & B). destruct HB as (_ & _ & Sb). destruct (B _ _ Sb) as ((k & E & Sk) & _). unfold add. rewrite Ha, S. eexists _, k. split; [reflexivity|].
  rewrite execute_app, copied. auto.
Qed.
Lemma sub_run : exists p k, sub q o res sign rnn = Some (p, mkq res N (shift q)) /\ execute p x = store x res k /\ stands_for N (shift q) k ((v - w) mod N).
Proof.
  destruct both as (a & Ha & B). destruct HB as (_ & _ & Sb). destruct (B _ _ Sb) as (_ & (k & E & Sk)). unfold sub. rewrite Ha, S. eexists _, k. split; [reflexivity|].
  rewrite execute_app, copied. auto.
Qed.
Lemma rsub_run : exists p k, rsub q o res sign rnn = Some (p, mkq res N (shift q)) /\ execute p x = store x res k /\ stands_for N (shift q) k ((w - v) mod N).
Proof.
  destruct both as (a & Ha & B). destruct parts as (Rr & Cs & Cr & Os & Or). assert (V0 : value x res = 0) by (apply zero_bits; intros p I; apply Fr; unfold away; rewrite in_app_iff; auto).
  assert (S0 : stands_for N (shift q) 0 0).
  { split; [lia|]. split; [lia|]. rewrite !Z.mul_0_l. destruct (0 <=? shift q); reflexivity. }
  destruct (isub_run (mkq res N (shift q)) (Mod q) sign rnn x 0 v) as (p & k & Ep & Hp & Sk); auto; cbn [reg modulus shift].
  - assert (P := rep_store 0 0 S0). rewrite store_same_value in P; [exact P|apply (proj1 Rr)|]. rewrite V0. apply Z.mod_0_l. pose proof (two_pos (length res)). lia.
  - cbn. auto.
  - cbn. apply Z.eqb_refl.
  - cbn [reg modulus shift] in *. destruct (B _ _ Sk) as ((k' & E & Sk') & _). unfold rsub. rewrite Ha, S. cbv zeta. fold N. rewrite Ep. eexists _, k'. split; [reflexivity|]. rewrite execute_app, Hp. split; [exact E|].
    replace ((w - v) mod N) with (((0 - v) mod N + w) mod N); [exact Sk'|]. rewrite Zplus_mod_idemp_l. f_equal. ring.
Qed.
End out_of_place.
