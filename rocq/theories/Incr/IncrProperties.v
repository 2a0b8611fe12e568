(** C16: incrementation circuits. *)
From Verif.Incr Require Import IncrModel IncrProofs.
Local Open Scope nat_scope.

(** increment (QuantumFloat.incr) for a register of [n] qubits, signed or not, and any amount (in units of the exponent): it
    either raises, and then the absolute value of the amount is not a value of the register, or adds the amount modulo 2^n
    without any phase and with everything else (in particular the ancillas in registers 1 and 2) unchanged. *)
Theorem C16_increment : forall (signed : bool) n (amount : Z) p (s : bstate), (forall i, s (1, i) = false) -> s (2, 0) = false ->
  match increment signed n amount with
  | Raises => amount <> 0%Z /\ ~ (Z.abs amount < 2 ^ (if signed then Z.of_nat n - 1 else Z.of_nat n))%Z
  | Circuit l => exists s', run l (p, s) = Some (p, s') /\ regval s' 0 n = ((regval s 0 n + amount) mod 2 ^ Z.of_nat n)%Z /\
      forall r i, ~ (r = 0 /\ i < n) -> s' (r, i) = s (r, i)
  end.
Proof.
  intros signed n amount p s H1 H2. pose proof (increment_ok signed n amount p s H1 H2) as H. destruct (increment signed n amount); [|exact H].
  destruct H as [H0 R]. split; [exact H0|]. intros L. unfold representable in R. destruct signed; apply andb_false_iff in R; destruct R; [pose proof (Z.pow_nonneg 2 (Z.of_nat n - 1) ltac:(lia))|..]; lia.
Qed.
Print Assumptions C16_increment.
(** it does raise otherwise: no amount that does not fit is silently reduced *)
Theorem C16_raises : forall (signed : bool) n (amount : Z), amount <> 0%Z -> ~ (Z.abs amount < 2 ^ (if signed then Z.of_nat n - 1 else Z.of_nat n))%Z ->
  increment signed n amount = Raises.
Proof.
  intros signed n amount H0 H. unfold increment. destruct (Z.eqb_spec amount 0); [contradiction|].
  assert (R : representable signed n (Z.abs amount) = false) by (unfold representable; destruct signed; apply andb_false_iff; right; lia).
  rewrite R. reflexivity.
Qed.
Print Assumptions C16_raises.
(** the ladder alone: increment_qb_list on any non-empty list (here the qubits from [off] on) *)
Theorem C16_plus_one : forall n off p (s : bstate), 1 <= n -> (forall i, s (1, i) = false) ->
  exists s', run (increment_qb_list n (fun i => (0, off + i))) (p, s) = Some (p, s') /\
    val n (fun i => s' (0, off + i)) = ((val n (fun i => s (0, off + i)%nat) + 1) mod 2 ^ Z.of_nat n)%Z /\
    forall r i, ~ (r = 0 /\ off <= i < off + n) -> s' (r, i) = s (r, i).
Proof.
  intros n off p s Hn Hc. destruct (list_exec n off s Hc p Hn) as (s' & R & E). cbn [snd] in E. exists s'. split; [exact R|]. split.
  - transitivity (val n (sumbit none (lf off s) true)); [apply val_ext; intros i Hi; rewrite E; apply lst_q; exact Hi|]. rewrite adder_mod, val_none. reflexivity.
  - intros r i H. rewrite E. unfold lst. destruct (Nat.eqb_spec r 1) as [->|]; [symmetry; apply Hc|].
    destruct (Nat.eqb_spec r 0) as [->|]; cbn [andb]; [|reflexivity]. bcase; reflexivity.
Qed.
Print Assumptions C16_plus_one.
(** lin_incr: a carry-in (absent: 0) is added to the list of the [n] qubits and, on top of them, the carry-out qubit if present *)
Theorem C16_carry_in : forall n (c_in c_out : bool) p (s : bstate), (forall i, s (1, i) = false) ->
  let m := n + (if c_out then 1 else 0) in let bit i := if i <? n then (0, i) else (4, 0) in
  match lin_incr n c_in c_out with
  | Raises => m = 0 \/ (m = 1 /\ c_in = false)
  | Circuit l => exists s', run l (p, s) = Some (p, s') /\
      val m (fun i => s' (bit i)) = ((val m (fun i => s (bit i)) + b2z (c_in && s (3, 0)%nat)) mod 2 ^ Z.of_nat m)%Z /\
      forall r i, ~ (r = 0 /\ i < n) -> ~ (c_out = true /\ r = 4 /\ i = 0) -> s' (r, i) = s (r, i)
  end.
Proof. exact lin_ok. Qed.
Print Assumptions C16_carry_in.

(** 5 qubits holding 13: + 1 = 14, + 20 = 33 = 1, - 14 = -1 = 31, + 32 raises; with carry-in and carry-out on 4 qubits: 15 + 1 *)
Definition reg (v : Z) : bstate := fun q => (fst q =? 0) && Z.testbit v (Z.of_nat (snd q)) || ((fst q =? 3) && (snd q =? 0)).
Definition after (o : outcome) (v : Z) : option (Z * Z * bool) :=
  match o with Raises => None | Circuit l => match run l (0%Z, reg v) with Some (p, s) => Some (p, regval s 0 5, s (4, 0)) | None => None end end.
Example C16_ex : (forall v i, reg v (1, i) = false) /\ (forall v, reg v (2, 0) = false) /\
  after (increment false 5 1) 13 = Some (0, 14, false)%Z /\ after (increment false 5 20) 13 = Some (0, 1, false)%Z /\
  after (increment false 5 (-14)) 13 = Some (0, 31, false)%Z /\ increment false 5 32 = Raises /\ increment true 5 16 = Raises /\
  after (increment true 5 (-15)) 13 = Some (0, 30, false)%Z /\ after (lin_incr 4 true true) 15 = Some (0, 0, true)%Z.
Proof. split; [reflexivity|]. split; [reflexivity|]. vm_compute. repeat split. Qed.
