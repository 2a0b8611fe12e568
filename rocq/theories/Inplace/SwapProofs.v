(** The swaps of cyclic_shift touch the register only; swap circuits move basis states. *)
From Coq Require Import List ZArith Bool Lia Arith QArith Qround Qcanon Ring Ring_theory.
Import ListNotations.
From Verif.Iterables Require Import IterModel IterSpec IterProofs ShiftProofs.
From Verif.Inverse Require Import InvModel InvSpec InvProofs.
From Verif.CtrlOps Require Import CtrlModel CtrlSpec CtrlProofs.
From Verif.Fourier Require Import FourierModel FourierSpec RegProofs FourierProofs FourierFinal.
From Verif.Inplace Require Import InplModel.
Local Open Scope nat_scope.

Definition within (ids : list nat) (sw : list (nat * nat)) : Prop := forall a b, In (a, b) sw -> In a ids /\ In b ids.
Lemma within_app ids s t : within ids s -> within ids t -> within ids (s ++ t).
Proof. intros A B a b I. apply in_app_iff in I as [I|I]; auto. Qed.
Lemma within_incl ids ids' s : within ids s -> incl ids ids' -> within ids' s.
Proof. intros W I a b H. destruct (W a b H). auto. Qed.
Lemma within_flat {A} ids (f : A -> list (nat * nat)) l : (forall a, In a l -> within ids (f a)) -> within ids (flat_map f l).
Proof. intros H a b I. apply in_flat_map in I as (c & J & K). exact (H c J a b K). Qed.
Lemma saeedi_within d ids : within ids (saeedi_swaps d ids).
Proof.
  apply within_flat. intros i I. cbv zeta. destruct (negb ((length ids - i) mod length ids =? i + d) && (i + d <? length ids)) eqn:E; [|intros a b []].
  apply andb_true_iff in E as [_ E]. apply Nat.ltb_lt in E. intros a b [J|[]]. injection J as <- <-. unfold at_. split; apply nth_In; [apply Nat.mod_upper_bound; lia|exact E].
Qed.
Lemma ladder_within j ids : within ids (ladder_level ids j).
Proof.
  apply within_flat. intros i I. destruct ((i mod (2 * 2 ^ j) =? 0) && (i + 2 ^ j <? length ids)) eqn:E; [|intros a b []].
  apply andb_true_iff in E as [_ E]. apply Nat.ltb_lt in E. intros a b [J|[]]. injection J as <- <-. unfold at_. split; apply nth_In; lia.
Qed.
Lemma shift_one_within ids : ids <> [] -> within ids (shift_one ids).
Proof.
  intros N. unfold shift_one, singular_shift. apply within_app; [|apply within_app].
  - apply within_flat. intros j _. eapply within_incl; [apply ladder_within|]. intros a I. rewrite <- (firstn_skipn (2 ^ Nat.log2 (length ids)) ids). apply in_app_iff. auto.
  - eapply within_incl; [apply saeedi_within|]. intros a [<-|I]; [apply nth_In; destruct ids; [easy|cbn; lia]|]. rewrite <- (firstn_skipn (2 ^ Nat.log2 (length ids)) ids). apply in_app_iff. auto.
  - eapply within_incl; [apply saeedi_within|]. intros a [<-|I]; [apply nth_In; destruct ids; [easy|cbn; lia]|]. rewrite <- (firstn_skipn (2 ^ Nat.log2 (length ids)) ids). apply in_app_iff. auto.
Qed.
Lemma one_cycle_keys fuel : forall pi this next cycle c pi', one_cycle fuel pi this next cycle = Some (c, pi') ->
  incl c (cycle ++ keys pi) /\ incl (keys pi') (keys pi) /\ c <> [].
Proof.
  induction fuel as [|fuel IH]; intros pi this next cycle c pi' H; [discriminate|]. cbn [one_cycle] in H. destruct (has this pi) eqn:E; [|discriminate].
  assert (K : In this (keys pi)) by (apply has_in; exact E).
  assert (D : incl (keys (delete this pi)) (keys pi)) by (intros a I; apply del_keys in I; tauto).
  destruct (lookup next (delete this pi)) as [nn|].
  - apply IH in H as (A & B & C). split; [|split; [intros a I; auto|exact C]]. intros a I. apply A in I. rewrite <- app_assoc in I. apply in_app_iff in I as [I|[->|I]]; apply in_app_iff; auto.
  - injection H as <- <-. split; [|split; [exact D|destruct cycle; discriminate]]. intros a I. apply in_app_iff in I as [I|[->|[]]]; apply in_app_iff; auto.
Qed.
Lemma cycles_keys fuel : forall pi cs, cycles_of fuel pi = Some cs -> forall c, In c cs -> c <> [] /\ incl c (keys pi).
Proof.
  induction fuel as [|fuel IH]; intros pi cs H c I; (destruct pi as [|[e this] pi]; [injection H as <-; destruct I|]); [discriminate|].
  set (P := (e, this) :: pi) in *. change (cycles_of (S fuel) P) with (match lookup this P with Some next => match one_cycle (S (length P)) P this next [] with
          | Some (c, pi) => match cycles_of fuel pi with Some cs => Some (c :: cs) | None => None end | None => None end | None => None end) in H.
  destruct (lookup this P) as [next|]; [|discriminate]. destruct (one_cycle (S (length P)) P this next []) as [[c' pi']|] eqn:E; [|discriminate].
  apply one_cycle_keys in E as (A & B & C). destruct (cycles_of fuel pi') as [cs'|] eqn:E'; [|discriminate]. injection H as <-. destruct I as [<-|I]; [auto|].
  destruct (IH _ _ E' c I) as [D F]. split; [exact D|]. intros a J. auto.
Qed.
Lemma permute_within ids perm sw : length perm = length ids -> permute_iterable ids perm = Some sw -> within ids sw.
Proof.
  intros L H. unfold permute_iterable in H. destruct (to_cycles (inverse_perm perm)) as [cs|] eqn:E; [|discriminate]. injection H as <-. apply within_flat. intros c I.
  destruct (cycles_keys _ _ _ E c I) as [N K]. unfold shift_cycle. destruct (_ =? 0); [intros a b []|].
  eapply within_incl; [apply shift_one_within; destruct c; [easy|discriminate]|]. intros a J. apply in_map_iff in J as (i & <- & J). apply nth_In. apply K in J. unfold keys in J. apply in_map_iff in J as ([k v] & <- & J). apply in_combine_l in J.
  apply in_seq in J. cbn [fst]. assert (length (inverse_perm perm) = length ids) by (unfold inverse_perm; rewrite map_length, seq_length; exact L). lia.
Qed.
Lemma shift_pos_within ids k sw : ids <> [] -> shift_pos ids k = Some sw -> within ids sw.
Proof.
  intros N H. unfold shift_pos in H. destruct (k =? 1)%Z; [injection H as <-; apply shift_one_within; exact N|]. eapply permute_within; [|exact H]. rewrite map_length, seq_length. reflexivity.
Qed.
Lemma cyclic_within ids k sw : cyclic_shift ids k = Some sw -> within ids sw.
Proof.
  intros H. unfold cyclic_shift in H. destruct ids as [|i ids]; [discriminate|]. set (l := i :: ids) in *. destruct (_ =? 0)%Z; [injection H as <-; intros a b []|]. destruct (k <? 0)%Z.
  - eapply within_incl; [eapply shift_pos_within; [|exact H]|intros a I; rewrite <- in_rev in I; exact I]. unfold l. cbn [rev]. destruct (rev ids); discriminate.
  - eapply shift_pos_within; [discriminate|exact H].
Qed.
(** the basis state after a list of swaps *)
Definition swap_bits (x : list bool) (p : nat * nat) : list bool := setbit (setbit x (fst p) (getbit x (snd p))) (snd p) (getbit x (fst p)).
Definition swapped (sw : list (nat * nat)) (x : list bool) : list bool := fold_left swap_bits sw x.
Lemma swap_bits_length x p : length (swap_bits x p) = length x.
Proof. unfold swap_bits. rewrite !setbit_length. reflexivity. Qed.
Lemma swapped_length sw : forall x, length (swapped sw x) = length x.
Proof. induction sw as [|p sw IH]; intros x; [reflexivity|]. cbn [swapped fold_left]. unfold swapped in IH. rewrite IH. apply swap_bits_length. Qed.
Lemma swap_bits_get x p : fst p < length x -> snd p < length x -> forall q, getbit (swap_bits x p) q = swap (getbit x) (fst p) (snd p) q.
Proof.
  intros A B q. unfold swap_bits, swap. destruct (Nat.eqb_spec q (fst p)) as [->|N].
  - destruct (Nat.eq_dec (fst p) (snd p)) as [E|E]; [rewrite <- E, getbit_set_same by (rewrite setbit_length; lia); reflexivity|]. rewrite getbit_set_other by auto. apply getbit_set_same. exact A.
  - destruct (Nat.eqb_spec q (snd p)) as [->|M]; [apply getbit_set_same; rewrite setbit_length; exact B|]. rewrite !getbit_set_other by auto. reflexivity.
Qed.
Lemma swapped_get ids sw : within ids sw -> forall x, (forall q, In q ids -> q < length x) -> forall q, getbit (swapped sw x) q = run_swaps sw (getbit x) q.
Proof.
  induction sw as [|p sw IH]; intros W x L q; [reflexivity|]. cbn [swapped fold_left]. unfold swapped in IH. destruct (W (fst p) (snd p)) as [A B]; [destruct p; left; reflexivity|].
  rewrite IH; [|intros a b I; apply W; right; exact I|intros r I; rewrite swap_bits_length; auto]. rewrite IterProofs.run_cons. apply IterProofs.run_ext. apply swap_bits_get; auto.
Qed.

Section ring.
Context {R : Type} (rO rI : R) (radd rmul rsub : R -> R -> R) (ropp : R -> R) (RT : ring_theory rO rI radd rmul rsub ropp eq).
Context (expi chalf shalf : Qc -> R) (im : R).
Add Ring rr7 : RT.
Notation effect := (effect Qcplus rO rI radd rmul ropp expi chalf shalf im).
Notation run := (run_circuit Qcplus rO rI radd rmul ropp expi chalf shalf im).
Notation run_swap := (FourierFinal.run_swap rO rI radd rmul rsub ropp RT expi chalf shalf im).
Local Notation amp := (list bool -> R).
(** the circuit takes the basis state x to the basis state y *)
Definition moves (c : body) (x y : list bool) : Prop := forall psi : amp, run c psi y = psi x.
Lemma moves_nil x : moves [] x x. Proof. intros psi. reflexivity. Qed.
Lemma moves_app c d x y z : moves c x y -> moves d y z -> moves (c ++ d) x z.
Proof. intros A B psi. rewrite (FourierProofs.run_app rO rI radd rmul ropp expi chalf shalf im). rewrite B. apply A. Qed.
Lemma swap_same x a : swap_bits x (a, a) = x.
Proof. unfold swap_bits. cbn [fst snd]. rewrite setbit_twice. apply setbit_get. Qed.
Lemma moves_swap x a b : a <> b -> a < length x -> b < length x -> moves [qSwap a b] x (swap_bits x (a, b)).
Proof.
  intros N A B psi. change (run [qSwap a b] ?p ?z) with (effect gSwap [a; b] p z). unfold swap_bits. cbn [fst snd]. rewrite run_swap by (rewrite ?setbit_length; auto). apply f_equal.
  rewrite (getbit_set_same (setbit x a (getbit x b)) b) by (rewrite setbit_length; exact B). rewrite (getbit_set_other _ b a) by auto. rewrite getbit_set_same by exact A.
  rewrite (setbit_comm _ b a) by auto. rewrite !setbit_twice, setbit_get. apply setbit_get.
Qed.
Lemma moves_swaps ids sw : within ids sw -> forall x, (forall q, In q ids -> q < length x) -> moves (swap_gates sw) x (swapped sw x).
Proof.
  induction sw as [|[a b] sw IH]; intros W x L; [apply moves_nil|]. destruct (W a b) as [A B]; [left; reflexivity|]. cbn [swap_gates flat_map swapped fold_left]. apply (moves_app _ _ _ (swap_bits x (a, b))).
  - destruct (Nat.eqb_spec a b) as [->|N]; [rewrite swap_same; apply moves_nil|apply moves_swap; auto].
  - apply IH; [intros c d I; apply W; right; exact I|]. intros q I. rewrite swap_bits_length. auto.
Qed.
(** controlled circuits *)
Lemma bits_one b : bits_eqb [b] [true] = b.
Proof. destruct b; reflexivity. Qed.
Lemma effect_ctrl c o qs psi x : effect (Ctrl [true] o) (c :: qs) psi x = if getbit x c then effect o qs psi x else psi x.
Proof. cbn [InvSpec.effect length firstn skipn map]. rewrite bits_one. reflexivity. Qed.
Lemma ctrl_off c g : forall (psi : amp) x, getbit x c = false -> run (controlled c g) psi x = psi x.
Proof.
  induction g as [|[o qs] g IH] using rev_ind; intros psi x H; [reflexivity|]. unfold controlled. rewrite map_app. rewrite (FourierProofs.run_app rO rI radd rmul ropp expi chalf shalf im). cbn [map].
  change (run [?g] ?p ?z) with (effect (fst g) (snd g) p z). cbn [fst snd]. rewrite effect_ctrl, H. apply IH. exact H.
Qed.
Lemma moves_ctrl_swaps c ids sw : within ids sw -> ~ In c ids -> forall x, (forall q, In q ids -> q < length x) -> getbit x c = true -> moves (controlled c (swap_gates sw)) x (swapped sw x).
Proof.
  induction sw as [|[a b] sw IH]; intros W NC x L H; [apply moves_nil|]. destruct (W a b) as [A B]; [left; reflexivity|]. cbn [swap_gates flat_map swapped fold_left]. unfold controlled. rewrite map_app.
  assert (Hc : getbit (swap_bits x (a, b)) c = true). { rewrite swap_bits_get by (cbn; auto). unfold swap. cbn [fst snd]. destruct (Nat.eqb_spec c a) as [->|_]; [contradiction|]. destruct (Nat.eqb_spec c b) as [->|_]; [contradiction|]. exact H. }
  apply (moves_app _ _ _ (swap_bits x (a, b))).
  - destruct (Nat.eqb_spec a b) as [->|N]; [rewrite swap_same; apply moves_nil|]. intros psi. cbn [map qSwap]. change (run [?g] ?p ?z) with (effect (fst g) (snd g) p z). cbn [fst snd]. rewrite effect_ctrl, Hc. exact (moves_swap x a b N (L a A) (L b B) psi).
  - apply IH; auto; [intros d e I; apply W; right; exact I|]. intros q I. rewrite swap_bits_length. auto.
Qed.
End ring.
