(** the qubits of the gates of a synthesised circuit *)
From Verif.Gray Require Import GrayModel GraySpec GrayProofs GrayWalk GrayEmit GrayFinal.
Local Open Scope nat_scope.
Definition gate_ok (n : nat) (g : ggate) : Prop := match g with GCX c t => c < n /\ t < n /\ c <> t | GP _ q => q < n end.
Lemma emit_ok n top : forall l ph, (forall c t p, In (c, t, p) l -> c < n /\ t < n) -> Forall (gate_ok n) (fst (emit top l ph)).
Proof.
  induction l as [|((c, t), p) l IH]; intros ph H; [constructor|]. cbn [emit]. destruct (match top with Some k => negb (t =? k) | None => false end); [constructor|].
  assert (H' : forall c t p, In (c, t, p) l -> c < n /\ t < n) by (intros; eapply H; right; eassumption).
  destruct (H c t p) as (Hc & Ht); [left; reflexivity|].
  assert (CX : Forall (gate_ok n) (if c =? t then [] else [GCX c t])) by (destruct (Nat.eqb_spec c t); repeat constructor; cbn; auto).
  destruct (Qc_eq_bool (ph p) 0%Qc).
  - specialize (IH ph H'). destruct (emit top l ph). cbn [fst] in *. apply Forall_app. auto.
  - specialize (IH (zero_at ph p) H'). destruct (emit top l (zero_at ph p)). cbn [fst] in *. apply Forall_app. split; [exact CX|]. constructor; [exact Ht|exact IH].
Qed.
Lemma controls_lt n : forall tr prev, path n (prev :: tr) -> Forall (fun c => c < n) (controls prev tr).
Proof.
  induction tr as [|t tr IH]; intros prev H; [constructor|]. destruct (proj1 (path_cons _ _ _ _) H) as ((k & Hk & ->) & P). cbn [controls]. rewrite control_adj. constructor; [exact Hk|apply IH, P].
Qed.
Lemma one_bit_le b ph loc : (forall p, in_block b p -> loc p = negb (Qc_eq_bool (ph p) 0%Qc)) -> min_ok b ph ->
  forall c t p, In (c, t, p) (one_bit loc b) -> c <= b /\ t = b.
Proof.
  intros HL HM c t p Hin. split; [|apply one_bit_target in Hin; exact Hin]. unfold one_bit in Hin.
  set (blk := map _ (rev (seq 0 (2 ^ b)))) in *. assert (LS : forall p, In p (filter loc blk) <-> in_block b p /\ ph p <> 0%Qc).
  { intros q. rewrite filter_In. unfold blk. rewrite block_list. split; intros (A & C); (split; [exact A|]); rewrite HL in * by exact A; apply Qcb_true; exact C. }
  destruct (filter loc blk) as [|l0 ls0] eqn:EL; [destruct Hin|].
  destruct (Nat.eqb_spec b 0) as [->|Hb0].
  { assert (E1 : blk = [1%N]) by reflexivity. rewrite E1 in EL. cbn [filter] in EL. destruct (loc 1%N); [|discriminate]. injection EL as <- <-.
    cbn in Hin. destruct Hin as [E|[E|[E|[]]]]; injection E as <- _ _; lia. }
  set (ls := l0 :: ls0) in *. set (ms := map (fun x0 => (x0 mod bit b)%N) ls) in *.
  assert (MS : forall y, In y ms <-> state b y /\ ph (N.lxor y (bit b)) <> 0%Qc).
  { intros y. unfold ms. rewrite in_map_iff. split.
    - intros (q & <- & Hp). apply LS in Hp. destruct Hp as ((z & Hz & ->) & D). rewrite block_mod by exact Hz. auto.
    - intros (Hy & D). exists (N.lxor y (bit b)). split; [apply block_mod, Hy|]. apply LS. split; [exists y; auto|exact D]. }
  assert (NE : ms <> []) by (unfold ms, ls; discriminate). destruct (minimum_spec ms NE) as (IM & LM).
  assert (NM : near b (minimum ms)).
  { apply MS in IM. destruct IM as (A & D). apply HM; [exact A|exact D|]. intros z Hz Dz. apply LM, MS. auto. }
  assert (FM : Forall (state b) ms) by (apply Forall_forall; intros y Hy; apply MS in Hy; tauto).
  pose proof (traversal_ok b ms (S b) ltac:(lia) eq_refl NE FM NM) as T. unfold single_qb_traversal in *. cbn [snd fst] in T.
  set (tr1 := if N.eqb (hd 0%N _) 0 then _ else _) in *. clearbody tr1. destruct T as ((N1 & P & F) & HH & _).
  destruct tr1 as [|t0 tr]; [contradiction|]. cbn [hd tl] in *. subst t0. cbn [combine map fst snd] in Hin. destruct Hin as [E|Hin]; [injection E as <- _ _; lia|].
  apply in_map_iff in Hin. destruct Hin as ((c', q) & E & Hin). injection E as <- _ _. apply in_combine_l in Hin. pose proof (controls_lt b tr 0%N P) as C. rewrite Forall_forall in C. specialize (C _ Hin). cbn [fst]. lia.
Qed.
Lemma gray_gates_ok n phases tolerant : (forall b, b < n -> least_pair n phases b) -> Forall (gate_ok n) (gray_synth_qc n phases tolerant).
Proof.
  intros H. unfold gray_synth_qc, gray_synth. apply emit_ok. intros c t p Hin. apply in_flat_map in Hin. destruct Hin as (b & Hb & Hin). apply in_rev, in_seq in Hb.
  destruct (one_bit_le b (phase_shifts n (fun x => nth (be n x) phases 0%Qc)) _ (fun p _ => eq_refl) (least_pair_min n phases b ltac:(lia) (H b ltac:(lia))) c t p Hin). lia.
Qed.
