(** Proofs about the Thapliyal adder. *)
From Coq Require Import List ZArith Bool Lia Arith.
Import ListNotations.
From Verif.Lib Require CliffordT.
From Verif.Lib Require Import Rev.
From Verif.Division Require Import ThapModel.

Section core.
Variables (n : nat) (s : bstate) (p : Z) (a b : nat -> bool).
Local Notation c := (carry a b false).
Definition St (fa fb : nat -> bool) (co : bool) : bstate := fun q => let '(r, i) := q in
  match r with 0 => fa i | 1 => fb i | 5 => if i =? 0 then co else s (5, i) | _ => s (r, i) end.
Definition A3 (k i : nat) : bool := if i <=? k then xorb (a i) (c i) else if (2 <=? i) && (i <? n) then xorb (a i) (a (i - 1)) else a i.
Definition A2 (k i : nat) : bool := if (S k <=? i) && (i <? n) then xorb (a i) (a (i - 1)) else a i.
Definition A5 (k i : nat) : bool := if i <=? k then a i else if (2 <=? i) && (i <? n) then xorb (a i) (a (i - 1)) else a i.
Definition B1 (k i : nat) : bool := if (1 <=? i) && (i <? k) then xorb (a i) (b i) else b i.
Definition B4 (k i : nat) : bool := if i =? 0 then (if k =? 0 then xorb (b 0) (a 0) else b 0) else if i <? k then xorb (a i) (b i) else if i <? n then xorb (b i) (c i) else b i.
Definition B6 (k i : nat) : bool := if i =? 0 then xorb (b 0) (a 0) else if i <? k then sumbit a b false i else if i <? n then xorb (b i) (c i) else b i.
Ltac go := eexists; split; [cbn [run step]; reflexivity|]; cbn [snd]; intros [[|[|[|[|[|[|r]]]]]] i];
  unfold St, upd, qeq, all_set; cbn [fst snd Nat.eqb andb forallb]; try reflexivity.
Lemma s1 co k : 1 <= k < n -> exec [CX (0, k) (1, k)] (p, St a (B1 k) co) (p, St a (B1 (S k)) co).
Proof. intros H. go; unfold B1; bcase; try reflexivity; bsolve. Qed.
Lemma s2 co k : 1 <= k < n - 1 -> exec [CX (0, k) (0, S k)] (p, St (A2 (S k)) (B1 n) co) (p, St (A2 k) (B1 n) co).
Proof. intros H. go; unfold A2; bcase; try reflexivity. replace (S k - 1) with k by lia. bsolve. Qed.
Lemma s3 co k : 0 <= k < n - 1 -> exec [CCX (0, k) (1, k) (0, S k)] (p, St (A3 k) (B1 n) co) (p, St (A3 (S k)) (B1 n) co).
Proof. intros H. destruct k as [|k]; go; unfold A3, B1; bcase; try reflexivity; rewrite ?Nat.sub_succ, ?Nat.sub_0_r; bsolve. Qed.
Lemma s4 co k : 0 <= k < n - 1 -> exec (TR (0, k) (1, k) (0, S k)) (p, St (A3 (S k)) (B4 (S k)) co) (p, St (A3 k) (B4 k) co).
Proof. intros H. unfold TR. destruct k as [|k]; go; unfold A3, B4; bcase; try reflexivity; rewrite ?Nat.sub_succ, ?Nat.sub_0_r; bsolve. Qed.
Lemma s5 co k : 1 <= k < n - 1 -> exec [CX (0, k) (0, S k)] (p, St (A5 k) (B4 0) co) (p, St (A5 (S k)) (B4 0) co).
Proof. intros H. go; unfold A5; bcase; try reflexivity; rewrite ?Nat.sub_succ, ?Nat.sub_0_r; bsolve. Qed.
Lemma s6 co k : 1 <= k < n -> exec [CX (0, k) (1, k)] (p, St a (B6 k) co) (p, St a (B6 (S k)) co).
Proof. intros H. go; unfold B6; bcase; try reflexivity; bsolve. Qed.
Lemma mid co : 2 <= n -> exec (TR (0, n - 1) (1, n - 1) (5, 0)) (p, St (A3 (n - 1)) (B1 n) (xorb co (a (n - 1)))) (p, St (A3 (n - 1)) (B4 (n - 1)) (xorb co (c n))).
Proof.
  intros H. destruct n as [|m] eqn:N; [lia|]. rewrite !Nat.sub_succ, !Nat.sub_0_r. unfold TR. go; unfold A3, B4, B1; bcase; try reflexivity; bsolve.
Qed.
Definition Done (co : bool) : bstate := St a (fun i => if i <? n then sumbit a b false i else b i) co.
Lemma St_ext fa fb co fa' fb' co' : (forall i, fa i = fa' i) -> (forall i, fb i = fb' i) -> co = co' -> forall q, St fa fb co q = St fa' fb' co' q.
Proof. intros H1 H2 <- [[|[|[|[|[|[|r]]]]]] i]; cbn; auto. Qed.
Lemma thapliyal_exec co : 2 <= n -> exec (thapliyal n (fun i => (0, i)) (fun i => (1, i)) (5, 0)) (p, St a b co) (p, Done (xorb co (c n))).
Proof.
  intros Hn. unfold thapliyal.
  eapply exec_app. { eapply exec_pre; [|apply (exec_loop_to 1 (n - 1) n _ (fun k => (p, St a (B1 k) co))); [lia|intros; apply s1; lia]]. apply St_ext; auto. intros i. unfold B1. bcase; reflexivity. }
  eapply exec_app with (st2 := (p, St (A2 (n - 1)) (B1 n) (xorb co (a (n - 1))))).
  { go; unfold A2; bcase; try reflexivity. apply xorb_comm. }
  eapply exec_app. { apply (exec_loop_rev_to 1 (n - 2) (n - 1) _ (fun k => (p, St (A2 k) (B1 n) (xorb co (a (n - 1)))))); [lia|]. intros; apply s2; lia. }
  eapply exec_app. { eapply exec_pre; [|apply (exec_loop_to 0 (n - 1) (n - 1) _ (fun k => (p, St (A3 k) (B1 n) (xorb co (a (n - 1)))))); [lia|intros; apply s3; lia]]. apply St_ext; auto. intros [|i]; unfold A2, A3; bcase; try reflexivity; bsolve. }
  eapply exec_app; [apply mid, Hn|].
  eapply exec_app. { apply (exec_loop_rev_to 0 (n - 1) (n - 1) _ (fun k => (p, St (A3 k) (B4 k) (xorb co (c n))))); [lia|]. intros; apply s4; lia. }
  eapply exec_app. { eapply exec_pre; [|apply (exec_loop_to 1 (n - 2) (n - 1) _ (fun k => (p, St (A5 k) (B4 0) (xorb co (c n))))); [lia|intros; apply s5; lia]]. apply St_ext; auto. intros [|i]; unfold A3, A5; bcase; try reflexivity; bsolve. }
  eapply exec_pre; [|eapply exec_post; [|apply (exec_loop_to 1 (n - 1) n _ (fun k => (p, St a (B6 k) (xorb co (c n))))); [lia|intros; apply s6; lia]]].
  - apply St_ext; auto; intros i; unfold A5, B4, B6; bcase; reflexivity.
  - apply St_ext; auto. intros i. unfold B6. bcase; try reflexivity. unfold sumbit. cbn [carry]. rewrite xorb_false_r. apply xorb_comm.
Qed.
End core.

Lemma tr_ok f a b c : trun TR_gate f [a; b; c] = CliffordT.wscale 2 (wsqrt2 (f [a; xorb a b; xorb c (a && xorb a b)])).
Proof.
  destruct a, b, c; cbv [TR_gate TR_circuit map rev app tinv negb trun tstep CliffordT.bit nth CliffordT.flip CliffordT.set wsqrt2 CliffordT.wphase xorb andb];
  repeat match goal with |- context[?f ?l] =>
    match type of (f l) with CliffordT.W => is_var f; let a := fresh "a" in let b := fresh "b" in let c := fresh "c" in let d := fresh "d" in
      destruct (f l) as [[[a b] c] d] end end;
  cbn [CliffordT.wadd CliffordT.wneg CliffordT.wscale CliffordT.womega]; apply CliffordT.W_eq; lia.
Qed.
