(** hybrid_mult with numbers. *)
From Coq Require Import List ZArith Bool Lia Arith QArith Qcanon Field Ring Ring_theory.
Import ListNotations.
From Verif.Inverse Require Import InvModel InvSpec InvProofs.
From Verif.CtrlOps Require Import CtrlModel CtrlSpec CtrlProofs.
From Verif.QFloat Require Import QFModel QFSpec QFProofs SbpProofs.
From Verif.Fourier Require Import FourierModel FourierSpec RegProofs FourierProofs FourierFinal AdderProofs.
From Verif.Sbp Require Import SbpModel SbpSpec EncProofs NumProofs CircProofs.
From Verif.PhasePoly Require PhaseProofs.
From Verif.Hybrid Require Import HybridModel HybridSpec PhasedProofs CoreProofs HybridFinal HybridRun.
Local Open Scope nat_scope.
Local Notation value := FourierSpec.value.

Lemma pw_cancel a b e : (inject_Z a * pw e == inject_Z b * pw e)%Q -> a = b.
Proof. intros H. apply Qmult_inj_r in H; [apply inject_Z_injective; exact H|apply pw_nz]. Qed.
Lemma product_number x y o qx qy cl z : (expo o <= expo x + expo y)%Z ->
  (inject_Z (product x y qx qy (cl * 2 ^ (expo x + expo y - expo o)) z) * pw (expo o) == inject_Z cl * (holds x z qx * holds y z qy))%Q.
Proof.
  intros H. unfold product, holds, QFSpec.value. rewrite !inject_Z_mult. assert (E : (inject_Z (2 ^ (expo x + expo y - expo o)) * pw (expo o) == pw (expo x) * pw (expo y))%Q).
  { rewrite <- pw_add, PhaseProofs.inject_pow by lia. replace (expo x + expo y - expo o + expo o)%Z with (expo x + expo y)%Z by ring. reflexivity. }
  set (u := inject_Z (2 ^ _)) in *. transitivity (inject_Z cl * inject_Z (mantissa x (value z qx)) * inject_Z (mantissa y (value z qy)) * (u * pw (expo o)))%Q; [ring|]. rewrite E. ring.
Qed.
Lemma run_guard x y o qx qy out i q t cl anc h c : hybrid_run x y o qx qy out i q t cl anc h = Some c -> 0 < msize y /\ (expo o <= expo x + expo y)%Z.
Proof. unfold hybrid_run. destruct ((0 <? msize y) && _) eqn:G; [|discriminate]. apply andb_prop in G as (A & B). intros _. split; [apply Nat.ltb_lt, A|apply Z.leb_le, B]. Qed.
Lemma into_run N a b o qa qb out i q t cl anc h c : hybrid_mult_into a b o qa qb out i q t cl anc h = Some c -> layout N a b o qa qb out anc h ->
  exists x y qx qy, layout N x y o qx qy out anc h /\ hybrid_run x y o qx qy out i q t cl anc h = Some c /\
    forall z P, (inject_Z P * pw (expo o) == inject_Z cl * holds a z qa * holds b z qb)%Q -> product x y qx qy (cl * 2 ^ (expo x + expo y - expo o)) z = P.
Proof.
  unfold hybrid_mult_into. intros H L. destruct (size b <? size a).
  - exists a, b, qa, qb. split; [exact L|]. split; [exact H|]. intros z P E. apply (pw_cancel _ _ (expo o)). rewrite product_number by apply (run_guard _ _ _ _ _ _ _ _ _ _ _ _ _ H). rewrite E. ring.
  - exists b, a, qb, qa. split; [apply layout_swap, L|]. split; [exact H|]. intros z P E. apply (pw_cancel _ _ (expo o)). rewrite product_number by apply (run_guard _ _ _ _ _ _ _ _ _ _ _ _ _ H). rewrite E. ring.
Qed.
Lemma holds_store f x qs out z : (forall q, In q qs -> ~ In q out) -> holds f (store x out z) qs = holds f x qs.
Proof. intros D. unfold holds. f_equal. apply value_store_off, D. Qed.
Lemma layout_off N a b o qa qb out anc h : layout N a b o qa qb out anc h -> (forall q, In q qa -> ~ In q out) /\ (forall q, In q qb -> ~ In q out) /\ ~ In h out /\ ~ In anc out.
Proof.
  intros L. destruct (layout_parts _ _ _ _ _ _ _ _ _ L) as (A1 & _ & _ & _ & _ & A & B & _ & _ & C & _). split; [intros q I J; apply (A q I); right; exact J|]. split; [intros q I J; apply (B q I); right; exact J|].
  split; [intros J; apply C; right; exact J|]. inversion A1; assumption.
Qed.
Lemma layout_register N a b o qa qb out anc h x : layout N a b o qa qb out anc h -> length x = N -> register out x.
Proof. intros L E. destruct (layout_parts _ _ _ _ _ _ _ _ _ L) as (A1 & B & _). inversion A1; subst. split; [assumption|]. intros q I. apply B. right. exact I. Qed.

Section ring.
Context {R : Type} (rO rI : R) (radd rmul rsub : R -> R -> R) (ropp : R -> R) (RT : ring_theory rO rI radd rmul rsub ropp eq).
Context (expi chalf shalf : Qc -> R) (im : R).
Context (EU : euler rO rI radd rmul ropp expi chalf shalf im).
Add Ring rr9 : RT.
Notation amp := (list bool -> R).
Notation run := (run_circuit Qcplus rO rI radd rmul ropp expi chalf shalf im).
Notation dft := (dft rO rI radd rmul expi chalf).
Notation e_0 := (e_0 rO rI radd rmul ropp expi chalf shalf im EU).

Lemma into_blank N a b o qa qb out t cl anc h c : hybrid_mult_into a b o qa qb out InitH true t cl anc h = Some c -> layout N a b o qa qb out anc h ->
  forall x P, length x = N -> value x out = 0%Z -> (inject_Z P * pw (expo o) == inject_Z cl * holds a x qa * holds b x qb)%Q ->
  forall (psi : amp) w, blank rO psi out ->
  run c psi (store x out w) = if ((w - P) mod 2 ^ Z.of_nat (size o) =? 0)%Z then rmul (expi (angle (if t then P else P - mantissa o (P mod 2 ^ Z.of_nat (size o))) (S (size o)))) (psi x) else rO.
Proof.
  intros H L x P Lx V0 E psi w B. destruct (into_run N _ _ _ _ _ _ _ _ _ _ _ _ _ H L) as (f & g & qf & qg & L' & HR & HP). set (z0 := store x out (w - P)).
  destruct (layout_off _ _ _ _ _ _ _ _ _ L) as (O1 & O2 & _). pose proof (layout_register _ _ _ _ _ _ _ _ _ x L Lx) as Rg. assert (SO : length out = size o) by apply L.
  assert (Pz : product f g qf qg (cl * 2 ^ (expo f + expo g - expo o)) z0 = P) by (apply HP; unfold z0; rewrite !holds_store by assumption; exact E).
  pose proof (run_qft rO rI radd rmul rsub ropp RT expi chalf shalf im EU N f g o qf qg out anc h L' InitH t cl c psi psi z0 HR) as K. rewrite Pz in K.
  assert (V : value z0 out = ((w - P) mod 2 ^ Z.of_nat (size o))%Z) by (unfold z0; rewrite value_store by exact Rg; rewrite SO; reflexivity).
  assert (P2 : (0 < 2 ^ Z.of_nat (size o))%Z) by (apply Z.pow_pos_nonneg; lia).
  assert (SW : store z0 out (value z0 out + P) = store x out w).
  { unfold z0 at 1. rewrite store_store by apply Rg. apply store_congr. rewrite V, SO, Zplus_mod_idemp_l. f_equal. ring. }
  rewrite SW in K. rewrite K; [|unfold z0; rewrite store_length; exact Lx|exact B|intros; reflexivity]. clear K.
  destruct (Z.eqb_spec ((w - P) mod 2 ^ Z.of_nat (size o)) 0) as [Z0|NZ].
  - rewrite V, Z0. rewrite Z.add_0_l. rewrite SO. replace z0 with x.
    + apply (f_equal2 rmul); [|reflexivity]. apply f_equal. destruct t; [apply Qcplus_0_r|]. rewrite <- angle_add. reflexivity.
    + unfold z0. transitivity (store x out 0%Z).
      * rewrite <- V0. unfold store, value. rewrite <- (read_length x out) at 1. rewrite bits_number. symmetry. apply write_read, Rg.
      * apply store_congr. rewrite SO, Z0. apply Z.mod_0_l. lia.
  - assert (Q : exists q, In q out /\ getbit z0 q = true).
    { destruct (existsb (getbit z0) out) eqn:X; [apply existsb_exists in X; exact X|]. exfalso. apply NZ. rewrite <- V. apply value_zero. intros q I. destruct (getbit z0 q) eqn:G; [|reflexivity]. rewrite <- X. symmetry. apply existsb_exists. exists q. split; assumption. }
    destruct Q as (q & I & G). rewrite (B z0 q I G). ring.
Qed.
Lemma into_fits N a b o qa qb out cl anc h c : hybrid_mult_into a b o qa qb out InitH true false cl anc h = Some c -> layout N a b o qa qb out anc h ->
  forall x z, length x = N -> value x out = 0%Z -> basis o z -> (QFSpec.value o z == inject_Z cl * holds a x qa * holds b x qb)%Q ->
  forall (psi : amp) w, blank rO psi out -> basis o w -> run c psi (store x out w) = if (w =? z)%Z then psi x else rO.
Proof.
  intros H L x z Lx V0 Bz E psi w B Bw. rewrite (into_blank N a b o qa qb out false cl anc h c H L x (mantissa o z) Lx V0 E psi w B).
  assert (M : (mantissa o z mod 2 ^ Z.of_nat (size o) = z)%Z).
  { unfold basis in Bz. unfold mantissa. destruct (signed o); [destruct (_ <? _)%Z|]; try (apply Z.mod_small, Bz). replace (z - 2 ^ Z.of_nat (size o))%Z with (z + -1 * 2 ^ Z.of_nat (size o))%Z by ring. rewrite Z.mod_add by lia. apply Z.mod_small, Bz. }
  rewrite M, Z.sub_diag, angle_0, e_0. unfold basis in *. replace ((w - mantissa o z) mod 2 ^ Z.of_nat (size o) =? 0)%Z with (w =? z)%Z; [destruct (w =? z)%Z; ring|].
  rewrite Zminus_mod, M, (Z.mod_small w) by lia. rewrite Zminus_mod_idemp_l || idtac. destruct (Z.eqb_spec w z) as [->|NE]; [rewrite Z.sub_diag, Z.mod_0_l by lia; reflexivity|]. symmetry. apply Z.eqb_neq. intros X. apply NE.
  apply Z.mod_divide in X; [|lia]. destruct X as (d & X). assert (d = 0)%Z by nia. subst d. lia.
Qed.
End ring.
