(** Conjugation of complex numbers. *)
From Coq Require Import Reals QArith Qcanon.
From Verif.CtrlOps Require Import CtrlSpec CtrlComplex.
From Verif.Amplify Require Import AmpSpec.
Local Open Scope R_scope.
Definition cconj (z : cplx) : cplx := (fst z, - snd z).
Lemma complex_conjugation : conjugation c1 cadd cmul copp cexpi ccos csin cconj.
Proof.
  repeat split; intros; apply cplx_eq; cbn [cconj fst snd cadd cmul copp c1 cexpi ccos csin]; rewrite ?CtrlComplex.angle_opp, ?cos_neg, ?sin_neg; try reflexivity; ring.
Qed.
