(** Property C49: permute_axes moves the bits of flat indices as numpy.transpose moves axes.
    [permutation], [coordinate], [transposed], [fits]: AxesSpec.v. *)
From Verif.Axes Require Import AxesModel AxesSpec AxesProofs.
From Coq Require Import ZArith List Lia Permutation.
Import ListNotations.
Local Open Scope nat_scope.

Theorem C49_permute_axes : forall w index p, permutation p -> fits w (length p) ->
  exists new, permute_axes w index p = Some new /\ Forall2 (transposed p) index new.
Proof. exact permute_axes_correct. Qed.
Print Assumptions C49_permute_axes.

(** distinct entries stay distinct: the result is a relabelling of the entries *)
Theorem C49_injective : forall p i j i' j', permutation p -> transposed p i i' -> transposed p j j' ->
  (0 <= i < 2 ^ Z.of_nat (length p))%Z -> (0 <= j < 2 ^ Z.of_nat (length p))%Z -> i' = j' -> i = j.
Proof. exact transposed_injective. Qed.
Print Assumptions C49_injective.

(** axes (0,1,2,3,4) become (3,4,0,2,1): three blocks after merging; int64 and Python integers *)
Example C49_ex : permutation [3; 4; 0; 2; 1] /\ fits (Some 64) 5 /\
  permute_axes (Some 64) [16; 8; 4; 2; 1; 21]%Z [3; 4; 0; 2; 1] = Some [4; 1; 2; 16; 8; 14]%Z /\
  permute_axes None [16; 8; 4; 2; 1; 21]%Z [3; 4; 0; 2; 1] = Some [4; 1; 2; 16; 8; 14]%Z.
Proof.
  split; [|split; [cbn; lia|vm_compute; split; reflexivity]]. unfold permutation. cbn.
  change [3; 4; 0; 2; 1] with ([3; 4; 0] ++ [2] ++ [1]).
  apply NoDup_Permutation; [repeat constructor; cbn; intuition congruence..|]. intros x. cbn. intuition lia.
Qed.
