(** Specification vocabulary for BigInteger: well-formed limb vectors and the natural
    number they denote.  Independent of the model's operations. *)
From Coq Require Import ZArith List Lia.
Import ListNotations.
Local Open Scope Z_scope.

(** The number denoted by little-endian base-2^32 digits. *)
Fixpoint value (ds : list Z) : Z :=
  match ds with
  | [] => 0
  | d :: t => d + 2 ^ 32 * value t
  end.

(** Every limb is a 32-bit word. *)
Definition wf (ds : list Z) : Prop := Forall (fun d => 0 <= d < 2 ^ 32) ds.

(** Number of distinct values of an n-limb integer. *)
Definition cap (n : nat) : Z := 2 ^ (32 * Z.of_nat n).

Ltac wf_lit := unfold wf; repeat (apply Forall_cons; [lia|]); apply Forall_nil.
