(** Model of modular arithmetic on quantum registers: QuantumModulus (/repo/src/qrisp/qtypes/quantum_modulus.py, QM below),
    mod_adder (/repo/src/qrisp/alg_primitives/arithmetic/modular_arithmetic/modular_qft_addition.py, MA below) and the Montgomery products
    (/repo/src/qrisp/alg_primitives/arithmetic/jasp_arithmetic/jasp_montgomery.py, JM below).
    A program is the list of the steps it performs on a basis state. The adder handed to these functions (inpl_adder) is one step that
    adds modulo 2^size, with or without controls: what the adders of the library do is the subject of C14, C15 and C66. None of the steps
    creates phases. Registers are lists of positions, lowest qubit first; ancillas are given positions that are 0 (allocation and deletion
    are not steps of their own, the theorems show that they end at 0). Moduli and factors are integers (not BigIntegers). *)
From Coq Require Import List ZArith Bool Arith.
Import ListNotations.
From Verif.Inverse Require Import InvSpec.
From Verif.CtrlOps Require Import CtrlSpec.
From Verif.Fourier Require Import FourierSpec.
From Verif.ModTools Require Import ModToolsModel.
Local Open Scope nat_scope.

(** first argument of inpl_adder: a number or a register *)
Inductive operand := Cl (z : Z) | Qu (qs : list nat).
Inductive step :=
| Add (controls : list nat) (a : operand) (target : list nat)
| Sub (controls : list nat) (a : operand) (target : list nat)
| Swp (controls : list nat) (a b : nat)
| Cx (a b : nat)
| Flip (a : nat).
Definition amount (x : list bool) (a : operand) : Z := match a with Cl z => z | Qu qs => value x qs end.
(** one step on a basis state *)
Definition perform (x : list bool) (s : step) : list bool :=
  match s with
  | Add c a t => if forallb (getbit x) c then store x t (value x t + amount x a) else x
  | Sub c a t => if forallb (getbit x) c then store x t (value x t - amount x a) else x
  | Swp c a b => if forallb (getbit x) c then setbit (setbit x a (getbit x b)) b (getbit x a) else x
  | Cx a b => setbit x b (xorb (getbit x a) (getbit x b))
  | Flip a => setbit x a (negb (getbit x a))
  end.
Definition execute (p : list step) (x : list bool) : list bool := fold_left perform p x.
(** with invert() *)
Definition undo_step (s : step) : step := match s with Add c a t => Sub c a t | Sub c a t => Add c a t | _ => s end.
Definition inverted (p : list step) : list step := rev (map undo_step p).
Definition opt_control (ctrl : option nat) : list nat := match ctrl with None => [] | Some c => [c] end.

(** MA 91-135 [mod_adder]; sign and rnn (reduction_not_necessary) are the new QuantumBools *)
Definition mod_adder (a : operand) (b : list nat) (modulus : Z) (ctrl : option nat) (sign rnn : nat) : list step :=
  let a := match a with Cl z => Cl (z mod modulus)%Z | _ => a end in
  let b := b ++ [sign] in
  let c := opt_control ctrl in
  [Add c a b] ++ inverted [Add [] (Cl modulus) b] ++ [Cx sign rnn] ++ [Add [rnn] (Cl modulus) b] ++ inverted [Add c a b]
  ++ [Cx sign rnn; Flip rnn] ++ [Add c a b].

(** JM 66-68 *)
Definition estimation (qf : list nat) (N : Z) (m : nat) : list step :=
  flat_map (fun j => inverted [Add [nth j qf 0] (Cl (Z.shiftr (N - 1) 1)) (skipn (j + 1) qf)]) (seq 0 m).
(** JM 75-76: swaps of neighbouring qubits, from the last one down *)
Fixpoint bubble (qs : list nat) : list step :=
  match qs with a :: (b :: _) as t => Swp [] a b :: bubble t | _ => [] end.
(** JM 30-79 [q_montgomery_reduction]; qf[m:-1] is qf[m : len - 1] *)
Definition q_montgomery_reduction (qf : list nat) (N : Z) (m : nat) : list step :=
  estimation qf N m
  ++ [Add [last qf 0] (Cl N) (firstn (length qf - 1 - m) (skipn m qf))]
  ++ bubble (rev (skipn m qf))
  ++ [Cx (nth (m + 1) qf 0) (nth m qf 0)].

(** JM 84-173 [cq_montgomery_multiply]; aux: the m + 1 new qubits; res: the given or new register. None: modinv does not end *)
Definition cq_montgomery_multiply (X : Z) (y : list nat) (N : Z) (m : nat) (x_is_montgomery : bool) (res aux : list nat) : option (list step) :=
  let R := Z.shiftl 1 (Z.of_nat m) in
  let X := if x_is_montgomery then X else mont_enc X R N in
  match modinv N (Z.shiftl R 1) with
  | None => None
  | Some N1 =>
    let n := length y in
    let wqf := aux ++ res in
    Some (flat_map (fun i => let j := n - i - 1 in [Add [nth j y 0] (Cl (Z.shiftl X (Z.of_nat j) mod N)%Z) wqf]) (seq 0 n)
          ++ q_montgomery_reduction wqf N m
          ++ flat_map (fun i => let j := n - i - 1 in inverted [Add [nth j y 0] (Cl ((Z.shiftl X (Z.of_nat j) mod N) * N1)%Z) aux]) (seq 0 n))
  end.

(** JM 215-218, 235-238: the swaps under a control *)
Definition swap_regs (c : list nat) (a b : list nat) : list step := map (fun '(p, q) => Swp c p q) (combine a b).
(** JM 176-248 [cq_montgomery_multiply_inplace]; tmp: new register; aux, aux': the ancillas of the two products *)
Definition cq_montgomery_multiply_inplace (X : Z) (y : list nat) (N : Z) (m : nat) (x_is_montgomery : bool) (ctrl : option nat)
    (tmp aux aux' : list nat) : option (list step) :=
  if (X =? 1)%Z then Some [] else
  let guarded := match ctrl with None => [] | Some c => [Flip c] ++ swap_regs [c] tmp y ++ [Flip c] end in
  match cq_montgomery_multiply X y N m x_is_montgomery tmp aux with
  | None => None
  | Some forward =>
    match (if x_is_montgomery then mont_dec X (Z.shiftl 1 (Z.of_nat m)) N else Some X) with
    | None => None
    | Some X =>
      match modinv X N with
      | None => None
      | Some X1 =>
        match cq_montgomery_multiply X1 tmp N m false y aux' with
        | None => None
        | Some backward => Some (guarded ++ forward ++ guarded ++ inverted backward ++ swap_regs (opt_control ctrl) tmp y)
        end
      end
    end
  end.

(** JM 274-277, 348-351 [qq_mul] *)
Definition qq_mul (ox oy ores : list nat) : list step :=
  flat_map (fun i => [Add [nth i oy 0] (Qu ox) (skipn i ores)]) (seq 0 (length oy)).
(** JM 279-283, 353-357 [qc_mul_inplace] *)
Definition qc_mul_inplace (operand : list nat) (cl_int : Z) : list step :=
  let size := length operand in
  flat_map (fun i => [Add [nth (size - 2 - i) operand 0] (Cl (cl_int / 2)%Z) (skipn (size - 1 - i) operand)]) (seq 0 (size - 1)).
(** JM 251-301 [qq_montgomery_multiply]; res, aux: the new registers *)
Definition qq_montgomery_multiply (x y : list nat) (N : Z) (m : nat) (res aux : list nat) : list step :=
  let wqf := aux ++ res in
  qq_mul x y (removelast wqf) ++ q_montgomery_reduction wqf N m ++ qc_mul_inplace aux N ++ inverted (qq_mul x y aux).

(** QM 254-277: a QuantumModulus: its register, modulus and Montgomery shift *)
Record qmod := mkq { reg : list nat; modulus : Z; shift : Z }.
(** QM 340-375 [encoder] outside tracing with modular_arithmetic/mod_tools.py 30-33. None: exceptions (also: no inverse). For a negative
    shift the code computes with the float 2.0 ** m, which is exact; int(R ** -1) is used as an integer here *)
Definition encoder (q : qmod) (i : Z) : option Z :=
  if (modulus q <=? i)%Z then None else if (i <? 0)%Z then None else
  if (0 <=? shift q)%Z then Some (mont_enc_py i (2 ^ shift q)%Z (modulus q))
  else match modinv_py (2 ^ (- shift q))%Z (modulus q) with None => None | Some R => Some (mont_enc_py i R (modulus q)) end.
(** QM 279-302 [decoder] outside tracing. None: nan, or modinv does not end *)
Definition decoder (q : qmod) (i : Z) : option Z := if (modulus q <=? i)%Z then None else new_mont_dec i (shift q) (modulus q).
(** second operands of the operators: integers, other QuantumModulus, QuantumFloats (unsigned, exponent 0) *)
Inductive other := Int (z : Z) | Mod (q : qmod) | Float (qs : list nat).
(** QM 105-109 *)
Definition normalize (q : qmod) (o : other) : option operand :=
  match o with Int z => option_map Cl (encoder q (z mod modulus q)%Z) | Mod p => Some (Qu (reg p)) | Float qs => Some (Qu qs) end.
(** QM 485-495, 464-469, 505-510, 526-531, 546-551: the checks *)
Definition same_shift (q : qmod) (o : other) : bool :=
  match o with Int _ => true | Mod p => (shift q =? shift p)%Z | Float _ => (shift q =? 0)%Z end.
(** Python's pow(2, e, N): None: no inverse (mathematically exact) *)
Definition pow2_py (e N : Z) : option Z :=
  if (0 <=? e)%Z then Some (2 ^ e mod N)%Z else match modinv_py (2 ^ (- e))%Z N with None => None | Some r => Some (r mod N)%Z end.
(** MA 41-45 [montgomery_addition], from the i-th qubit of a on; b += ... is QM 483-500 for a number, under the control a[i]: the control
    reaches mod_adder as its ctrl (MA 90, custom_control) *)
Fixpoint montgomery_addition_from (i : nat) (a : list nat) (a_shift a_modulus : Z) (b : qmod) (sign rnn : nat) : option (list step) :=
  match a with
  | [] => Some []
  | q :: a =>
    match pow2_py (Z.of_nat i - a_shift) a_modulus with
    | None => None
    | Some k =>
      match normalize b (Int k), montgomery_addition_from (S i) a a_shift a_modulus b sign rnn with
      | Some k, Some rest => Some (mod_adder k (reg b) (modulus b) (Some q) sign rnn ++ rest)
      | _, _ => None
      end
    end
  end.
(** QM 482-500 [__iadd__]; None: exceptions *)
Definition iadd (q : qmod) (o : other) (sign rnn : nat) : option (list step) :=
  match normalize q o with
  | None => None
  | Some a =>
    if same_shift q o then Some (mod_adder a (reg q) (modulus q) None sign rnn) else
    match o with Mod p => montgomery_addition_from 0 (reg p) (shift p) (modulus p) q sign rnn | _ => None end
  end.
(** QM 543-559 [__isub__] *)
Definition isub (q : qmod) (o : other) (sign rnn : nat) : option (list step) :=
  match normalize q o with
  | None => None
  | Some a => if same_shift q o then Some (inverted (mod_adder a (reg q) (modulus q) None sign rnn)) else None
  end.
Definition copy (a b : list nat) : list step := map (fun '(p, q) => Cx p q) (combine a b).
(** QM 461-480 [__add__], [__radd__]; res: the register of the duplicate *)
Definition add (q : qmod) (o : other) (res : list nat) (sign rnn : nat) : option (list step * qmod) :=
  match normalize q o with
  | None => None
  | Some a => if same_shift q o then Some (copy (reg q) res ++ mod_adder a res (modulus q) None sign rnn, mkq res (modulus q) (shift q)) else None
  end.
(** QM 502-521 [__sub__] *)
Definition sub (q : qmod) (o : other) (res : list nat) (sign rnn : nat) : option (list step * qmod) :=
  match normalize q o with
  | None => None
  | Some a => if same_shift q o then Some (copy (reg q) res ++ inverted (mod_adder a res (modulus q) None sign rnn), mkq res (modulus q) (shift q)) else None
  end.
(** QM 523-541 [__rsub__]; res -= self is [isub] *)
Definition rsub (q : qmod) (o : other) (res : list nat) (sign rnn : nat) : option (list step * qmod) :=
  match normalize q o with
  | None => None
  | Some a =>
    if same_shift q o then
      let r := mkq res (modulus q) (shift q) in
      match isub r (Mod q) sign rnn with
      | None => None
      | Some p => Some (p ++ mod_adder a res (modulus q) None sign rnn, r)
      end
    else None
  end.
(** QM 402-415 [__mul__] with an integer; the result is a new QuantumModulus, whose shift is 0 (JM 145, QM 277). None: modinv does not end *)
Definition mul_shift (X N : Z) : nat := Z.to_nat (best_montgomery_shift X N).
Definition mul (q : qmod) (X : Z) (res aux : list nat) : option (list step * qmod) :=
  match cq_montgomery_multiply X (reg q) (modulus q) (mul_shift X (modulus q)) false res aux with
  | None => None
  | Some p => Some (p, mkq res (modulus q) 0)
  end.
(** QM 421-457 [__imul__] with an integer, possibly under a control *)
Definition imul (q : qmod) (X : Z) (ctrl : option nat) (tmp aux aux' : list nat) : option (list step) :=
  cq_montgomery_multiply_inplace X (reg q) (modulus q) (mul_shift X (modulus q)) false ctrl tmp aux aux'.
(** JM 304-375 [qq_montgomery_multiply_modulus] (x * y during tracing) *)
Definition traced_shift (N : Z) : nat := Z.to_nat (smallest_power_of_two ((N - 1) ^ 2 + 1) - smallest_power_of_two N).
Definition mul_traced (x y : qmod) (res aux : list nat) : list step * qmod :=
  let m := traced_shift (modulus x) in
  (qq_montgomery_multiply (reg x) (reg y) (modulus x) m res aux, mkq res (modulus x) (shift x + shift y - Z.of_nat m)).
