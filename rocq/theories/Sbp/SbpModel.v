(** Model of arithmetic on QuantumFloats by semi-boolean polynomials: the circuits of
    /repo/src/qrisp/alg_primitives/arithmetic/SBP_arithmetic.py (SB below) and the operators of qtypes/quantum_float.py (QF below)
    that use them, outside tracing. Registers are lists of positions, lowest qubit first. Angles are exact rational multiples of
    pi: the code drops rotations that round to 0 at 11 decimals, here only those that are 0. *)
From Coq Require Import List ZArith QArith Qround Qcanon Bool.
Import ListNotations.
From Verif.Inverse Require Import InvModel.
From Verif.CtrlOps Require Import CtrlModel.
From Verif.Fourier Require Import FourierModel.
From Verif.QFloat Require Import QFModel.
Local Open Scope nat_scope.

(** Python: a % (2 * pi), angles in units of pi *)
Definition mod2 (a : Qc) : Qc := (a - zq (2 * Qfloor (this (a * half)%Qc)))%Qc.
(** SB 144-145, 182-183: the rotation of the output qubit i *)
Definition rotation (y : Z) (i : nat) : Qc := mod2 (zq y * half ^ i)%Qc.
(** SB 180-188 *)
Definition U_g (y : Z) (out : list nat) : body := flat_map (fun i => opt_p (rotation y i) (nth i out 0)) (seq 0 (length out)).
(** SB 120-126, without control *)
Definition crz_helper (r : Qc) (a b : nat) : body := [qCX a b; qP (- r * half)%Qc b; qCX a b; qP (r * half)%Qc b].
(** SB 140-165, use_gms = False; [a]: the control qubit or the ancilla *)
Definition rotations (out : list nat) (a : nat) (y : Z) : body :=
  flat_map (fun i => if is_zero (rotation y i) then [] else crz_helper (rotation y i) a (nth i out 0)) (seq 0 (length out)) ++
  [qP (qsum (map (fun i => rotation y i * half)%Qc (seq 0 (length out)))) a].
(** SB 70-175. The mcx gates with the methods gray_pt and gray_pt_inv are exact here; the phases of the one, which depend on the
    controls only, are those of the other with opposite sign. *)
Definition mcx (ctrls : list nat) (t : nat) : body := [(Ctrl (repeat true (length ctrls)) (Pauli PX), ctrls ++ [t])].
Definition multi_controlled_U_g (out ctrls : list nat) (y : Z) (ancilla : nat) : body :=
  match ctrls with
  | [c] => rotations out c y
  | _ => mcx ctrls ancilla ++ rotations out ancilla y ++ mcx ctrls ancilla
  end.
(** a monomial: coefficient and qubits *)
Definition monomial := (Q * list nat)%type.
(** SB 243-285, 322-325: one monomial; the coefficient is divided by 2**exponent (SB 198) and rounded (SB 274), the qubits are made
    unique (SB 281; their order is not modelled) *)
Definition encode_monomial (out : list nat) (e : Z) (m : monomial) (ancilla : nat) : body :=
  let y := qround (fst m / pw e)%Q in
  match nodup Nat.eq_dec (snd m) with [] => U_g y out | qs => multi_controlled_U_g out qs y ancilla end.
(** SB 195-329; [e]: exponent of the output, [ancillas]: the ancilla of each monomial (used if it has two qubits or more). Monomials with
    the same qubits are merged by sympy, here they are not. None: exception of QFT *)
Definition encode (out : list nat) (e : Z) (ms : list monomial) (ancillas : list nat) : body :=
  flat_map (fun '(m, a) => encode_monomial out e m a) (combine ms ancillas).
Definition sb_polynomial_encoder (out : list nat) (e : Z) (inplace_mult : Z) (ms : list monomial) (ancillas : list nat) : option body :=
  let c := encode out e ms ancillas in
  if Z.eqb inplace_mult 1 then match QFT false out false true inplace_mult with Some v => conjugate v c | None => None end
  else match QFT false out false true inplace_mult, QFT true out false true 1 with
       | Some v, Some w => Some (v ++ c ++ w)
       | _, _ => None
       end.

(** QF 437-473: the polynomial of a register *)
Definition register_poly (f : shape) (m : nat) (qs : list nat) : list monomial :=
  map (fun '(w, q) => ((inject_Z w * pw (expo f))%Q, [q])) (combine (sb_poly f m) qs).
Definition scale_poly (k : Q) (ms : list monomial) : list monomial := map (fun '(l, qs) => ((k * l)%Q, qs)) ms.
Definition negate_poly (ms : list monomial) : list monomial := map (fun '(l, qs) => ((- l)%Q, qs)) ms.
Definition times_poly (a b : list monomial) : list monomial := flat_map (fun '(k, bs) => map (fun '(l, cs) => ((k * l)%Q, bs ++ cs)) b) a.
(** SB 338-494: sbp_add, sbp_sub, sbp_mult into a new register [qo]; [same]: both arguments are the same variable *)
Definition sbp_monomials (o : opr) (a b : shape) (qa qb : list nat) (m : nat) : list monomial :=
  let pa := register_poly a m qa in let pb := register_poly b m qb in
  match o with Add => pa ++ pb | Sub => pa ++ negate_poly pb | Mul => times_poly pa pb end.
Definition sbp_circuit (o : opr) (same : bool) (a b : shape) (qa qb qo ancillas : list nat) : option body :=
  let out := out_shape o same a b in
  sb_polynomial_encoder qo (expo out) 1 (sbp_monomials o a b qa qb (msize out)) ancillas.
(** QF 504-527: multiplication by an integer; shape of the result and circuit. None: still running after [fuel] rounds *)
Definition mul_int_circuit (fuel : nat) (f : shape) (other : Z) (qs qo ancillas : list nat) : option (shape * body) :=
  match odd_part fuel other 0 with
  | None => None
  | Some (o, s) =>
      let out := mk (msize f + Z.to_nat (Z.log2_up (Z.abs o))) (expo f) (signed f || (o <? 0)%Z) in
      match sb_polynomial_encoder qo (expo out) 1 (scale_poly (inject_Z o) (register_poly f (size out) qs)) ancillas with
      | Some c => Some (mk (msize out) (expo out + s) (signed out), c)
      | None => None
      end
  end.
(** QF 672-691, 701-724: in-place addition and subtraction. None: exceptions of SB 573-576 and QF 683, 716 *)
Definition inplace_register (negative : bool) (f g : shape) (qf qg ancillas : list nat) : option body :=
  if negb (signed f) && signed g then None else
  let p := register_poly g (size f) qg in
  sb_polynomial_encoder qf (expo f) 1 (if negative then negate_poly p else p) ancillas.
Definition inplace_number (negative : bool) (f : shape) (x : Q) (qf ancillas : list nat) : option body :=
  if Qeq_bool (inject_Z (qtrunc (x / pw (expo f))%Q)) (x / pw (expo f))%Q
  then sb_polynomial_encoder qf (expo f) 1 [((if negative then - x else x)%Q, [])] ancillas else None.
(** QF 549-553: self + number, into a new register *)
Definition add_number_circuit (negative : bool) (f : shape) (x : Q) (qf qo ancillas : list nat) : option body :=
  match inplace_number negative f x qo ancillas with Some c => Some (map (fun '(a, b) => qCX a b) (combine qf qo) ++ c) | None => None end.
(** QF 589-595: number - self; [qo]: the duplicate, with a sign qubit on top *)
Definition rsub_circuit (f : shape) (x : Q) (qf qo ancillas : list nat) : option body :=
  match inplace_number false (mk (msize f) (expo f) true) (x + pw (expo f))%Q qo ancillas with
  | Some c => Some (map (fun '(a, b) => qCX a b) (combine qf qo) ++ map qX qo ++ c)
  | None => None
  end.
