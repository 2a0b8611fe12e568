(** Model of state preparation: prepare(method="qswitch"), unbalanced_w_state and dicke_state
    (/repo/src/qrisp/alg_primitives/state_preparation/prepare_func.py, PF; state_preparation/qswitch_state_preparation.py, QP; unbalanced_w_state.py, UW;
    dicke_state_prep.py, DS; /repo/src/qrisp/misc/utility.py, UT), over the real numbers: rounding of floats is not modelled. *)
From Coq Require Import List ZArith Reals.
Import ListNotations.
From Verif.CtrlOps Require Import CtrlComplex.
Local Open Scope R_scope.

(** * Numbers *)
Definition norm2 (z : cplx) : R := fst z * fst z + snd z * snd z.
(** jnp.abs *)
Definition modulus (z : cplx) : R := sqrt (norm2 z).
(** jnp.angle: the argument in (-pi, pi], 0 for 0. Signed zeros are not modelled. *)
Definition arg (z : cplx) : R := if Rle_dec 0 (snd z) then if Req_EM_T (norm2 z) 0 then 0 else acos (fst z / modulus z) else - acos (fst z / modulus z).
Definition sum2 (v : list cplx) : R := fold_right (fun z s => norm2 z + s) 0 v.
(** jnp.linalg.norm *)
Definition norm (v : list cplx) : R := sqrt (sum2 v).
Definition scale (r : R) (z : cplx) : cplx := (r * fst z, r * snd z).
Definition turn (a : R) : cplx := (cos a, sin a).
(** UT 37: sqrt(2^-52) *)
Definition EPSILON : R := / 2 ^ 26.
Definition clip (a : R) : R := Rmax (-1) (Rmin 1 a).

(** * Gates *)
(** [U]: U3Gate with a global phase; [Not]: x; [CNot]: cx; [CRy]: ry under control of the given qubits; [Mux]: a q_switch whose i-th case is one U3 gate with a global
    phase on q. The circuits of controlled gates and of q_switch are modelled elsewhere (C46, C78). *)
Record u3 := mk_u { theta : R; phi : R; lam : R; gp : R }.
Inductive gate := U (u : u3) (q : nat) | Not (q : nat) | CNot (c t : nat) | CRy (cs : list nat) (a : R) (q : nat) | Mux (index : list nat) (f : nat -> u3) (q : nat).
(** /repo/src/qrisp/circuit/standard_operations.py:143-158, 203-254, 317-330, 545-581; operation.py:489-520 *)
Definition ry (a : R) : u3 := mk_u a 0 0 0.
Definition rx (a : R) : u3 := mk_u a (- PI / 2) (PI / 2) 0.
Definition rz (a : R) : u3 := mk_u 0 a 0 (- a / 2).
Definition pg (a : R) : u3 := mk_u 0 0 a 0.
Definition inv (u : u3) : u3 := mk_u (- theta u) (- lam u) (- phi u) (- gp u).
Definition sg : u3 := mk_u 0 0 (PI / 2) 0.
Definition sx : u3 := rx (PI / 2).
(** standard_operations.py:424-459 *)
Definition xxyy (a beta : R) (q0 q1 : nat) : list gate :=
  [U (rz beta) q0; U (rz (- PI / 2)) q1; U sx q1; U (rz (PI / 2)) q1; U sg q0; CNot q1 q0; U (ry (- a / 2)) q1; U (ry (- a / 2)) q0; CNot q1 q0; U (inv sg) q0;
   U (rz (- PI / 2)) q1; U (inv sx) q1; U (rz (PI / 2)) q1; U (rz (- beta)) q0].

(** * prepare *)
(** QP 73-118 *)
Definition normalize_with_phase (v : list cplx) (acc : R) : R * list cplx * R :=
  let n := norm v in
  if Rlt_dec EPSILON n then
    let alpha := arg (nth 0 v c0) in (n, map (fun z => scale (/ n) (cmul (turn (- alpha)) z)) v, acc + alpha)
  else (n, match v with z :: r => (if Rlt_dec (fst z) 0 then copp z else z) :: r | [] => [] end, acc).
(** QP 35-70 *)
Definition rot_params (a b : cplx) : u3 :=
  let t := 2 * acos (clip (fst a)) in
  mk_u t (if Rlt_dec EPSILON (modulus b) then arg b else 0) 0 0.
(** QP 121-160: a node is a vector with its accumulated phase *)
Definition node : Type := list cplx * R.
Definition child (b : bool) (n : node) : node :=
  let '(v, acc) := n in
  let half := (length v / 2)%nat in
  let '(_, w, acc') := normalize_with_phase (if b then skipn half v else firstn half v) acc in (w, acc').
Definition node_theta (n : node) : R :=
  let '(v, acc) := n in
  let '(n0, _, _) := normalize_with_phase (firstn (length v / 2) v) acc in 2 * acos (Rmin 1 n0).
(** QP 163-186, with the global phase of the leaf (QP 320-328) *)
Definition node_u3 (n : node) : u3 :=
  let '(v, acc) := n in
  let '(_, w, phase) := normalize_with_phase v acc in
  let u := rot_params (nth 0 w c0) (nth 1 w c0) in mk_u (theta u) (phi u) (lam u) phase.
(** QP 210-256: the nodes of layer l. thetas[l] are the angles of the nodes of layer l, u_params and phases those of the last layer *)
Fixpoint layer (root : node) (l : nat) : list node :=
  match l with O => [root] | S l => flat_map (fun n => [child false n; child true n]) (layer root l) end.
(** UT 1197-1214 on 64-bit words *)
Definition swap_bits (s m i : Z) : Z := Z.lor (Z.land (Z.shiftr i s) m) (Z.land (Z.shiftl (Z.land i m) s) (2 ^ 64 - 1)).
Definition bit_reverse (i width : Z) : Z :=
  let i := swap_bits 1 0x5555555555555555 i in
  let i := swap_bits 2 0x3333333333333333 i in
  let i := swap_bits 4 0x0F0F0F0F0F0F0F0F i in
  let i := swap_bits 8 0x00FF00FF00FF00FF i in
  let i := swap_bits 16 0x0000FFFF0000FFFF i in
  let i := swap_bits 32 0x00000000FFFFFFFF i in
  Z.shiftr i (64 - width).
(** UT 2220-2248 (uint32: for n <= 32) *)
Definition bitrev_index (n : nat) (j : Z) : Z :=
  fold_left (fun rev k => Z.lor (Z.shiftl rev 1) (Z.land (Z.shiftr j (Z.of_nat k)) 1)) (seq 0 n) 0%Z.
Definition swap_endianness (v : list cplx) (n : nat) : list cplx := map (fun j => nth (Z.to_nat (bitrev_index n (Z.of_nat j))) v c0) (seq 0 (2 ^ n)).
(** QP 293-350 on the qubits 0, ..., n - 1 *)
Definition node_at (nodes : list node) (width i : nat) : node := nth (Z.to_nat (bit_reverse (Z.of_nat i) (Z.of_nat width))) nodes ([], 0).
Definition prepare_qswitch (n : nat) (target : list cplx) (big_endian : bool) : list gate :=
  let v := map (scale (/ norm target)) target in
  let v := if big_endian then v else swap_endianness v n in
  let root := (v, 0) in
  if (n =? 1)%nat then [U (node_u3 root) 0] else
  [U (ry (node_theta root)) 0]
  ++ map (fun l => Mux (seq 0 l) (fun i => ry (node_theta (node_at (layer root l) l i))) l) (seq 1 (n - 2))
  ++ [Mux (seq 0 (n - 1)) (fun i => node_u3 (node_at (layer root (n - 1)) (n - 1) i)) (n - 1)].
(** PF 170-195 with method="qswitch", outside tracing. None: ValueError (for a register without qubits from the negative shift count in QP 231). np.isclose(norm, 0) is
    norm <= 1e-8 *)
Definition prepare (n : nat) (target : list cplx) (reversed : bool) : option (list gate) :=
  if negb (length target =? 2 ^ n)%nat then None else
  if (n =? 0)%nat then None else
  if Rle_dec (norm target) (/ 10 ^ 8) then None else
  Some (prepare_qswitch n (map (scale (/ norm target)) target) reversed).

(** * unbalanced_w_state *)
(** UW 125-136. remaining i: the norm of the amplitudes from i on *)
Definition w_theta (a : list cplx) (i : nat) : R :=
  let d := norm (skipn i a) in
  let ratio := if Rlt_dec (/ 10 ^ 15) d then modulus (nth i a c0) / d else 1 in
  2 * acos (clip ratio).
(** UW 96-151. None: ValueError *)
Definition unbalanced_w_state (n : nat) (amplitudes : list cplx) : option (list gate) :=
  if negb (n =? length amplitudes)%nat then None else
  if Rlt_dec (norm amplitudes) (/ 10 ^ 15) then None else
  let a := map (scale (/ norm amplitudes)) amplitudes in
  let phase i := arg (nth i a c0) in
  if (n =? 1)%nat then Some [Not 0; U (pg (phase 0%nat)) 0] else
  Some (Not 0 :: flat_map (fun i => xxyy (w_theta a i) (PI / 2) i (i + 1) ++ [U (pg (phase i)) i]) (seq 0 (n - 1)) ++ [U (pg (phase (n - 1)%nat)) (n - 1)]).

(** * dicke_state *)
(** DS 80-95 on the qubits 0, 1, ... *)
Definition split_cycle_shift (high low : nat) : list gate :=
  let h := INR high in
  [CNot (high - 2) (high - 1); CRy [(high - 1)%nat] (2 * acos (sqrt (1 / h))) (high - 2); CNot (high - 2) (high - 1)]
  ++ flat_map (fun i => let index := (high - i)%nat in
       [CNot (index - 2) (high - 1); CRy [(high - 1)%nat; (index - 1)%nat] (2 * acos (sqrt (INR (high - index + 1) / h))) (index - 2); CNot (index - 2) (high - 1)]) (seq 1 (low - 1)).
(** DS 54-62 *)
Definition dicke_state (n k : nat) : list gate :=
  flat_map (fun offset => split_cycle_shift (n - offset) k) (seq 0 (n - k)) ++ flat_map (fun offset => split_cycle_shift (k - offset) (k - offset - 1)) (seq 0 (k - 1)).
