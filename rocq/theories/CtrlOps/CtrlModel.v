(** Model of the construction of controlled operations: PTControlledOperation.__init__ (/repo/src/qrisp/circuit/operation.py
    630-783, OP below) and /repo/src/qrisp/circuit/controlled_operations.py (CO below).
    Operations are those of InvModel (property C32): [Ctrl state base] is a controlled operation; what is modelled here is the
    definition circuit it is given. Angles are rational multiples of pi ([Qc], unit pi). Operations have a list of instructions
    with local qubit positions as definition; the control qubits come first. *)
From Coq Require Import ZArith QArith Ascii.
From Verif.Gray Require Import GrayModel.
From Verif.Inverse Require Import InvModel InvSpec.
Local Open Scope nat_scope.

Notation qop := (op Qc).
Notation body := (list (qop * list nat)).
Inductive method := Exact (* "gray", "auto", None *) | GrayPt (* "gray_pt" *) | GrayPtInv (* "gray_pt_inv" *).
Definition pt (m : method) : bool := match m with Exact => false | _ => true end.

(** ** gates of standard_operations.py *)
Definition q1 : Qc := 1%Qc. (** pi *)
Definition q_half : Qc := (1 / (1 + 1))%Qc.
Definition q_quarter : Qc := (q_half / (1 + 1))%Qc.
Definition gX : qop := Pauli PX.
Definition gH : qop := mk_u3 Qcplus n_h q_half 0%Qc q1 0%Qc.
Definition gP (a : Qc) : qop := mk_u3 Qcplus n_p 0%Qc 0%Qc a 0%Qc.
Definition gS : qop := U3 n_s 0%Qc 0%Qc q_half 0%Qc [].
Definition gS_dg : qop := U3 (n_s ++ dg) 0%Qc (- q_half)%Qc 0%Qc 0%Qc [].
Definition gT : qop := U3 n_t 0%Qc 0%Qc q_quarter 0%Qc [].
Definition gT_dg : qop := U3 (n_t ++ dg) 0%Qc (- q_quarter)%Qc 0%Qc 0%Qc [].
Definition gRZ (a : Qc) : qop := mk_u3 Qcplus n_rz 0%Qc a 0%Qc (- (a / (1 + 1)))%Qc.
Definition gRY (a : Qc) : qop := mk_u3 Qcplus n_ry a 0%Qc 0%Qc 0%Qc.
Definition gCX : qop := Ctrl [true] gX.
Definition n_swap : name := ["s"; "w"; "a"; "p"]%char.
Definition gSwap : qop := Comp n_swap 2 0 [(gCX, [0; 1]); (gCX, [1; 0]); (gCX, [0; 1])] [].

(** ** GraySynthGate(phases, pt) as an operation on n qubits *)
Definition gray_ops (l : list ggate) : body :=
  map (fun g => match g with GCX c t => (gCX, [c; t]) | GP a q => (gP a, [q]) end) l.
Definition n_gray : name := ["g"; "r"; "a"; "y"]%char.
Definition gray_gate (n : nat) (phases : list Qc) (tolerant : bool) : qop := Comp n_gray n 0 (gray_ops (gray_synth_qc n phases tolerant)) [].
(** (2**n - 1) * [0] + [a] and (2**n - 2) * [0] + [a0, a1] *)
Definition last_phase (n : nat) (a : Qc) : list Qc := repeat 0%Qc (2 ^ n - 1) ++ [a].
Definition last_phases (n : nat) (a0 a1 : Qc) : list Qc := repeat 0%Qc (2 ^ n - 2) ++ [a0; a1].

(** OP 642-655: the control state; an integer gives the state of control i in bit i. None: exception *)
Definition ctrl_string (n : nat) (s : Z + list bool) : option (list bool) :=
  match s with
  | inl k => if Z.eqb k (-1) then Some (repeat true n)
             else if (Z.ltb k 0 || Z.leb (2 ^ Z.of_nat n) k)%bool then None (* bin_rep, utility.py 40-47 *)
             else Some (map (fun i => Z.testbit k (Z.of_nat i)) (seq 0 n))
  | inr l => if length l =? n then Some l else None
  end.
(** OP 660-673: nested controls *)
Fixpoint controlled (state : list bool) (base : qop) : qop :=
  match base with Ctrl st b => controlled (state ++ st) b | _ => Ctrl state base end.

(** gray.py 24-46, gray_multi_cx; one and two controls: CX and the Toffoli circuit (property C52) *)
Definition multi_cx (n : nat) : qop :=
  if n <=? 2 then Ctrl (repeat true n) gX
  else Comp n_gray (S n) 0 [(gH, [n]); (gray_gate (S n) (last_phase (S n) q1) false, seq 0 (S n)); (gH, [n])] [].
(** CO 61-63 and 216-218 *)
Definition wrap (state : list bool) : body :=
  flat_map (fun i => if nth i state true then [] else [(gX, [i])]) (seq 0 (length state)).
(** qc.inverse() *)
Definition inv_body (b : body) : body := match inverse_circuit Qcopp Qcplus b with Some c => c | None => [] end.
Definition inv_op (o : qop) : qop := match inverse Qcopp Qcplus o with Some o => o | None => o end.
(** CO 76, 91, 107 and 125: with "gray_pt_inv" the circuit so far, control state specification included, is inverted *)
Definition finish (m : method) (b : body) : body := match m with GrayPtInv => inv_body b | _ => b end.
(** CO 189-206, mcx_gate *)
Definition gray_pt_mcx (n : nat) : qop :=
  if n <=? 1 then gCX
  else Comp n_gray (S n) 0 [(gH, [n]); (gray_gate (S n) (last_phase (S n) q1) true, seq 0 (S n)); (gH, [n])] [].
(** CO 54-220, multi_controlled_u3_circ; the target is qubit n. For Pauli gates and "h" the phase tolerant methods use another
    multi-controlled X (mcx_algs/__init__.py 35-54); only method "gray" is modelled for them. *)
Definition is0 (a : Qc) : bool := Qc_eq_bool a 0%Qc.
Definition n_S (n : name) : bool := name_in n [n_p; n_t; n_s; n_t ++ dg; n_s ++ dg].
Definition multi_controlled_u3_circ (m : method) (base : qop) (n : nat) (state : list bool) : body :=
  let all := seq 0 (S n) in
  let mcx := (controlled (repeat true n) gX, all) in
  match base with
  | Pauli PY => wrap state ++ [(gS, [n]); mcx; (gS_dg, [n])] ++ wrap state
  | Pauli PZ => wrap state ++ [(gH, [n]); mcx; (gH, [n])] ++ wrap state
  | Pauli PX => wrap state ++ [(multi_cx n, all)] ++ wrap state
  | U3 nm theta phi lam gp params =>
    if n_S nm then
      finish m (wrap state ++ [(gray_gate (S n) (last_phase (S n) (lam + phi)%Qc) (pt m), all)]) ++ wrap state
    else if name_eqb nm n_rz then
      let a := (hd 0%Qc params / (1 + 1))%Qc in
      finish m (wrap state ++ [(gray_gate (S n) (last_phases (S n) (- a)%Qc a) (pt m), all)]) ++ wrap state
    else if name_in nm [n_rx; n_sx; n_sx ++ dg] then
      let a := (theta / (1 + 1))%Qc in
      finish m (wrap state ++ [(gH, [n]); (gray_gate (S n) (last_phases (S n) (- a)%Qc a) (pt m), all); (gH, [n])]) ++ wrap state
    else if name_eqb nm n_ry then
      let a := (theta / (1 + 1))%Qc in
      finish m (wrap state ++ [(gS, [n]); (gH, [n]); (gray_gate (S n) (last_phases (S n) a (- a)%Qc) (pt m), all); (gH, [n]); (gS_dg, [n])]) ++ wrap state
    else if is0 phi && is0 lam && is0 theta then
      if is0 gp || pt m then wrap state ++ wrap state
      else wrap state ++ [(gray_gate n (last_phase n gp) false, seq 0 n)] ++ wrap state
    else if name_eqb nm n_h then
      wrap state ++ [(gS, [n]); (gH, [n]); (gT, [n]); mcx; (gT_dg, [n]); (gH, [n]); (gS_dg, [n])] ++ wrap state
    else
      let alpha := lam in let beta := phi in
      let gA := Comp ["A"]%char 1 0 [(gRZ alpha, [0]); (gRY (theta / (1 + 1))%Qc, [0])] [] in
      let gB := Comp ["B"]%char 1 0 [(gRY (- (theta / (1 + 1)))%Qc, [0]); (gRZ (- ((alpha + beta) / (1 + 1)))%Qc, [0])] [] in
      let gC := Comp ["C"]%char 1 0 [(gRZ ((beta - alpha) / (1 + 1))%Qc, [0])] [] in
      wrap state
      ++ (if pt m then [] else [(gray_gate n (last_phase n (gp + (alpha + beta) / (1 + 1))%Qc) false, seq 0 n)])
      ++ [(gA, [n]); (gray_pt_mcx n, all); (gB, [n]); (inv_op (gray_pt_mcx n), all); (gC, [n])] ++ wrap state
  | _ => []
  end.
(** CO 24-50, multi_controlled_circuit *)
Definition multi_controlled_circuit (b : body) (n : nat) (state : list bool) : body :=
  map (fun i => let '(o, loc) := i in
    if is_alloc o then (o, map (fun q => n + q) loc) else (controlled state o, seq 0 n ++ map (fun q => n + q) loc)) b.
(** CO 243-253, fredkin_qc *)
Definition fredkin_qc (n : nat) (state : list bool) : body :=
  [(gCX, [n + 1; n]); (controlled state gCX, seq 0 (n + 2)); (gCX, [n + 1; n])].
(** OP 675-693: controlled global phase *)
Definition controlled_gphase (a : Qc) (n : nat) (state : list bool) : body :=
  let g := if 1 <? n then controlled (tl state) (gP a) else gP a in
  let x := if hd true state then [] else [(gX, [n - 1])] in
  x ++ [(g, seq 0 n)] ++ x.
(** OP 675-756: the definition circuit. None: a primitive gate (cx, cy, cz), a Toffoli gate, or no way to control the operation
    (exception) *)
Definition definition (m : method) (base : qop) (n : nat) (state : list bool) : option body :=
  match base with
  | U3 nm theta phi lam gp params =>
      if name_eqb nm n_gphase then Some (controlled_gphase (hd 0%Qc params) n state) else Some (multi_controlled_u3_circ m base n state)
  | Pauli p =>
      if (n =? 1) && hd false state then None
      else match p with
           | PX => if (n =? 2) && forallb (fun b => b) state then None else Some (multi_controlled_u3_circ m base n state)
           | _ => Some (multi_controlled_u3_circ m base n state)
           end
  | Comp nm _ _ b _ => if name_eqb nm n_swap then Some (fredkin_qc n state) else Some (multi_controlled_circuit b n state)
  | _ => None
  end.
(** replacing controlled operations by their definitions, down to the given depth *)
Fixpoint expand (m : method) (depth : nat) (o : qop) : qop :=
  match depth with
  | O => o
  | S depth =>
    match o with
    | Ctrl state base =>
        match definition m base (length state) state with
        | Some b => Comp [] (length state + arity base) 0 (map (fun i => (expand m depth (fst i), snd i)) b) []
        | None => o
        end
    | Comp nm nq ncl b params => Comp nm nq ncl (map (fun i => (expand m depth (fst i), snd i)) b) params
    | o => o
    end
  end.
