(** What is asked of the numbers behind angles: exp(i a) for angles a in units of pi, cos(a / 2), sin(a / 2) and the imaginary unit
    in a commutative ring with 1/2. *)
From Coq Require Import List QArith Qcanon.
Import ListNotations.
From Verif.CtrlOps Require Import CtrlModel.
Definition euler {R : Type} (rO rI : R) (radd rmul : R -> R -> R) (ropp : R -> R) (expi chalf shalf : Qc -> R) (im : R) : Prop :=
  (forall a b, expi (a + b)%Qc = rmul (expi a) (expi b)) /\ expi 0%Qc = rI /\ expi 1%Qc = ropp rI /\ expi (1 / (1 + 1))%Qc = im /\
  (forall a, expi (a / (1 + 1))%Qc = radd (chalf a) (rmul im (shalf a))) /\
  (forall a, chalf (- a)%Qc = chalf a) /\ (forall a, shalf (- a)%Qc = ropp (shalf a)) /\ (exists half, radd half half = rI).
From Verif.Inverse Require Import InvModel InvSpec.
(** U3 gates whose name is that of a gate of the library have the angles of that gate or of its inverse (unit: pi); the other
    names are free. *)
Definition standard_u3 (nm : name) (theta phi lam gp : Qc) (params : list Qc) : Prop :=
  (In nm [n_p; n_t; n_s; n_t ++ dg; n_s ++ dg] -> theta = 0 /\ gp = 0)%Qc /\
  (nm = n_rz -> theta = 0 /\ gp = - ((phi + lam) / (1 + 1)) /\ hd 0 params = lam + phi)%Qc /\
  (In nm [n_rx; n_sx; n_sx ++ dg] -> phi = - q_half /\ lam = q_half /\ gp = 0)%Qc /\
  (nm = n_ry -> phi = 0 /\ lam = 0 /\ gp = 0)%Qc /\
  (nm = n_h -> (theta = q_half /\ phi = 0 /\ lam = 1 /\ gp = 0) \/ (theta = - q_half /\ phi = - (1) /\ lam = 0 /\ gp = 0))%Qc /\
  (nm = n_gphase -> theta = 0 /\ phi = 0 /\ lam = 0 /\ params = [gp])%Qc.
(** operations that can be controlled with the given state of the controls; excluded: the gates of the refuted theorems (Y with
    other controls than a single 1, global phases with mixed control states) and other operations with the name of the swap gate *)
Inductive controllable : list bool -> qop -> Prop :=
| c_u3 st nm theta phi lam gp params : standard_u3 nm theta phi lam gp params ->
    (nm = n_gphase -> st = repeat true (length st) \/ st = repeat false (length st)) -> controllable st (U3 nm theta phi lam gp params)
| c_pauli st p : p <> PY \/ st = [true] -> controllable st (Pauli p)
| c_swap st : controllable st gSwap
| c_comp st nm nq ncl b params : nm <> n_swap -> wf_body nq b ->
    (forall o loc, In (o, loc) b -> is_alloc o = true \/ controllable st o) -> controllable st (Comp nm nq ncl b params)
| c_ctrl st st' base : controllable (st ++ st') base -> controllable st (Ctrl st' base).
(** operations in which every controlled operation is of that kind *)
Inductive decomposable : qop -> Prop :=
| d_u3 nm theta phi lam gp params : decomposable (U3 nm theta phi lam gp params)
| d_pauli p : decomposable (Pauli p)
| d_ctrl st base : st <> [] -> controllable st base -> decomposable (Ctrl st base)
| d_comp nm nq ncl b params : wf_body nq b -> (forall o loc, In (o, loc) b -> decomposable o) -> decomposable (Comp nm nq ncl b params)
| d_alloc : decomposable Alloc | d_dealloc : decomposable Dealloc | d_barrier k : decomposable (Barrier k) | d_opaque nm nq ncl : decomposable (Opaque nm nq ncl).
(** a list of bits as a number, the first bit being the lowest *)
Fixpoint number (c : list bool) : Z := match c with [] => 0%Z | b :: c => ((if b then 1 else 0) + 2 * number c)%Z end.
