(** Model of how nested quantum environments are compiled into circuits (outside tracing mode):
    /repo/src/qrisp/environments/quantum_environments.py 517-528 (QE), control_environment.py 107-361 and 395-444 (CE),
    quantum_conditionals.py 365-552 (QC), quantum_inversion.py 249-339 (QI), conjugation_environment.py 144-229 (CJ),
    custom_control_environment.py 190-232 and 285-364 (CU), retarget_instructions in misc/utility.py 1348-1361.
    A program is a tree of environments with gates as leaves. Qubits are numbers; the qubits of the program are below some
    bound, and the quantum variables the environments create take the numbers from that bound on, in order of compilation
    (the code creates new Qubit objects, some of them when the environment is entered).
    Left out: allocation and deallocation of these variables, barriers, sessions and locks, GateWrapEnvironments and
    user-defined environments, the method argument of control, custom_control functions other than the one conjugation uses. *)
From Coq Require Import List Bool Arith QArith Qcanon.
From Verif.Inverse Require Import InvModel InvSpec.
From Verif.CtrlOps Require Import CtrlModel.
Import ListNotations.
Local Open Scope nat_scope.

(** ** programs *)
Inductive item :=
| Gate (o : qop) (qs : list nat)                                          (** an operation appended by the user *)
| Flip                                                                    (** x on the truth value the innermost control or condition environment hands out *)
| Control (cs : list nat) (st : list bool) (inv : bool) (body : list item)  (** with control(cs, st, invert = inv) *)
| Cond (args : list nat) (f : list bool -> bool) (body : list item)        (** with <condition f on args> *)
| Invert (body : list item)                                               (** with invert() *)
| Plain (body : list item)                                                (** with QuantumEnvironment() *)
| Conj (u : list (qop * list nat)) (body : list item).                    (** with conjugate(u)() *)
Definition is_cond (i : item) : bool := match i with Control _ _ _ _ | Cond _ _ _ => true | _ => false end.

(** ** instructions of the compiled circuit *)
Inductive ins :=
| Do (o : qop) (qs : list nat)
| Mcx (undo : bool) (cs : list nat) (st : list bool) (t : nat)    (** mcx with method gray_pt, or gray_pt_inv if undo *)
| Eval (args : list nat) (f : list bool -> bool) (t : nat)        (** the condition evaluated into the fresh qubit t, or the evaluation inverted *)
| Ctl (q : nat) (b : bool) (i : ins)                              (** op.control(1, ctrl_state = b) *)
| Cu (q : option nat) (i : ins)                                   (** CustomControlOperation, CU 319-364; Some q: not targeting the control q, which is prepended *)
| Flanked (q : nat) (i : ins).                                    (** CE 399-409: x on q, i, x on q as one CustomControlOperation *)
Fixpoint qubits (i : ins) : list nat :=
  match i with
  | Do _ qs => qs
  | Mcx _ cs _ t => cs ++ [t]
  | Eval args _ t => args ++ [t]
  | Ctl q _ i => q :: qubits i
  | Cu (Some q) i => q :: qubits i
  | Cu None i => qubits i
  | Flanked _ i => qubits i
  end.
Definition is_cu (i : ins) : bool := match i with Cu _ _ | Flanked _ _ => true | _ => false end.
Definition mem (q : nat) (l : list nat) : bool := existsb (Nat.eqb q) l.
Definition meets (l m : list nat) : bool := existsb (fun q => mem q m) l.
Fixpoint distinct (l : list nat) : bool := match l with [] => true | q :: l => negb (mem q l) && distinct l end.

(** the inverse of an instruction (Operation.inverse: property C32; CU 359-361) and of a circuit. None: exception *)
Fixpoint undo_ins (i : ins) : option ins :=
  match i with
  | Do o qs => match inverse Qcopp Qcplus o with Some o' => Some (Do o' qs) | None => None end
  | Mcx u cs st t => Some (Mcx (negb u) cs st t)
  | Eval a f t => Some (Eval a f t)
  | Ctl q b i => match undo_ins i with Some i' => Some (Ctl q b i') | None => None end
  | Cu q i => match undo_ins i with Some i' => Some (Cu q i') | None => None end
  | Flanked q i => match undo_ins i with Some i' => Some (Flanked q i') | None => None end
  end.
Fixpoint undo_all (l : list ins) : option (list ins) :=
  match l with
  | [] => Some []
  | i :: l => match undo_ins i, undo_all l with Some i', Some l' => Some (l' ++ [i']) | _, _ => None end
  end.

(** ** the environment whose content is being compiled *)
Record env := {
  ctv : nat;    (** condition_truth_value during compilation *)
  ctv0 : nat;   (** condition_truth_value while the content was collected (CE 116-120): what custom control refers to *)
  act : bool    (** the value of ctv for which the content is executed: ctrl_state of CE 303-316, parent_ctrl_state of CE 198-209 (they agree) *)
}.
Definition is_x (o : qop) : bool := match o with Pauli PX => true | _ => false end.
Definition is_phase (o : qop) : bool := match o with U3 n _ _ _ _ _ => name_eqb n n_p || name_eqb n n_rz | _ => false end.
(** CE 263-339, QC 465-503: one instruction of the content; subs are the truth values of environments below.
    None: an exception, or (a composite gate on the truth value, CE 418-444) not modelled *)
Definition control_ins (k : env) (subs : list nat) (i : ins) : option ins :=
  if meets (qubits i) subs then Some i
  else if forallb (Nat.eqb (ctv k)) (qubits i) && negb (is_cu i) then
    match i with Do o _ => if is_x o || is_phase o then Some i else None | _ => None end
  else if mem (ctv k) (qubits i) then
    if is_cu i then Some (if act k then i else Flanked (ctv k) i) else None
  else Some (Ctl (ctv k) (act k) i).
Fixpoint control_all (k : env) (subs : list nat) (l : list ins) : option (list ins) :=
  match l with
  | [] => Some []
  | i :: l => match control_ins k subs i, control_all k subs l with Some i', Some l' => Some (i' :: l') | _, _ => None end
  end.
(** inversion_tracker, CE 287-289 and 343-344, QC 475-479 and 507-508 *)
Definition is_flip (k : env) (i : ins) : bool := match i with Do o [q] => is_x o && (q =? ctv k) | _ => false end.
Definition reflip (k : env) (l : list ins) : list ins := if Nat.odd (length (filter (is_flip k) l)) then [Do gX [ctv k]] else [].

(** CE 163-224 and 346-358, up to the content: the environment, what computes and what uncomputes its truth value,
    the renaming of the content and the next free qubit. None: exception; control of no qubits is not modelled *)
Definition enter_control (p : option env) (rho : nat -> nat) (nx : nat) (cs : list nat) (st : list bool) (inv : bool) : option (env * list ins * list ins * (nat -> nat) * nat) :=
  match p, cs with
  | _, [] => None
  | None, [a] => Some ({| ctv := a; ctv0 := a; act := xorb inv (hd true st) |}, [], [], rho, nx)
  | None, _ => if distinct cs then Some ({| ctv := nx; ctv0 := nx; act := negb inv |}, [Mcx false cs st nx], [Mcx true cs st nx], rho, S nx) else None
  | Some p, cs =>
      if distinct (cs ++ [ctv p]) then
        Some ({| ctv := nx; ctv0 := match cs with [a] => a | _ => nx end; act := negb inv |},
              [Mcx false (cs ++ [ctv p]) (st ++ [act p]) nx], [Mcx true (cs ++ [ctv p]) (st ++ [act p]) nx],
              match cs with [a] => fun q => if rho q =? a then nx else rho q | _ => rho end, S nx)
      else None
  end.
(** QC 377-422 and 517-552: nested, the condition goes to a qubit of its own and is combined with the truth value of the
    environment around by a Toffoli that asks for 1 and 1 (QC 403-410) *)
Definition enter_cond (p : option env) (nx : nat) (args : list nat) (f : list bool -> bool) : env * list ins * list ins * nat :=
  match p with
  | None => ({| ctv := nx; ctv0 := nx; act := true |}, [Eval args f nx], [Eval args f nx], S nx)
  | Some p => ({| ctv := nx; ctv0 := nx; act := true |},
               [Eval args f (S nx); Mcx false [ctv p; S nx] [true; true] nx], [Mcx true [ctv p; S nx] [true; true] nx; Eval args f (S nx)], S (S nx))
  end.

Definition result := (list ins * list nat * nat)%type.
(** compile one after the other *)
Definition seq_all {B} (f : nat -> B -> option result) : nat -> list B -> option result :=
  fix go nx l := match l with
  | [] => Some ([], [], nx)
  | i :: l => match f nx i with
    | Some (a, s, nx) => match go nx l with Some (b, s', nx) => Some (a ++ b, s ++ s', nx) | None => None end
    | None => None
    end
  end.
(** CE 239-267: environments with a truth value compile themselves; everything else is controlled. Simplification: an
    instruction is compared with the truth values of the item it comes from, those of earlier items do not occur in it *)
Definition content (k : env) (own : bool) (r : option result) (j : item) : option result :=
  match r with
  | Some (l, s, nx) => if is_cond j then r else match control_all k (if own then s else []) l with Some l => Some (l, s, nx) | None => None end
  | None => None
  end.
(** CU 306-314 *)
Definition cu_wrap (q : nat) (i : ins) : ins := if mem q (qubits i) then Cu None i else Cu (Some q) i.

(** compile, for an item whose closest control or condition environment is c: the instructions, the truth values of the
    control and condition environments in it (sub_condition_envs), the next free qubit *)
Fixpoint compile (rho : nat -> nat) (c : option env) (nx : nat) (it : item) : option result :=
  match it with
  | Gate o qs => Some ([Do o (map rho qs)], [], nx)
  | Flip => match c with Some k => Some ([Do gX [ctv k]], [], nx) | None => None end
  | Control cs st inv body =>
      match body with
      | [] => Some ([], [], nx)
      | _ =>
        match enter_control c rho nx cs st inv with
        | Some (k, pre, post, rho, nx) =>
            match seq_all (fun nx j => content k true (compile rho (Some k) nx j) j) nx body with
            | Some (l, s, nx) => Some (pre ++ l ++ reflip k l ++ post, s ++ [ctv k], nx)
            | None => None
            end
        | None => None
        end
      end
  | Cond args f body =>
      match body with
      | [] => Some ([], [], nx)
      | _ =>
        let '(k, pre, post, nx) := enter_cond c nx args f in
        match seq_all (fun nx j => content k true (compile rho (Some k) nx j) j) nx body with
        | Some (l, s, nx) => Some (pre ++ l ++ reflip k l ++ post, s ++ [ctv k], nx)
        | None => None
        end
      end
  | Invert body => (** QI: the content is compiled and the inverse of its circuit is appended *)
      match seq_all (fun nx j => compile rho c nx j) nx body with
      | Some (l, s, nx) => match undo_all l with Some l => Some (l, s, nx) | None => None end
      | None => None
      end
  | Plain body => seq_all (fun nx j => compile rho c nx j) nx body (** QE 520-528 *)
  | Conj u body =>
      let us := map (fun '(o, qs) => Do o (map rho qs)) u in
      match undo_all us, c with
      | None, _ => None
      | Some su, None => (** CJ 219-229, not controlled *)
          match seq_all (fun nx j => compile rho c nx j) nx body with Some (l, s, nx) => Some (us ++ l ++ su, s, nx) | None => None end
      | Some su, Some k => (** CJ 222-224: the content goes into control(ctrl), which sees no environment around (CE 145-151 stops at the CustomControlEnvironment) *)
          let k' := {| ctv := ctv0 k; ctv0 := ctv0 k; act := true |} in
          match seq_all (fun nx j => content k' false (compile rho c nx j) j) nx body with
          | Some (l, s, nx) => Some (map (cu_wrap (ctv0 k)) (us ++ l ++ reflip k' l ++ su), s, nx)
          | None => None
          end
      end
  end.
(** a whole program *)
Definition compile_program (nx : nat) (p : list item) : option result := seq_all (fun nx j => compile (fun q => q) None nx j) nx p.
