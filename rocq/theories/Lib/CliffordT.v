(** Exact amplitude semantics of Clifford+T circuits.

    Amplitudes live in Z[w], w = exp(i pi/4), as (a,b,c,d) = a + b w + c w^2 + d w^3, w^4 = -1.
    Factors 1/sqrt 2 are left out of the gate matrices: H is [[1,1],[1,-1]] (true matrix times sqrt 2)
    and SX is [[1+i,1-i],[1-i,1+i]] (true matrix times 2), so a run equals the true result times
    sqrt 2 ^ [scale circuit].  A state is a function from bit lists to amplitudes; it is arbitrary,
    so statements cover all superpositions, including entanglement with further qubits (one such
    function per basis state of the environment). *)
From Coq Require Export ZArith List Bool Lia Arith.
Export ListNotations.
Local Open Scope Z_scope.

Definition W : Type := (Z * Z * Z * Z)%type.
Definition w0 : W := (0, 0, 0, 0).
Definition wadd (x y : W) : W := let '(a, b, c, d) := x in let '(a', b', c', d') := y in (a + a', b + b', c + c', d + d').
Definition wneg (x : W) : W := let '(a, b, c, d) := x in (- a, - b, - c, - d).
Definition wscale (k : Z) (x : W) : W := let '(a, b, c, d) := x in (k * a, k * b, k * c, k * d).
(** multiplication by w *)
Definition womega (x : W) : W := let '(a, b, c, d) := x in (- d, a, b, c).
Fixpoint wphase (k : nat) (x : W) : W := match k with O => x | S k => womega (wphase k x) end.

Definition amp := list bool -> W.
Definition bit (b : list bool) (q : nat) : bool := nth q b false.
Fixpoint set (b : list bool) (q : nat) (v : bool) : list bool :=
  match b, q with
  | [], _ => []
  | _ :: t, O => v :: t
  | h :: t, S q => h :: set t q v
  end.

Inductive cgate :=
| H (q : nat)
| SX (q : nat) | SXDG (q : nat)
| MCP (k : nat) (qs : list nat)      (* phase w^k if all of qs are 1: T, S, Z, CZ, ... *)
| PXOR (k : nat) (a b : nat)         (* phase w^k if a and b differ *)
| MCX (cs : list nat) (t : nat)
| PROJ (q : nat) (m : bool).         (* measurement of q with outcome m (unnormalised) *)
Definition T q := MCP 1 [q].
Definition TDG q := MCP 7 [q].
Definition S_ q := MCP 2 [q].
Definition SDG q := MCP 6 [q].
Definition CZ a b := MCP 4 [a; b].
Definition X q := MCX [] q.
Definition CX c t := MCX [c] t.

Definition allset (b : list bool) (qs : list nat) : bool := forallb (bit b) qs.
Definition flip (b : list bool) (t : nat) : list bool := set b t (negb (bit b t)).
Definition step (g : cgate) (f : amp) : amp := fun b =>
  match g with
  | H q => if bit b q then wadd (f (set b q false)) (wneg (f (set b q true)))
           else wadd (f (set b q false)) (f (set b q true))
  | SX q => (* (1+i) f(b) + (1-i) f(flip b) *)
    let x := f b in let y := f (flip b q) in
    wadd (wadd x (wphase 2 x)) (wadd y (wphase 6 y))
  | SXDG q => let x := f b in let y := f (flip b q) in
    wadd (wadd x (wphase 6 x)) (wadd y (wphase 2 y))
  | MCP k qs => if allset b qs then wphase k (f b) else f b
  | PXOR k x y => if xorb (bit b x) (bit b y) then wphase k (f b) else f b
  | MCX cs t => if allset b cs then f (flip b t) else f b
  | PROJ q m => if eqb (bit b q) m then f b else w0
  end.
Fixpoint run (l : list cgate) (f : amp) : amp := match l with [] => f | g :: l => run l (step g f) end.
(** number of omitted factors 1/sqrt 2 *)
Definition gscale (g : cgate) : nat := match g with H _ => 1 | SX _ | SXDG _ => 2 | _ => 0 end.
Definition scale (l : list cgate) : nat := fold_right (fun g n => (gscale g + n)%nat) 0%nat l.

(** /repo/src/qrisp/circuit: inverse of a circuit, gate by gate in reverse order *)
Definition ginv (g : cgate) : cgate :=
  match g with
  | MCP k qs => MCP (8 - k) qs | PXOR k a b => PXOR (8 - k) a b
  | SX q => SXDG q | SXDG q => SX q | g => g
  end.
Definition inv (l : list cgate) : list cgate := rev (map ginv l).
(** append a circuit on other qubits: qubit i of the inner circuit is [nth i qs] *)
Definition gmap (f : nat -> nat) (g : cgate) : cgate :=
  match g with
  | H q => H (f q) | SX q => SX (f q) | SXDG q => SXDG (f q)
  | MCP k qs => MCP k (map f qs) | PXOR k a b => PXOR k (f a) (f b)
  | MCX cs t => MCX (map f cs) (f t) | PROJ q m => PROJ (f q) m
  end.
Definition on (qs : list nat) (l : list cgate) : list cgate := map (gmap (fun i => nth i qs 0%nat)) l.

Lemma run_app l1 l2 f : run (l1 ++ l2) f = run l2 (run l1 f).
Proof. revert f. induction l1 as [|g l1 IH]; intros f; cbn [run app]; [reflexivity|apply IH]. Qed.
Lemma step_ext g f f' : (forall b, f b = f' b) -> forall b, step g f b = step g f' b.
Proof. intros E b. destruct g; cbn [step]; rewrite !E; reflexivity. Qed.
Lemma run_ext l : forall f f', (forall b, f b = f' b) -> forall b, run l f b = run l f' b.
Proof. induction l as [|g l IH]; intros f f' E b; cbn [run]; [apply E|]. apply IH. apply step_ext. exact E. Qed.

Lemma W_eq (a b c d a' b' c' d' : Z) : a = a' -> b = b' -> c = c' -> d = d' -> (a, b, c, d) = (a', b', c', d') :> W.
Proof. intros; subst; reflexivity. Qed.

Ltac wcbn := cbv [run step on gmap map app rev inv ginv nth bit set flip allset forallb negb xorb andb orb eqb Nat.sub
  T TDG S_ SDG CZ X CX wphase].
(** destruct all amplitudes of the initial state and compare components *)
Ltac wsolve :=
  repeat match goal with |- context[?f ?l] =>
    match type of (f l) with W => is_var f; let a := fresh "a" in let b := fresh "b" in let c := fresh "c" in let d := fresh "d" in
      destruct (f l) as [[[a b] c] d] end end;
  cbn [wadd wneg wscale womega w0 wphase]; apply W_eq; lia.
