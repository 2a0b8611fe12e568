(** Model of fuse_adjacents (/repo/src/qrisp/circuit/pass_management/passes/fuse_adjacents.py).

    Amplitudes range over any commutative ring with an imaginary unit; angles over any abelian group with cosine and
    sine in that ring.  The parameters of rz, p, rx, ry, cp and rzz are stored halved (the gate's angle is par + par),
    so that the half angles the code computes with are available; gphase stores its angle itself.
    Angles are exact: the code's floating point sums and the test "== 0" are the group's. *)
From Verif.Lib Require Export QState.
Local Open Scope nat_scope.

Record trig (R : comring) := {
  ang : Type; a0 : ang; aadd : ang -> ang -> ang; aopp : ang -> ang; aeqb : ang -> ang -> bool;
  co : ang -> R; si : ang -> R; iu : R; rh : R (* 1/sqrt 2 *);
  aeqb_ok : forall a b, aeqb a b = true <-> a = b;
  aadd_0 : forall a, aadd a a0 = a; aadd_comm : forall a b, aadd a b = aadd b a; aadd_assoc : forall a b c, aadd a (aadd b c) = aadd (aadd a b) c;
  aadd_opp : forall a, aadd a (aopp a) = a0;
  co_0 : co a0 = one; si_0 : si a0 = zero;
  co_add : forall a b, co (aadd a b) = sub (mul (co a) (co b)) (mul (si a) (si b));
  si_add : forall a b, si (aadd a b) = add (mul (si a) (co b)) (mul (co a) (si b));
  co_opp : forall a, co (aopp a) = co a; si_opp : forall a, si (aopp a) = opp (si a);
  iu_sq : mul iu iu = opp one; rh_sq : mul (add one one) (mul rh rh) = one }.
Arguments ang {R}. Arguments a0 {R t}. Arguments aadd {R t}. Arguments aopp {R t}. Arguments aeqb {R t}. Arguments co {R t}. Arguments si {R t}. Arguments iu {R}. Arguments rh {R}.

Section fuse.
Context {R : comring} (T : trig R).
Notation A := (ang T).
(** e^(i a) *)
Definition ex (a : A) : R := add (co a) (mul (iu T) (si a)).

(** op.name, as far as the pass distinguishes names; a Gidney logical AND carries ctrl_state and inv *)
Inductive name := NSwap | NCx | NCz | NCp | NRzz | NRz | NP | NRx | NRy | NGphase | NAnd (cs : bool * bool) (inv : bool) | NOther.
Record gate := { gname : name; gpar : A; gmat : mat R }.
Record finstr := { fop : gate; fqs : list nat; fcl : list nat; fclc : bool (* ClControlledOperation *) }.

(** ** matrices of the named gates (circuit/standard_operations.py 85-300, operation.py 430-560) *)
Definition m1 (a b c d : R) : mat R := fun r s => match r, s with
  | [false], [false] => a | [false], [true] => b | [true], [false] => c | [true], [true] => d | _, _ => zero end.
Definition rzm (a : A) : mat R := m1 (ex (aopp a)) zero zero (ex a).
Definition pm (a : A) : mat R := m1 one zero zero (ex (aadd a a)).
Definition rxm (a : A) : mat R := m1 (co a) (opp (mul (iu T) (si a))) (opp (mul (iu T) (si a))) (co a).
Definition rym (a : A) : mat R := m1 (co a) (opp (si a)) (si a) (co a).
Definition gpm (a : A) : mat R := m1 (ex a) zero zero (ex a).
Definition hm : mat R := m1 (rh T) (rh T) (rh T) (opp (rh T)).
Definition cxm : mat R := fun r s => match r, s with [a; b], [c; d] => if eqb a c && eqb b (xorb c d) then one else zero | _, _ => zero end.
Definition d2 (k : bool -> bool -> R) : mat R := fun r s => match r, s with [a; b], [c; d] => if eqb a c && eqb b d then k a b else zero | _, _ => zero end.
Definition czm : mat R := d2 (fun a b => if a && b then opp one else one).
Definition cpm (a : A) : mat R := d2 (fun x y => if x && y then ex (aadd a a) else one).
Definition rzzm (a : A) : mat R := d2 (fun x y => if xorb x y then ex a else ex (aopp a)).
(** gidney.py 28-53: the margolus circuit with inverted controls *)
Definition andm (cs : bool * bool) : mat R := fun r s => match r, s with [a; b; t], [c; d; u] =>
  if eqb a c && eqb b d && eqb t (xorb u (eqb a (fst cs) && eqb b (snd cs))) then (if eqb a (fst cs) && negb (eqb b (snd cs)) && t then opp one else one) else zero | _, _ => zero end.

(** ** _fuse_swap_with_neighbour 121-185.  The replacement is a circuit on two qubits, wrapped as a gate. *)
Definition circ := list (mat R * list nat).
Definition crun (c : circ) (v : vec R) : vec R := fold_left (fun v g => ap (fst g) (snd g) v) c v.
Definition cmat (c : circ) : mat R := fun r s => crun c (fun x => if beqs x s then one else zero) r.
Definition to_gate (c : circ) : gate := {| gname := NOther; gpar := a0; gmat := cmat c |}.
Definition swap_rzz (a : A) : circ := [(cxm, [0; 1]); (cxm, [1; 0]); (rzm a, [1]); (cxm, [0; 1])].
(** P(phi/2) = diag(1, ex a) for the halved parameter a *)
Definition phalf (a : A) : mat R := m1 one zero zero (ex a).
Definition swap_cp (a : A) : circ := [(cxm, [0; 1]); (cxm, [1; 0]); (phalf (aopp a), [1]); (cxm, [0; 1]); (phalf a, [0]); (phalf a, [1])].
Definition fuse_swap (a b : gate) : option gate :=
  match (match gname a with
         | NSwap => match gname b with
                    | NCx => Some [(cxm, [0; 1]); (cxm, [1; 0])]
                    | NRzz => Some (swap_rzz (gpar b))
                    | NCp => Some (swap_cp (gpar b))
                    | _ => None end
         | _ => None end) with
  | Some c => Some (to_gate c)
  | None =>
    match gname b with
    | NSwap => match gname a with
               | NCx => Some (to_gate [(cxm, [1; 0]); (cxm, [0; 1])])
               | NRzz => Some (to_gate (swap_rzz (gpar a)))
               | NCp => Some (to_gate (swap_cp (gpar a)))
               | NCz => Some (to_gate [(hm, [1]); (cxm, [1; 0]); (cxm, [0; 1]); (hm, [0])])
               | _ => None end
    | _ => None end
  end.

Inductive outcome := ONone | OCancel | OFused (g : gate).
(** ** _fuse_parameterized_1q 218-262; also returns what is added to gphase_array[0].
    rz has global_phase -phi/2. *)
Definition mk (nm : name) (m : A -> mat R) (a : A) : gate := {| gname := nm; gpar := a; gmat := m a |}.
(** the code tests the sum of the angles; for real angles that is zero iff half of it is *)
Definition cancel_or (s : A) (g : gate) : outcome := if aeqb s a0 then OCancel else OFused g.
Definition fuse_1q (a b : gate) : outcome * A :=
  let s := aadd (gpar a) (gpar b) in
  match gname a, gname b with
  | NRz, NRz => (cancel_or s (mk NRz rzm s), a0)
  | NRz, NP => (cancel_or s (mk NP pm s), aopp (gpar a))
  | NP, NRz => (cancel_or s (mk NP pm s), aopp (gpar b))
  | NP, NP => (cancel_or s (mk NP pm s), a0)
  | NRx, NRx => (cancel_or s (mk NRx rxm s), a0)
  | NRy, NRy => (cancel_or s (mk NRy rym s), a0)
  | NGphase, NGphase => (OFused (mk NGphase gpm s), a0)
  | _, _ => (ONone, a0)
  end.
(** ** _fuse_gidney_and 288-298 *)
Definition fuse_and (a b : gate) : option outcome :=
  match gname a, gname b with
  | NAnd ca ia, NAnd cb ib =>
      if eqb (fst ca) (fst cb) && eqb (snd ca) (snd cb) && xorb ia ib then Some OCancel else None
  | _, _ => None
  end.

(** ** _fuse_operations 474-515.  [generic] stands for stages 4-6 (controlled operations, comparison of the unitary of
    the inverse, transpile-and-fuse), which decide by computing with the operations' definitions and unitaries. *)
Variable generic : gate -> gate -> outcome.
Definition fuse_ops (a b : gate) : outcome * A :=
  match fuse_swap a b with
  | Some g => (OFused g, a0)
  | None =>
    match fuse_1q a b with
    | (ONone, _) => match fuse_and a b with Some r => (r, a0) | None => (generic a b, a0) end
    | r => r
    end
  end.

(** ** _resolve_qubit_order 526-565, _fuse_instructions 583-603 *)
Definition symmetric (g : gate) : bool := match gname g with NCz | NSwap | NCp | NRzz => true | _ => false end.
Definition subset (a b : list nat) : bool := forallb (fun q => existsb (Nat.eqb q) b) a.
Fixpoint lneqb (a b : list nat) : bool := match a, b with [], [] => true | x :: a, y :: b => (x =? y) && lneqb a b | _, _ => false end.
Definition resolve_order (a b : finstr) : option (list nat) :=
  let sa := symmetric (fop a) in let sb := symmetric (fop b) in
  if sa || sb then
    if subset (fqs a) (fqs b) && subset (fqs b) (fqs a) then
      if sa && negb sb then Some (fqs b) else Some (fqs a)
    else None
  else if lneqb (fqs a) (fqs b) then Some (fqs a) else None.
Definition fuse_instr (a b : finstr) : option (option finstr) * A :=
  if negb (length (fqs a) =? length (fqs b)) then (None, a0)
  else if fclc a || fclc b then (None, a0)
  else match resolve_order a b with
  | None => (None, a0)
  | Some qs =>
      match fuse_ops (fop a) (fop b) with
      | (ONone, _) => (None, a0)
      | (OCancel, d) => (Some None, d)
      | (OFused g, d) => (Some (Some {| fop := g; fqs := qs; fcl := []; fclc := false |}), d)
      end
  end.

(** ** the pass 839-916.  [nodes]: the non-virtual nodes of G with their data_list entry, in order of insertion;
    [edges]: (source, target, qubit) for each qubit listed in edge_dic, None for the virtual qubit node;
    [cedges]: the edges along classical bits; [last] / [clast]: qubit_dic and clbit_dic; [gph]: gphase_array[0]. *)
Record dag := { nodes : list (nat * finstr); edges : list (option nat * nat * nat); cedges : list (option nat * nat);
  last : nat -> option nat; clast : nat -> option nat; gph : A }.
Definition oeq (a : option nat) (b : nat) : bool := match a with Some a => a =? b | None => false end.
(** G.remove_node *)
Definition remove_node (k : nat) (d : dag) : dag :=
  {| nodes := filter (fun n => negb (fst n =? k)) (nodes d);
     edges := filter (fun e => negb (oeq (fst (fst e)) k) && negb (snd (fst e) =? k)) (edges d);
     cedges := filter (fun e => negb (oeq (fst e) k) && negb (snd e =? k)) (cedges d);
     last := last d; clast := clast d; gph := gph d |}.
(** _rewire_past_node 679-682 *)
Definition rewire (k : nat) (d : dag) : dag :=
  {| nodes := nodes d; edges := edges d; cedges := cedges d;
     last := fold_left (fun l e => let '(s, t, q) := e in if t =? k then (fun x => if x =? q then s else l x) else l) (edges d) (last d);
     clast := clast d; gph := gph d |}.
Definition set_node (k : nat) (i : finstr) (d : dag) : dag :=
  {| nodes := map (fun n => if fst n =? k then (k, i) else n) (nodes d); edges := edges d; cedges := cedges d; last := last d; clast := clast d; gph := gph d |}.
Definition find_node (k : nat) (d : dag) : option finstr := option_map snd (find (fun n => fst n =? k) (nodes d)).
(** 853-875 *)
Definition add_instr (k : nat) (i : finstr) (d : dag) : dag :=
  {| nodes := nodes d ++ [(k, i)];
     edges := edges d ++ map (fun q => (last d q, k, q)) (fqs i);
     cedges := cedges d ++ map (fun c => (clast d c, k)) (fcl i);
     last := fun q => if existsb (Nat.eqb q) (fqs i) then Some k else last d q;
     clast := fun c => if existsb (Nat.eqb c) (fcl i) then Some k else clast d c;
     gph := gph d |}.
(** 878-890: the single predecessor, if it is an instruction *)
Definition oneq (a b : option nat) : bool := match a, b with Some a, Some b => a =? b | None, None => true | _, _ => false end.
Definition single_pred (d : dag) (i : finstr) : option nat :=
  match fqs i with
  | [] => None
  | q :: qs => if forallb (fun r => oneq (last d r) (last d q)) qs then last d q else None
  end.
Definition step (k : nat) (i : finstr) (d : dag) : dag :=
  let d' := add_instr k i d in
  match single_pred d i with
  | None => d'
  | Some p =>
      match find_node p d' with
      | None => d'     (* no such node: never reached *)
      | Some ip =>
          match fuse_instr ip i with
          | (None, _) => d'
          | (Some r, dphi) =>
              let d'' := match r with
                | None => remove_node p (rewire p d')
                | Some f => rewire k (set_node p f d')
                end in
              let d'' := remove_node k d'' in
              {| nodes := nodes d''; edges := edges d''; cedges := cedges d''; last := last d''; clast := clast d''; gph := aadd (gph d'') dphi |}
          end
      end
  end.
Fixpoint build (k : nat) (data : list finstr) (d : dag) : dag := match data with [] => d | i :: data => build (S k) data (step k i d) end.
Definition empty_dag : dag := {| nodes := []; edges := []; cedges := []; last := fun _ => None; clast := fun _ => None; gph := a0 |}.

(** _emit_surviving_circuit 710-729, for the order [ord] of the nodes that networkx chose *)
Definition is_gphase (i : finstr) : bool := match gname (fop i) with NGphase => true | _ => false end.
Definition emit (ord : list (nat * finstr)) (g : A) : list finstr :=
  let body := map snd ord in
  let g := fold_left (fun g i => if is_gphase i then aadd g (gpar (fop i)) else g) body g in
  filter (fun i => negb (is_gphase i)) body ++
  (if aeqb g a0 then [] else [{| fop := mk NGphase gpm g; fqs := [0]; fcl := []; fclc := false |}]).
End fuse.
