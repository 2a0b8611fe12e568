(** Model of the multi-controlled X and phase constructions in /repo/src/qrisp/alg_primitives/mcx_algs, over the gates of
    Lib/Rev.v (basis states with phases in units of pi/4). Qubits are numbered pairs; new ancillas are taken from registers
    that contain none of the given qubits. *)
From Verif.Lib Require Export Rev.

(** mcx(.., method="gray_pt") with two and three controls (gray_pt.py 28-46, circuit_library.py 51-91): the margolus and
    maslov circuits, written by their action on basis states, which McxProofs derives from the circuits. *)
Definition pt2 (a b t : qubit) : list gate := [MCP 4 [a; t]; MCP (-4) [a; b; t]; MCX [a; b] t].
Definition pt3 (a b c t : qubit) : list gate := [MCP 2 [a; b]; MCP 4 [a; b; t]; MCP 2 [a; b; c]; MCP (-8) [a; b; c; t]; MCX [a; b; c] t].

(** Operation.inverse / with invert(): inverse gates in reverse order. The inverse of the logical AND is the
    measurement-based uncomputation (gidney.py 55-56, 111-116). *)
Definition inv1 (g : gate) : gate :=
  match g with MCP k cs => MCP (- k) cs | GAND a b t => GUNAND a b t | GUNAND a b t => GAND a b t | g => g end.
Definition inv (l : list gate) : list gate := rev (map inv1 l).
(** with conjugate(U): core *)
Definition conjugate (u core : list gate) : list gate := u ++ core ++ inv u.
(** X on the controls whose control state is 0 (controlled_operations.py 62-64 and 216-218; gidney.py 33-43; ctrl_state_conjugator,
    balauca.py 464-475 and khattar.py 46-57). *)
Definition flips (cs : list (qubit * bool)) : list gate := flat_map (fun c : qubit * bool => if snd c then [] else [X (fst c)]) cs.
Definition wrap (cs : list (qubit * bool)) (l : list gate) : list gate := flips cs ++ l ++ flips cs.

(** * hybrid_mcx, balauca.py 51-190 *)
(** structure_decider, lines 258-281; None: unlimited ancillas *)
Definition structure_decider (n : nat) (k : option nat) : list nat :=
  match k with
  | None => repeat 2 (n / 2)
  | Some k => if n - 2 - k =? 0 then repeat 2 (n / 2) else if k <? n - 2 - k then repeat 3 k else repeat 3 (n - 2 - k) ++ repeat 2 (k - (n - 2 - k))
  end.
(** lines 148-158: the groups, and the remaining qubits *)
Fixpoint groups (st : list nat) (rem : list (qubit * bool)) : list (list (qubit * bool)) * list (qubit * bool) :=
  match st with
  | [] => ([], rem)
  | k :: st => if k <=? length rem then let (g, r) := groups st (skipn k rem) in (firstn k rem :: g, r) else ([], rem)
  end.
(** balauca_layer, lines 193-255: one group *)
Definition group_gate (use_mcm : bool) (g : list (qubit * bool)) (out : qubit) : list gate :=
  match g with
  | [a; b; c] => wrap g (pt3 (fst a) (fst b) (fst c) out)
  | [a; b] => wrap g (if use_mcm then [GAND (fst a) (fst b) out] else pt2 (fst a) (fst b) out)
  | _ => []
  end.
Fixpoint layer (use_mcm : bool) (gs : list (list (qubit * bool))) (r i : nat) : list gate :=
  match gs with [] => [] | g :: gs => group_gate use_mcm g (r, i) ++ layer use_mcm gs r (S i) end.
(** the same with invert=True: the inverted gates in the same order *)
Fixpoint layer_inv (use_mcm : bool) (gs : list (list (qubit * bool))) (r i : nat) : list gate :=
  match gs with [] => [] | g :: gs => inv (group_gate use_mcm g (r, i)) ++ layer_inv use_mcm gs r (S i) end.
(** lines 97-102, 128-132: XGate().control(n, ctrl_state=.., method="gray") *)
Definition gray_mcx (cs : list (qubit * bool)) (t : qubit) : list gate := wrap cs [MCX (map fst cs) t].
Definition outputs (n r : nat) : list (qubit * bool) := map (fun i => ((r, i), true)) (seq 0 n).
(** without phase and dirty ancillas; [r]: the register of the next ancillas *)
Fixpoint hybrid_mcx (fuel : nat) (use_mcm : bool) (cs : list (qubit * bool)) (t : qubit) (k : option nat) (r : nat) : option (list gate) :=
  match fuel with
  | O => None
  | S fuel =>
      let n := length cs in
      if (n <=? (if use_mcm then 2 else 3)) || (match k with Some 0 => true | _ => false end) then Some (gray_mcx cs t)
      else
        let (gs, rest) := groups (structure_decider n k) cs in
        match hybrid_mcx fuel use_mcm (outputs (length gs) r ++ rest) t (option_map (fun k => k - length gs) k) (S r) with
        | Some core => Some (layer use_mcm gs r 0 ++ core ++ layer_inv use_mcm gs r 0 ++ del_reg r (length gs))
        | None => None
        end
  end.
(** with a phase, use_mcm=True and unlimited ancillas, as called by mcp(.., method="balauca")
    (core/gate_application_functions.py 764-780); [t]: the new QuantumBool. The result is the circuit before
    the phase gate, the qubits of which the phase gate needs all ones (the P gate on [t] of line 115, or the controlled P gate of
    line 134), and the circuit after it. *)
Fixpoint hybrid_mcp (fuel : nat) (cs : list (qubit * bool)) (t : qubit) (r : nat) : option (list gate * list qubit * list gate) :=
  match fuel with
  | O => None
  | S fuel =>
      let n := length cs in
      if n <=? 2 then
        match cs with
        | [a; b] => let u := wrap cs [GAND (fst a) (fst b) t] in Some (u, [t], inv u)
        | _ => Some (flips cs, map fst cs ++ [t], flips cs)
        end
      else
        let (gs, rest) := groups (structure_decider n None) cs in
        match hybrid_mcp fuel (outputs (length gs) r ++ rest) t (S r) with
        | Some (u, ph, u') => Some (layer true gs r 0 ++ u, ph, u' ++ layer_inv true gs r 0 ++ del_reg r (length gs))
        | None => None
        end
  end.

(** * jasp_balauca_mcx, balauca.py 478-568 *)
Section lists.
Variable cs : list qubit.
Definition c_ (i : nat) : qubit := nth i cs (0, 0).
Let N := length cs.
(** lines 546-568; [size]: number of ancillas *)
Definition balauca_helper (r size : nat) : list gate :=
  loop 0 (N / 2) (fun i => [GAND (c_ (2 * i)) (c_ (2 * i + 1)) (r, i)]) ++
  (if N mod 2 =? 0 then [] else [CX (c_ (N - 1)) (r, N / 2 - 1 + N mod 2)]) ++
  (let l := N / 2 + N mod 2 in loop 0 (size - l) (fun i => [GAND (r, 2 * i) (r, 2 * i + 1) (r, l + i)])).
(** lines 491-507, for the all-ones control state; no gate for N = 0 *)
Definition balauca_mcx_1 (t : qubit) (r : nat) : list gate :=
  if N =? 0 then [] else if N =? 1 then [CX (c_ 0) t] else if N =? 2 then [MCX [c_ 0; c_ 1] t]
  else let size := N - 2 + N mod 2 in conjugate (balauca_helper r size) [MCX [(r, size - 1); (r, size - 2)] t] ++ del_reg r size.
(** lines 522-541: what comes before the phase gate, the qubit it acts on, and what comes after it; [t]: the new QuantumBool *)
Definition balauca_mcp_1 (t : qubit) (r : nat) : list gate * qubit * list gate :=
  if N =? 1 then ([], c_ 0, [])
  else if N =? 2 then (pt2 (c_ 0) (c_ 1) t, t, inv (pt2 (c_ 0) (c_ 1) t))
  else
    let size := N + N mod 2 - 1 in
    let u := balauca_helper r size ++ pt2 (r, size - 1) (r, size - 2) t in (u, t, inv u ++ del_reg r size).

(** * khattar.py *)
(** cca_4ctrls, lines 106-120 *)
Definition cca_4ctrls (t anc : qubit) : list gate :=
  pt2 (c_ 1) (c_ 0) anc ++ [X (c_ 1)] ++ pt2 (c_ 3) (c_ 2) (c_ 1) ++ [MCX [c_ 1; anc] t] ++
  pt2 (c_ 2) (c_ 3) (c_ 1) ++ [X (c_ 1)] ++ pt2 (c_ 0) (c_ 1) anc ++ [DEL anc].
(** cca_mcx, lines 123-152. [c] in line 143 may be -1; the indices in line 146 are used for c > -1 only. *)
Definition cca_mcx (anc : qubit) : list gate :=
  let o := N mod 2 in
  [GAND (c_ 0) (c_ 1) anc] ++
  loop 0 ((N - 2) / 2) (fun i => pt2 (c_ (2 * i + 3)) (c_ (2 * i + 2)) (c_ (2 * i + 1))) ++
  loop 0 (N - 2) (fun i => [X (c_ i)]) ++
  (if 6 <=? N + o then pt2 (c_ (N + o - 5)) (c_ (N + 2 * o - 3)) (c_ (N + o - 6)) else []) ++
  inv (loop 0 ((N + o - 5) / 2) (fun i => pt2 (c_ (2 * i + 2)) (c_ (2 * i + 1)) (c_ (2 * i)))).
(** khattar_mcx, lines 184-205 and 207-228, for all-ones control state, except three controls, for which gidney_CCCX (traced) or
    balauca (otherwise) is used *)
Definition khattar_mcx_1 (t anc : qubit) : list gate :=
  if N =? 0 then [] else if N =? 1 then [CX (c_ 0) t] else if N =? 2 then [MCX [c_ 0; c_ 1] t]
  else if N =? 3 then [MCX cs t]
  else if N =? 4 then cca_4ctrls t anc
  else conjugate (cca_mcx anc) [MCX [anc; c_ 0] t] ++ [DEL anc].
(** khattar_mcp, lines 243-271: what comes before the phase gate, the qubit it acts on, and what comes after it *)
Definition khattar_mcp_1 (t anc : qubit) : list gate * qubit * list gate :=
  if N =? 1 then ([], c_ 0, [])
  else
    let u := if N =? 2 then pt2 (c_ 0) (c_ 1) t else if N =? 3 then [MCX cs t] else if N =? 4 then cca_4ctrls t anc
             else cca_mcx anc ++ [MCX [anc; c_ 0] t] in
    (u, t, inv u ++ (if N <=? 4 then [] else [DEL anc])).
End lists.
(** the conjugation with X for any control state: lines 490 and 521; khattar.py 183 and 243 *)
Definition jasp_balauca_mcx (cs : list (qubit * bool)) (t : qubit) (r : nat) : list gate := wrap cs (balauca_mcx_1 (map fst cs) t r).
Definition khattar_mcx (cs : list (qubit * bool)) (t anc : qubit) : list gate := wrap cs (khattar_mcx_1 (map fst cs) t anc).
Definition jasp_balauca_mcp (cs : list (qubit * bool)) (t : qubit) (r : nat) : list gate * qubit * list gate :=
  let '(u, q, u') := balauca_mcp_1 (map fst cs) t r in (flips cs ++ u, q, u' ++ flips cs ++ [DEL t]).
Definition khattar_mcp (cs : list (qubit * bool)) (t anc : qubit) : list gate * qubit * list gate :=
  let '(u, q, u') := khattar_mcp_1 (map fst cs) t anc in (flips cs ++ u, q, u' ++ flips cs ++ [DEL t]).
