(** Model of the fixed synthesis circuits, /repo/src/qrisp/alg_primitives/mcx_algs/circuit_library.py
    (CL below), gidney.py, maslov.py, amy.py, jones.py and
    /repo/src/qrisp/circuit/pass_management/passes/gray_synth_toffoli.py. *)
From Verif.Lib Require Export CliffordT.

(** CL 31-46 (the final exchange of the qubit list entries 0 and 1 renames the symmetric controls) *)
Definition toffoli_raw : list cgate :=
  [H 2; TDG 0; TDG 1; CX 2 0; CX 1 2; T 0; CX 1 0; T 2; CX 1 2; TDG 0; CX 2 0; T 0; TDG 2; CX 1 0; H 2].
Definition toffoli_qc : list cgate := on [1; 0; 2]%nat toffoli_raw.
(** CL 51-65 *)
Definition reduced_margolus_pre : list cgate := [SX 2; T 2; CX 1 2; T 2; CX 0 2].
Definition margolus_qc : list cgate := reduced_margolus_pre ++ [TDG 2; CX 1 2; TDG 2; SXDG 2].
Definition reduced_margolus_qc : list cgate := reduced_margolus_pre ++ [SXDG 2].
(** CL 69-92 *)
Definition reduced_maslov_qc : list cgate :=
  [H 3; T 3; CX 2 3; TDG 3; H 3; CX 0 3; T 3; CX 1 3; TDG 3; CX 0 3].
Definition maslov_qc : list cgate :=
  reduced_maslov_qc ++ [T 3; CX 1 3; TDG 3; H 3; T 3; CX 2 3; TDG 3; H 3].
(** CL 96-106; gidney.py 86-99 is the same gate sequence *)
Definition gidney_qc : list cgate :=
  [H 2; T 2; CX 0 2; CX 1 2; CX 2 0; CX 2 1; TDG 0; TDG 1; T 2; CX 2 0; CX 2 1; H 2; S_ 2].
(** CL 108-113 and gidney.py 102-108, for measurement outcome [m]; the final reset (CL) / conditional
    X (gidney.py) both return the measured qubit to 0 *)
Definition gidney_inv_branch (m : bool) : list cgate :=
  [H 2; PROJ 2 m] ++ if m then [CZ 0 1; X 2] else [].
(** CL 116-131 *)
Definition amy_toffoli_qc : list cgate :=
  [H 2; T 0; T 1; T 2; CX 1 0; CX 2 1; CX 0 2; CX 0 3; CX 1 3; TDG 0; TDG 1; TDG 3; T 2;
   CX 1 3; CX 0 3; CX 0 2; CX 2 1; CX 1 0; H 2].
(** CL 134-144 *)
Definition selinger_toffoli_qc : list cgate :=
  [H 2; CX 0 3; CX 2 0; CX 2 1; CX 1 3; T 0; T 1; TDG 2; TDG 3; CX 1 3; CX 2 0; CX 2 1; CX 0 3; H 2].
(** CL 147-155, for measurement outcome [m]; the reset returns the measured qubit 3 to 0 *)
Definition jones_branch (m : bool) : list cgate :=
  on [0; 1; 3; 4]%nat selinger_toffoli_qc ++ [S_ 3; CX 3 2; H 3; PROJ 3 m] ++ (if m then [X 3; CZ 0 1] else []).
(** maslov.py 34-60, all-ones control state; n = 3, 4 use one ancilla (qubit n) and target n+1 *)
Definition maslov3 : list cgate := (on [0; 1; 3] margolus_qc ++ on [2; 3; 4] toffoli_qc ++ on [0; 1; 3] (inv margolus_qc))%nat.
Definition maslov4 : list cgate := (on [0; 1; 2; 4] maslov_qc ++ on [3; 4; 5] toffoli_qc ++ on [0; 1; 2; 4] (inv maslov_qc))%nat.
Definition maslov_mcx (n : nat) : option (list cgate) :=
  match n with
  | 1 => Some [CX 0 1]
  | 2 => Some toffoli_qc
  | 3 => Some maslov3
  | 4 => Some maslov4
  | _ => None
  end%nat.
(** CL 21-27 [ctrl_state_wrap]: X on every control whose control state is "0", before and after *)
Definition ctrl_state_wrap (l : list cgate) (cs : list bool) : list cgate :=
  let xs := flat_map (fun i => if nth i cs true then [] else [X i]) (seq 0 (length cs)) in
  rev xs ++ l ++ xs.
(** gray_synth_toffoli.py 36-53; rzz(-pi/4) is modelled as the phase exp(-i pi/4) on unequal
    bits, that is up to the global phase exp(i pi/8) *)
Definition gray_toffoli_qc : list cgate :=
  [T 0; T 1; H 2; T 2; CX 1 2; TDG 2; CX 0 2; T 2; CX 1 2; TDG 2; CX 0 2; H 2; PXOR 7 0 1].

(** ** yong.py 24-83, for any number of controls.  [fuel] bounds the recursion depth (the code recurses on
    strictly shorter control lists); [None] when the code would fail (fewer than two controls, which
    [mcx] handles separately).  The base case (two controls, method "gray") is the Toffoli gate. *)
Fixpoint yong (fuel : nat) (cs : list nat) (t : nat) (anc : nat) : option (list cgate) :=
  match fuel with
  | O => None
  | Datatypes.S fuel =>
    match cs with
    | [c1; c2] => Some [MCX [c1; c2] t]
    | _ =>
      let n := length cs in
      let k1 := skipn (n / 2) cs in
      let k2 := firstn (n / 2) cs in
      match k1, k2 with
      | a1 :: _, a2 :: _ =>
        match yong fuel k1 anc (last k2 0%nat), yong fuel (k2 ++ [t]) anc (last k1 0%nat),
              yong fuel (k2 ++ [t]) anc a1, yong fuel k1 anc a2 with
        | Some c1, Some c2, Some c3, Some c4 =>
          Some ([H t] ++ c1 ++ [S_ anc] ++ c2 ++ [SDG anc] ++
                inv ([S_ anc] ++ c3 ++ [SDG anc] ++ c4) ++ [H t])
        | _, _, _, _ => None
        end
      | _, _ => None
      end
    end
  end.
Definition yong_mcx (cs : list nat) (t anc : nat) : option (list cgate) := yong (length cs) cs t anc.
(** yong.py 37-39 and 81-83: the control state ("0" entries are conjugated by X) *)
Definition zeros (cs : list nat) (st : list bool) : list nat := map fst (filter (fun p => negb (snd p)) (combine cs st)).
Definition yong_ctrl (cs : list nat) (st : list bool) (t anc : nat) : option (list cgate) :=
  match yong_mcx cs t anc with
  | Some l => Some (map X (zeros cs st) ++ l ++ map X (zeros cs st))
  | None => None
  end.
