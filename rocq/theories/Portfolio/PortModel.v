(** Model of discrete portfolio rebalancing (/repo/src/qrisp/algorithms/qaoa/problems/portfolio_rebalancing.py, PR), over the real numbers. The array has two
    variables with n qubits each: s = q_array[0] on the qubits 0, ..., n - 1 and l = q_array[1] on n, ..., 2 n - 1. *)
From Coq Require Import List Arith Bool ZArith Reals.
Import ListNotations.
From Verif.StatePrep Require Import PrepModel PrepSpec.
From Verif.Inverse Require Import InvSpec.
From Verif.Mixers Require Import MixModel.
Local Open Scope R_scope.

(** the arguments in PR 40-45, 101-106: old_pos (integers; with other numbers PR 79 raises an exception), risk_return, covar_matrix, asset_return and the trading cost *)
Record problem := { old_pos : nat -> Z; risk_return : R; covar : nat -> nat -> R; asset_return : nat -> R; trading : R }.
(** /repo/src/qrisp/circuit/standard_operations.py:410-414 *)
Definition rzz (a : R) (p q : nat) : list mgate := map Std [CNot p q; U (mk_u 0 0 0 (- a / 2)) p; U (pg a) q; CNot p q].
Definition rzg (a : R) (q : nat) : list mgate := [Std (U (rz a) q)].
(** PR 57-69 *)
Definition risk_gates (pb : problem) (n : nat) (gamma : R) (i j : nat) : list mgate :=
  let prefac := gamma * covar pb i j / 4 * risk_return pb in
  rzz (- prefac) (n + i) j ++ rzz (- prefac) i (n + j) ++
  if (i =? j)%nat then rzg (2 * prefac) (n + i) ++ rzg (2 * prefac) i else rzz prefac (n + i) (n + j) ++ rzz prefac i j.
(** PR 71-73 *)
Definition return_gates (pb : problem) (n : nat) (gamma : R) (i : nat) : list mgate :=
  let prefac2 := gamma * asset_return pb i * (1 - risk_return pb) / 2 in rzg prefac2 (n + i) ++ rzg (- prefac2) i.
(** PR 77-81: the operator ^ is the exclusive or of integers and binds weaker than the arithmetic operators *)
Definition trading_gates (pb : problem) (n : nat) (gamma : R) (i : nat) : list mgate :=
  let tc := trading pb / 4 in
  let old := old_pos pb i in
  let a := IZR (Z.lxor (1 - old) (2 - old)) in
  rzg (gamma * tc * a) (n + i) ++ rzg (gamma * tc * a) i ++ rzz (gamma * tc * IZR (Z.lxor (2 * old) (2 - 1))) (n + i) i.
(** PR 47-81 *)
Definition portfolio_cost_op (pb : problem) (n : nat) (gamma : R) : list mgate :=
  flat_map (fun i => flat_map (risk_gates pb n gamma i) (seq 0 n) ++ return_gates pb n gamma i) (seq 0 n) ++ flat_map (trading_gates pb n gamma) (seq 0 n).

(** PR 108-129. A measurement result is a list of (bits of s followed by those of l, value). [None]: no result (PR 112), or the values add up to 0 (PR 127) *)
Definition b2z (b : bool) : Z := if b then 1 else 0.
Definition new_key (n : nat) (x : list bool) (i : nat) : Z := b2z (getbit x i) - b2z (getbit x (n + i)).
Definition lsum (l : list R) : R := fold_right Rplus 0 l.
Definition energy_of (pb : problem) (n : nat) (x : list bool) : R :=
  let rr1 := lsum (flat_map (fun i => map (fun j => risk_return pb * covar pb i j * IZR (new_key n x i) * IZR (new_key n x j)) (seq 0 n)) (seq 0 n)) in
  let rr2 := lsum (map (fun j => (1 - risk_return pb) * asset_return pb j * IZR (new_key n x j)) (seq 0 n)) in
  let c_tc := lsum (map (fun _ => trading pb) (filter (fun i => negb (Z.eqb (new_key n x i) (old_pos pb i))) (seq 0 n))) in
  rr1 + rr2 + c_tc.
Definition portfolio_cl_cost (pb : problem) (n : nat) (res : list (list bool * R)) : option R :=
  let energy := fold_left (fun e '(x, v) => e - energy_of pb n x * v) res 0 in
  let counts := fold_left (fun c '(_, v) => c + v) res 0 in
  match res with [] => None | _ => if Req_EM_T counts 0 then None else Some (energy / counts) end.

(** PR 150-176; math.comb is [choose] *)
Definition band_prefix (n lots i : nat) : R := INR (choose n i * choose n (lots + i)).
Definition max_pref (n lots : nat) : R := lsum (map (band_prefix n lots) (seq 0 (n - lots + 1))).
Definition param (n lots i : nat) : R := 2 * acos (sqrt (band_prefix n lots i / max_pref n lots)).
(** l[-lots:], the whole register for 0 lots *)
Definition last_qubits (n lots : nat) : list nat := if (lots =? 0)%nat then seq 0 n else seq (n - lots) lots.
(** [None]: an exception: with too few assets an index is out of range *)
Definition portfolio_init (n lots : nat) : option (list mgate) :=
  if (n =? 0)%nat || (n <? 2 * lots)%nat then None else Some
  (map (fun q => Std (Not (n + q))) (last_qubits n lots)
   ++ [Std (U (ry (param n lots 0)) (n - 1))]
   ++ map (fun k => Std (CRy [(n - k)%nat] (param n lots k) (n - k - 1))) (seq 1 (lots - 1))
   ++ map (fun k => Std (CNot (n - k) (n + (n - lots - k)))) (seq 1 lots)).
(** QAOA with these operators, as in /repo/src/qrisp/examples/portfolio_rebalancingExample.py:81-84, 138-140 *)
Definition portfolio_qaoa (pb : problem) (n lots : nat) (angles : list (R * R)) : option (list mgate) :=
  match portfolio_init n lots with
  | Some c => Some (c ++ layers (portfolio_cost_op pb n) (portfolio_mixer n) angles)
  | None => None
  end.
