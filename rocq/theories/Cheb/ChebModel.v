(** Model of the helpers for Chebyshev series (/repo/src/qrisp/algorithms/gqsp/helper_functions.py, HF) and of the unary state of the CKS algorithm (/repo/src/qrisp/algorithms/cks.py, CK). Real arithmetic, no rounding. *)
From Coq Require Import Reals List Arith Bool.
Import ListNotations.
From Verif.StatePrep Require Import PrepModel.
Local Open Scope R_scope.
(** * Series, lists of coefficients from the lowest order *)
(** HF 68-70 and 122-124: a row of zeros with one 1 *)
Definition unit_row (N i : nat) : list R := map (fun j => if (j =? i)%nat then 1 else 0) (seq 0 N).
(** HF 75 and 129: jnp.roll(v, 1) *)
Definition roll (v : list R) : list R := match v with [] => [] | _ => last v 0 :: removelast v end.
(** HF 77 and 131: v.at[0].set(0) *)
Definition set_first (v : list R) : list R := match v with [] => [] | _ :: v => 0 :: v end.
(** sums, differences and multiples of arrays, as HF 75-78, 129-132 and 135 use them *)
Fixpoint vsub (a b : list R) : list R := match a, b with x :: a, y :: b => (x - y) :: vsub a b | _, _ => [] end.
Fixpoint vadd (a b : list R) : list R := match a, b with x :: a, y :: b => (x + y) :: vadd a b | _, _ => [] end.
Definition vscale (r : R) (a : list R) : list R := map (fun x => r * x) a.
(** HF 74-78 and 128-132, the body of the loop: the row from the two rows before *)
Definition next_row (prev before : list R) : list R := vsub (set_first (vscale 2 (roll prev))) before.
Fixpoint rows_from (k : nat) (prev before : list R) : list (list R) := match k with O => [] | S k => let r := next_row prev before in r :: rows_from k r prev end.
(** HF 67-78 and 121-132: the matrix C *)
Definition matrix (N : nat) : list (list R) := match N with O => [] | 1%nat => [unit_row 1 0] | S (S k) => unit_row N 0 :: unit_row N 1 :: rows_from k (unit_row N 1) (unit_row N 0) end.
(** HF 135: jnp.dot(v, M) for a matrix with rows of N entries *)
Fixpoint dot (N : nat) (v : list R) (M : list (list R)) : list R := match v, M with x :: v, r :: M => vadd (vscale x r) (dot N v M) | _, _ => repeat 0 N end.
(** HF 90-137: cheb2poly *)
Definition cheb2poly (cheb : list R) : list R := dot (length cheb) cheb (matrix (length cheb)).
(** HF 36-84: poly2cheb: what jnp.linalg.solve(C.T, poly) returns is a solution of the linear system *)
Definition poly2cheb_solution (poly cheb : list R) : Prop := length cheb = length poly /\ dot (length poly) cheb (matrix (length poly)) = poly.
(** HF 140-175: _rescale_poly with kind = "Polynomial" (HF 163-170); for the kind "Chebyshev" it is between cheb2poly and poly2cheb *)
Definition rescale (alpha : R) (p : list R) : list R := map (fun '(i, c) => c * alpha ^ i) (combine (seq 0 (length p)) p).
(** HF 229-238: the cut. The loop runs over the coefficients from the last one *)
Fixpoint cut (eps : R) (total : nat) (reversed : list R) (i : nat) (error_sum : R) : nat :=
  match reversed with
  | [] => total
  | c :: l => let e := error_sum + Rabs c in if Rlt_dec eps e then i else cut eps total l (i - 1) e
  end.
(** HF 229-238 *)
Definition trunc_idx (eps : R) (coeffs : list R) : nat := Nat.max 1 (cut eps (length coeffs) (rev coeffs) (length coeffs) 0).
(** HF 209-221: the loop that doubles the degree; [interpolate N] has the coefficients of the interpolation of degree N. Result: the coefficients and the value of N after the loop; None: no interpolation has been made (max_N < 16) *)
(** (HF 216, np.sum(np.abs(.))) *)
Definition sum_abs (l : list R) : R := fold_right (fun c s => Rabs c + s) 0 l.
Fixpoint search (interpolate : nat -> list R) (eps : R) (max_N fuel N : nat) (coeffs : option (list R)) : option (list R) * nat :=
  match fuel with
  | O => (coeffs, N)
  | S fuel => if (N <=? max_N)%nat then let c := interpolate N in if Rlt_dec (sum_abs (skipn (N * 4 / 5) c)) eps then (Some c, N) else search interpolate eps max_N fuel (2 * N) (Some c) else (coeffs, N)
  end.
(** HF 178-239: chebyshev_approx. The truncated series and whether there is a warning *)
Definition chebyshev_approx (interpolate : nat -> list R) (eps : R) (max_N : nat) : option (list R * bool) :=
  match search interpolate eps max_N (S max_N) 16 None with
  | (Some c, N) => Some (firstn (trunc_idx eps c) c, (max_N <? N)%nat)
  | (None, _) => None
  end.
(** * The unary state *)
(** CK 140-170: _unary_angles. [angles_from alpha]: phi[i], phi[i + 1], ... for alpha[i], alpha[i + 1], ...; the last one is the arctangent of the ratio of the last two *)
Fixpoint angles_from (a : R) (rest : list R) : list R :=
  match rest with
  | [] => []
  | b :: rest' => let l := angles_from b rest' in match l with [] => [atan (b / a)] | p :: _ => atan (b / a / cos p) :: l end
  end.
(** CK 162-170 *)
Definition unary_angles (coeffs : list R) : list R := match map sqrt coeffs with [] => [] | a :: l => map (fun p => 2 * p) (angles_from a l) end.
(** CK 173-199: unary_prep on the qubits 0, ..., n - 1 of case *)
Definition unary_prep (n : nat) (coeffs : list R) : list gate :=
  let phi := unary_angles coeffs in
  Not 0 :: U (ry (nth 0 phi 0)) 1 :: map (fun i => CRy [i] (nth i phi 0) (i + 1)) (seq 1 (n - 2)).
