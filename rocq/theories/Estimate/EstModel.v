(** Model of iterative amplitude estimation (/repo/src/qrisp/alg_primitives/iterative_qae.py, IQ). Real arithmetic: rounding and the limits of integers are not modelled. A measurement is a function of the
    number of the call and of the number of amplification steps; nothing is assumed about it here. *)
From Coq Require Import Reals List Arith ZArith.
Import ListNotations.
Local Open Scope R_scope.
(** IQ 124-127 *)
Definition E : R := 1 / 2 * (sin (PI * 3 / 14)) ^ 2 - 1 / 2 * (sin (PI * 1 / 6)) ^ 2.
Definition F : R := 1 / 2 * asin (sqrt (2 * E)).
Definition C : R := 4 / (6 * F + PI).
(** IQ 136, 137: L_arr and m_arr *)
Definition L_arr : list nat := [3; 3; 3; 5; 5; 5; 5; 5; 7; 7; 7; 7; 7; 7; 7]%nat.
Definition m_arr : list nat := [0; 1; 2; 0; 1; 2; 3; 4; 0; 1; 2; 3; 4; 5; 6]%nat.
(** IQ 225-255: compute_thetas *)
Definition angle (m K : nat) (b : R) : R := (INR (m + m mod 2) * PI / 2 + (-1) ^ (m mod 2) * asin (sqrt b)) / INR K.
Definition compute_thetas (m K : nat) (A : R) : R * R := (angle m K (Rmax (A - E) 0), angle m K (Rmin (A + E) 1)).
(** IQ 258-292: compute_Li; argmax of truth values is the first index with True, or 0 if there is none *)
Definition fits (m K : nat) (theta_b theta_sh : R) (c : nat * nat) : bool :=
  let '(L, j) := c in let first := INR L * INR K * theta_b in let second := INR L * INR K * theta_sh in let lower := INR (L * m + j) * PI / 2 in let upper := lower + PI / 2 in
  (if Rle_dec lower first then true else false) && (if Rle_dec first upper then true else false) && (if Rle_dec lower second then true else false) && (if Rle_dec second upper then true else false).
Definition compute_Li (m K : nat) (theta_b theta_sh : R) : nat * nat :=
  let arr := combine L_arr m_arr in let '(L, j) := match find (fits m K theta_b theta_sh) arr with Some c => c | None => hd (0, 0)%nat arr end in (L, L * m + j)%nat.
(** the state of the loop, IQ 128-134, and the calls of quantum_step: the numbers of amplification steps and of shots *)
Record state := { brk : R; m_i : nat; K_i : nat; theta_b : R; theta_sh : R; calls : list (nat * Z) }.
Definition start (eps : R) : state := {| brk := 2 * eps + 1; m_i := 0; K_i := 1; theta_b := 0; theta_sh := 0; calls := [] |}.
(** IQ 146, 147; the least integer that is not smaller *)
Definition ceil (x : R) : Z := (- Int_part (- x))%Z.
Definition shots (alpha eps : R) (K : nat) : Z := let alp := C * alpha * eps * INR K in ceil (1 / (2 * E ^ 2) * ln (2 / alp)).
(** IQ 143-169: one pass; [measure i k]: the share of ones in call number i, with k amplification steps *)
Definition body_fun (measure : nat -> nat -> R) (alpha eps : R) (s : state) : state :=
  let k := ((K_i s - 1) / 2)%nat in let A := measure (length (calls s)) k in
  let '(tb, tsh) := compute_thetas (m_i s) (K_i s) A in
  let '(L, m) := compute_Li (m_i s) (K_i s) tb tsh in
  {| brk := Rabs (tb - tsh); m_i := m; K_i := (L * K_i s)%nat; theta_b := tb; theta_sh := tsh; calls := calls s ++ [(k, shots alpha eps (K_i s))] |}.
(** IQ 139-141, 174-179: the loop, with fuel *)
Fixpoint loop (measure : nat -> nat -> R) (alpha eps : R) (fuel : nat) (s : state) : option state :=
  if Rlt_dec (2 * eps) (brk s) then match fuel with O => None | S fuel => loop measure alpha eps fuel (body_fun measure alpha eps s) end else Some s.
(** IQ 25-181: the result and the calls *)
Definition iqae (measure : nat -> nat -> R) (alpha eps : R) (fuel : nat) : option (R * list (nat * Z)) :=
  match loop measure alpha eps fuel (start eps) with Some s => Some ((sin ((theta_b s + theta_sh s) / 2)) ^ 2, calls s) | None => None end.
