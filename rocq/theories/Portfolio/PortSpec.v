(** Portfolios: what is held, the documented objective (/repo/documentation/source/general/tutorial/QAOAtutorial/PortfolioRebalancing.ipynb). *)
From Coq Require Import List Arith Bool ZArith Reals.
Import ListNotations.
From Verif.Inverse Require Import InvSpec.
From Verif.StatePrep Require Import PrepModel PrepSpec.
From Verif.Mixers Require Import MixModel MixSpec.
From Verif.Portfolio Require Import PortModel.
Local Open Scope R_scope.
(** short and long positions *)
Definition short (x : list bool) (i : nat) : Z := if getbit x i then 1 else 0.
Definition long (n : nat) (x : list bool) (i : nat) : Z := if getbit x (n + i) then 1 else 0.
(** z_i: long (1), short (-1) or no hold (0) *)
Definition position (n : nat) (x : list bool) (i : nat) : Z := (long n x i - short x i)%Z.
Fixpoint sum (f : nat -> R) (n : nat) : R := match n with O => 0 | S n => sum f n + f n end.
(** the risk-return function lambda sum_ij sigma_ij z_i z_j - (1 - lambda) sum_i mu_i z_i, and the trading costs *)
Definition risk (pb : problem) (n : nat) (z : nat -> Z) : R :=
  risk_return pb * sum (fun i => sum (fun j => covar pb i j * IZR (z i) * IZR (z j)) n) n - (1 - risk_return pb) * sum (fun i => asset_return pb i * IZR (z i)) n.
Definition trades (pb : problem) (n : nat) (z y : nat -> Z) : R := sum (fun i => if Z.eq_dec (z i) (y i) then 0 else trading pb) n.
Definition objective (pb : problem) (n : nat) (z : nat -> Z) : R := risk pb n z + trades pb n z (old_pos pb).
(** the lots of a portfolio: long minus short positions; the band: the number of short positions *)
Definition band (n : nat) (x : list bool) : nat := weight (register n 0 x).
Definition has_lots (n lots : nat) (x : list bool) : Prop := weight (register n 1 x) = (lots + band n x)%nat.
(** the mean of a value over measurement results *)
Definition rtotal (f : list bool -> R) (res : list (list bool * R)) : R := fold_right (fun '(x, v) t => f x * v + t) 0 res.
Definition mean (f : list bool -> R) (res : list (list bool * R)) : R := rtotal f res / rtotal (fun _ => 1) res.
(** the portfolio with long positions in the last [lots] assets and nothing else *)
Definition first_portfolio (n lots : nat) : list bool := map (fun p => (2 * n - lots <=? p)%nat) (seq 0 (2 * n)).
