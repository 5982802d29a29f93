(** Specification vocabulary for portfolio allocation. *)
From Coq Require Import Reals List.
From Verif Require Import Sums.
Open Scope R_scope.

(** variance of the portfolio w and share of the variance contributed by asset i *)
Definition port_var (n : nat) (cov : nat -> nat -> R) (w : nat -> R) : R := rsum n (fun i => rsum n (fun j => w i * (cov i j * w j))).
Definition risk_share (n : nat) (cov : nat -> nat -> R) (w : nat -> R) (i : nat) : R :=
  rsum n (fun j => w i * (cov i j * w j)) / port_var n cov w.
(** positive definite correlation matrix *)
Definition correlation_matrix (n : nat) (c : nat -> nat -> R) : Prop :=
  (forall i j, (i < n)%nat -> (j < n)%nat -> c i j = c j i) /\ (forall i, (i < n)%nat -> c i i = 1) /\
  exists lam, 0 < lam /\ forall w, lam * rsum n (fun i => w i ^ 2) <= port_var n c w.
(** risk budgets: positive and summing to one; long/short flags *)
Definition budgets (n : nat) (b : nat -> R) : Prop := (forall i, (i < n)%nat -> 0 < b i) /\ rsum n b = 1.
Definition long_short (n : nat) (s : nat -> R) : Prop := forall i, (i < n)%nat -> s i = 1 \/ s i = -1.
(** the convex objective minimised by risk budgeting: half the variance minus budget-weighted log positions *)
Definition budget_objective (n : nat) (c : nat -> nat -> R) (b w : nat -> R) : R :=
  port_var n c w / 2 - rsum n (fun i => b i * ln (Rabs (w i))).
(** squared distance between two weight lists *)
Fixpoint sqdist (a b : list R) : R := match a, b with x :: p, y :: q => (x - y) ^ 2 + sqdist p q | _, _ => 0 end.
(** sum of absolute differences; the capped simplex {w : sum w = 1, 0 <= w <= u} *)
Definition l1dist (a b : list R) : R := lsum (map (fun p => Rabs (fst p - snd p)) (combine a b)).
Definition capped_simplex (n : nat) (u : R) (w : list R) : Prop :=
  length w = n /\ (forall x, In x w -> 0 <= x <= u) /\ lsum w = 1.
(** dispersion of the risk contributions w_i (cov w)_i around their mean *)
Definition dispersion (n : nat) (cov : nat -> nat -> R) (w : nat -> R) : R :=
  let rc := fun i => rsum n (fun j => w i * (cov i j * w j)) in
  rsum n (fun i => (rc i - rsum n rc / INR n) ^ 2).
(** w is in the box [0,u] and its total is within e of one *)
Definition near_simplex (n : nat) (u e : R) (w : nat -> R) : Prop :=
  (forall i, (i < n)%nat -> 0 <= w i <= u) /\ Rabs (rsum n w - 1) <= e.
(** vector with coordinate k replaced *)
Definition replace_at (w : nat -> R) (k : nat) (x : R) : nat -> R := fun j => if Nat.eqb j k then x else w j.
