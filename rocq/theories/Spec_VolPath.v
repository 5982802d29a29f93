(** Vocabulary for volatility paths on a time grid. *)
From Coq Require Import Reals List.
From Verif Require Import Sums.
Import ListNotations.
Open Scope R_scope.
(** observation times do not decrease, starting at t0 *)
Fixpoint grid_from (t0 : R) (ts : list R) : Prop := match ts with [] => True | t :: r => t0 <= t /\ grid_from t r end.
(** values at the observation times of the process advanced by [step] (time step, current value, normal), started at v at time t *)
Fixpoint iterate (step : R -> R -> R -> R) (t v : R) (ts zs : list R) : list R :=
  match ts, zs with t' :: r, z :: q => let v' := step (t' - t) v z in v' :: iterate step t' v' r q | _, _ => [] end.
(** [X i zs], an affine function of n independent standard normals, has means m i and covariances c i j (i, j < n) *)
Definition gauss_family (n : nat) (X : nat -> list R -> R) (m : nat -> R) (c : nat -> nat -> R) : Prop :=
  exists A : nat -> nat -> R,
    (forall i zs, (i < n)%nat -> length zs = n -> X i zs = m i + rsum n (fun k => A i k * nth k zs 0)) /\
    (forall i j, (i < n)%nat -> (j < n)%nat -> rsum n (fun k => A i k * A j k) = c i j).
(** joint density of independent standard normals, up to the constant (2 pi)^(-n/2) *)
Definition gauss_weight (zs : list R) : R := exp (- / 2 * lsum (map (fun z => z ^ 2) zs)).
