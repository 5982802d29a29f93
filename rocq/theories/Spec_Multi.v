(** Specification vocabulary for several correlated assets. *)
From Coq Require Import Reals.
From Coquelicot Require Import Coquelicot.
From Verif Require Import Sums Spec_Expect.
Open Scope R_scope.

(** Two lognormal assets with forwards f1, f2, volatilities s1, s2 and correlation rho at time t, driven by two
    independent standard normals z 0, z 1. *)
Definition asset1 (f1 s1 t : R) (z : nat -> R) : R := f1 * exp (s1 * sqrt t * z 0%nat - s1 ^ 2 * t / 2).
Definition asset2 (f2 s2 rho t : R) (z : nat -> R) : R :=
  f2 * exp (s2 * sqrt t * (rho * z 0%nat + sqrt (1 - rho ^ 2) * z 1%nat) - s2 ^ 2 * t / 2).

(** [l] is a factor of the covariance matrix [cov] (e.g. its Cholesky factor): l l^T = cov. *)
Definition factor_of (n : nat) (l cov : nat -> nat -> R) : Prop :=
  forall i j, (i < n)%nat -> (j < n)%nat -> rsum n (fun k => l i k * l j k) = cov i j.
(** Correlated Brownian motions at time t *)
Definition corr_bm (n : nat) (l : nat -> nat -> R) (t : R) (z : nat -> R) (i : nat) : R := sqrt t * rsum n (fun j => l i j * z j).
(** Basket of lognormal assets (forwards f, covariance cov, weights w) and of Bachelier assets *)
Definition ln_basket (n : nat) (f w : nat -> R) (l cov : nat -> nat -> R) (t : R) (z : nat -> R) : R :=
  rsum n (fun i => w i * (f i * exp (corr_bm n l t z i - cov i i * t / 2))).
Definition n_basket (n : nat) (f w : nat -> R) (l : nat -> nat -> R) (t : R) (z : nat -> R) : R :=
  rsum n (fun i => w i * (f i + corr_bm n l t z i)).
(** indicator of a decidable event on reals: 1 when x <= y, else 0 *)
Definition when_le (x y : R) : R := if Rle_dec x y then 1 else 0.
(** Basket of lognormal assets all driven by one normal z, with total standard deviations s *)
Definition one_factor_basket (n : nat) (f w s : nat -> R) (z : R) : R := rsum n (fun i => w i * (f i * exp (s i * z - s i ^ 2 / 2))).
(** [bvn x y r]: bivariate normal distribution function, the joint law of any two unit linear forms (correlation
    r = their inner product) of two independent standard normals. *)
Definition bivariate_cdf (bvn : R -> R -> R -> R) : Prop := forall a b x y, rsum 2 (fun i => a i * a i) = 1 -> rsum 2 (fun i => b i * b i) = 1 ->
  normals_expect 2 (fun z => when_le (rsum 2 (fun i => a i * z i)) x * when_le (rsum 2 (fun i => b i * z i)) y) (bvn x y (rsum 2 (fun i => a i * b i))).
