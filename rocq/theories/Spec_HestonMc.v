(** Specification vocabulary for the gamma expansion: cumulant generating functions of its building blocks, Poisson and
    gamma expectations, and the Bessel distribution. *)
From Coq Require Import Reals.
From Coquelicot Require Import Coquelicot.
From Verif Require Import Spec_Dist Spec_Cev Spec_CevMc.
Open Scope R_scope.

(** log E exp(u X) for X = Gamma(shape, 1) / rate, and for X = (sum of N unit exponentials) / rate with N Poisson(lam) *)
Definition gamma_cgf (shape rate u : R) : R := - shape * ln (1 - u / rate).
Definition cpexp_cgf (lam rate u : R) : R := lam * (1 / (1 - u / rate) - 1).
(** mean and variance of the law with cumulant generating function K *)
Definition cgf_mean (K : R -> R) : R := Derive K 0.
Definition cgf_var (K : R -> R) : R := Derive (Derive K) 0.

(** E g(N), N Poisson(l) *)
Definition pois_expect (l : R) (g : nat -> R) (v : R) : Prop := is_series (fun n => pois l n * g n) v.
(** E g(G), G Gamma(a, 1) *)
Definition gam_expect (Gam : R -> R) (a : R) (g : R -> R) (v : R) : Prop := pos_expect (gamma_pdf Gam a) g v.

(** modified Bessel function of the first kind, order nu > -1, z > 0 *)
Definition bessel_I_term (Gam : R -> R) (nu z : R) (n : nat) : R :=
  Rpower (z / 2) nu * (z / 2) ^ (2 * n) / (INR (fact n) * Gam (INR n + nu + 1)).
Definition bessel_I (Gam : R -> R) (nu z : R) : R := Series (bessel_I_term Gam nu z).
(** the Bessel distribution BES(nu, z) on 0, 1, 2, ... *)
Definition bessel_pmf (Gam : R -> R) (nu z : R) (n : nat) : R := bessel_I_term Gam nu z n / bessel_I Gam nu z.
