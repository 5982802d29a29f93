(** Specification vocabulary for moments from transforms. *)
From Coq Require Import Reals List.
From Coquelicot Require Import Coquelicot.
From Verif Require Import Sums.
Open Scope R_scope.

(** M is, on the circle of radius rho, the sum of a power series with real coefficients a_0, a_1, ...
    that converges absolutely there: M(rho e^{it}) = sum_j a_j rho^j e^{ijt} *)
Definition real_series_on (a : nat -> R) (rho : R) (M : R * R -> R * R) : Prop :=
  ex_series (fun j => Rabs (a j * rho ^ j)) /\
  forall t, M (rho * cos t, rho * sin t) = (Series (fun j => a j * rho ^ j * cos (INR j * t)), Series (fun j => a j * rho ^ j * sin (INR j * t))).
(** probabilists' Hermite polynomials *)
Fixpoint hermite (n : nat) (z : R) : R :=
  match n with O => 1 | S O => z | S (S m as k) => z * hermite k z - INR k * hermite m z end.
