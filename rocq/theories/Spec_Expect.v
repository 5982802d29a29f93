(** Specification vocabulary: expectation under a standard normal variable, written as the
    limit of integrals over growing symmetric intervals; moments of a random variable. *)
From Coq Require Import Reals.
From Coquelicot Require Import Coquelicot.
Open Scope R_scope.

(** The standard normal density, spelled out. *)
Definition gauss_density (z : R) : R := exp (- (z * z) / 2) / sqrt (2 * PI).
(** "E[f(Z)] exists and equals v", Z standard normal. *)
Definition gauss_expect (f : R -> R) (v : R) : Prop :=
  (forall b, ex_RInt (fun z => f z * gauss_density z) (- b) b) /\
  is_lim (fun b => RInt (fun z => f z * gauss_density z) (- b) b) p_infty v.

(** Variance, skewness and excess kurtosis from raw moments E[X], ..., E[X^4]. *)
Definition var_of_raw (m1 m2 : R) : R := m2 - m1 ^ 2.
Definition skew_of_raw (m1 m2 m3 : R) : R :=
  (m3 - 3 * m1 * m2 + 2 * m1 ^ 3) / (sqrt (var_of_raw m1 m2)) ^ 3.
Definition exkurt_of_raw (m1 m2 m3 m4 : R) : R :=
  (m4 - 4 * m1 * m3 + 6 * m1 ^ 2 * m2 - 3 * m1 ^ 4) / (var_of_raw m1 m2) ^ 2 - 3.

(** Expectation over [n] independent standard normals z 0, ..., z (n-1), integrated one after the other;
    the integrand may not depend on anything else. *)
Definition upd (z : nat -> R) (n : nat) (y : R) : nat -> R := fun i => if Nat.eqb i n then y else z i.
Fixpoint normals_expect (n : nat) (F : (nat -> R) -> R) (v : R) : Prop :=
  match n with
  | O => forall z, F z = v
  | S m => exists h : (nat -> R) -> R, (forall z, gauss_expect (fun y => F (upd z m y)) (h z)) /\ normals_expect m h v
  end.
