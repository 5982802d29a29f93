(** Specification vocabulary for the rough Heston transform: Riemann-Liouville fractional integrals, interpolants on a uniform
    grid, the fractional Adams recursion, and the power-series form of the fractional Riccati equation. *)
From Coq Require Import Reals.
From Coquelicot Require Import Coquelicot.
From Verif Require Import Sums.
Open Scope R_scope.

(** v = (I^r f)(t) = 1/Gamma(r) int_0^t (t-s)^(r-1) f(s) ds (improper at s = t) *)
Definition frac_integral (Gam : R -> R) (r t : R) (f : R -> R) (v : R) : Prop :=
  is_RInt_gen (V := R_NormedModule) (fun s => Rpower (t - s) (r - 1) * f s) (at_point 0) (at_left t) (Gam r * v).
(** f is the step function / the piecewise linear function with values g m at the nodes m delta *)
Definition steps_of (delta : R) (g : nat -> R) (f : R -> R) : Prop :=
  forall m s, INR m * delta < s < INR (S m) * delta -> f s = g m.
Definition lines_of (delta : R) (g : nat -> R) (f : R -> R) : Prop :=
  forall m s, INR m * delta < s < INR (S m) * delta -> f s = g m + (s - INR m * delta) / delta * (g (S m) - g m).
(** The fractional Adams predictor-corrector for h = I^r (F o h), fed with the node values g instead of F o h:
    predictor P = I^r of the steps through g; next value = I^r of the lines through g 0 .. g k and F P *)
Definition adams_recursion (Gam : R -> R) (r delta : R) (F : R -> R) (g h : nat -> R) : Prop :=
  h O = 0 /\
  forall k, exists P,
    (forall f, steps_of delta g f -> frac_integral Gam r (INR (S k) * delta) f P) /\
    (forall f, lines_of delta (fun j => if Nat.leb j k then g j else F P) f -> frac_integral Gam r (INR (S k) * delta) f (h (S k))).
(** the Adams method itself: the node values are F (h j) *)
Definition adams_method (Gam : R -> R) (r delta : R) (F : R -> R) (h : nat -> R) : Prop :=
  adams_recursion Gam r delta F (fun j => F (h j)) h.

(** coefficients of the Cauchy square of sum a_i x^i *)
Definition square_coef (a : nat -> R) (m : nat) : R := rsum (S m) (fun l => a l * a (m - l)%nat).
(** Power rule I^r t^p = Gamma(p+1)/Gamma(p+r+1) t^(p+r) *)
Definition power_rule (Gam : R -> R) (r p : R) : R := Gam (p + 1) / Gam (p + r + 1).
(** phi = sum a_i t^(alpha i) solves phi = I^alpha (lambda phi^2 + mu phi + nu) coefficient by coefficient *)
Definition riccati_series (Gam : R -> R) (al lambd mu nu : R) (a : nat -> R) : Prop :=
  a O = 0 /\
  forall m, a (S m) = power_rule Gam al (al * INR m) * (lambd * square_coef a m + mu * a m + (if Nat.eqb m 0 then nu else 0)).
(** left rectangle sum of f over n cells of width delta *)
Definition rect_sum (n : nat) (delta : R) (f : nat -> R) : R := rsum n (fun m => delta * f m).
