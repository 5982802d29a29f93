(** Specification vocabulary for SVI: Gatheral and Jacquier (2011), eq. (2.1)-(2.2): large-maturity Heston smile.
    kappa, theta, xi (vol of vol), rho are the Heston parameters; x is log-moneyness per unit time. *)
From Coq Require Import Reals.
Open Scope R_scope.
Definition convex_fun (f : R -> R) : Prop := forall x y t, 0 <= t <= 1 -> f (t * x + (1 - t) * y) <= t * f x + (1 - t) * f y.
Definition gj_w1 (kappa theta xi rho : R) : R :=
  4 * kappa * theta / (xi ^ 2 * (1 - rho ^ 2)) * (sqrt ((2 * kappa - rho * xi) ^ 2 + xi ^ 2 * (1 - rho ^ 2)) - (2 * kappa - rho * xi)).
Definition gj_smile (w1 w2 rho x : R) : R := w1 / 2 * (1 + w2 * rho * x + sqrt ((w2 * x + rho) ^ 2 + (1 - rho ^ 2))).
(** limiting cumulant generating function of log(S_T/F)/T under Heston, and under constant variance w; their Legendre transforms
    at x are suprema over u of u x - V(u) *)
Definition heston_cgf (kappa theta xi rho u : R) : R :=
  kappa * theta / xi ^ 2 * (kappa - rho * xi * u - sqrt ((kappa - rho * xi * u) ^ 2 + xi ^ 2 * (u - u ^ 2))).
Definition heston_dom (kappa xi rho u : R) : Prop := 0 <= (kappa - rho * xi * u) ^ 2 + xi ^ 2 * (u - u ^ 2).
Definition bs_cgf (w u : R) : R := w / 2 * (u ^ 2 - u).
Definition is_max_on (D : R -> Prop) (f : R -> R) (m : R) : Prop := (exists u, D u /\ f u = m) /\ forall u, D u -> f u <= m.
