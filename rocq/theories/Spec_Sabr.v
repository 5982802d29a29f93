(** Specification vocabulary for the SABR volatility: a driftless geometric Brownian motion, V its square
      dV = a^2 V dt + 2 a V dZ,   dJ = V dt     (sigma = exp(a Z_t - a^2 t/2), V = sigma^2, J = integrated variance).
    [f t v j = E(g(V_t, J_t) | V_0 = v, J_0 = j)], by the Kolmogorov backward equation. *)
From Coq Require Import Reals.
From Coquelicot Require Import Coquelicot.
Open Scope R_scope.

Definition gbm_expectation (a : R) (g : R -> R -> R) (f : R -> R -> R -> R) : Prop :=
  (forall v j, f 0 v j = g v j) /\
  exists ft fv fvv fj : R -> R -> R -> R, forall t v j : R, 0 <= t ->
    is_derive (fun y => f y v j) t (ft t v j) /\
    is_derive (fun y => f t y j) v (fv t v j) /\
    is_derive (fun y => fv t y j) v (fvv t v j) /\
    is_derive (fun y => f t v y) j (fj t v j) /\
    ft t v j = a ^ 2 * v * fv t v j + (2 * a * v) ^ 2 / 2 * fvv t v j + v * fj t v j.

(** [G n t x] is the density at x of X_t = log(sigma_t/sigma_0), weighted by E[J_t^n | X_t = x], for n = 0..N:
    dX = - a^2/2 dt + a dZ, dJ = exp(2 X) dt.  Fokker-Planck:
      d_t G_n = a^2/2 d_xx G_n + a^2/2 d_x G_n + n exp(2 x) G_(n-1);
    G_0 is the normal density, and the higher ones start from 0. *)
Definition weighted_densities (a : R) (N : nat) (G : nat -> R -> R -> R) : Prop :=
  (forall t x, 0 < t -> G 0%nat t x = exp (- (x + a ^ 2 * t / 2) ^ 2 / (2 * (a ^ 2 * t))) / sqrt (2 * PI * (a ^ 2 * t))) /\
  (forall n x, (0 < n <= N)%nat -> filterlim (fun t => G n t x) (at_right 0) (locally 0)) /\
  exists Gt Gx Gxx : nat -> R -> R -> R, forall n t x, (0 < n <= N)%nat -> 0 < t ->
    is_derive (fun y => G n y x) t (Gt n t x) /\
    is_derive (fun y => G n t y) x (Gx n t x) /\
    is_derive (fun y => Gx n t y) x (Gxx n t x) /\
    Gt n t x = a ^ 2 / 2 * Gxx n t x + a ^ 2 / 2 * Gx n t x + INR n * exp (2 * x) * G (n - 1)%nat t x.

(** Hagan et al. (2002), eq. (2.17): the lognormal volatility, with [w] standing for z/x(z). *)
Definition hagan_lognormal (alpha beta rho nu F K T w : R) : R :=
  alpha / (Rpower (F * K) ((1 - beta) / 2) * (1 + (1 - beta) ^ 2 / 24 * ln (F / K) ^ 2 + (1 - beta) ^ 4 / 1920 * ln (F / K) ^ 4))
  * w
  * (1 + ((1 - beta) ^ 2 / 24 * (alpha ^ 2 / Rpower (F * K) (1 - beta))
          + / 4 * (rho * beta * nu * alpha / Rpower (F * K) ((1 - beta) / 2))
          + (2 - 3 * rho ^ 2) / 24 * nu ^ 2) * T).
Definition hagan_z (alpha beta nu F K : R) : R := nu / alpha * Rpower (F * K) ((1 - beta) / 2) * ln (F / K).
(** x(z) = ln((sqrt(1 - 2 rho z + z^2) + z - rho)/(1 - rho)), as the integral it comes from *)
Definition hagan_x (rho z x : R) : Prop := is_RInt (fun u => / sqrt (1 - 2 * rho * u + u ^ 2)) 0 z x.

(** [f sigma j] is constant on average along d sigma = a sigma dZ, dJ = sigma^2 dt (Ito: zero drift). *)
Definition drift_free (a : R) (f : R -> R -> R) : Prop :=
  exists fs fss fj : R -> R -> R, forall s j : R,
    is_derive (fun y => f y j) s (fs s j) /\ is_derive (fun y => fs y j) s (fss s j) /\ is_derive (fun y => f s y) j (fj s j) /\
    (a * s) ^ 2 / 2 * fss s j + s ^ 2 * fj s j = 0.

(** Terminal price of the hyperbolic-normal model with lambda = 1 (Johnson S_U), z standard normal, v = nu sqrt(T). *)
Definition nsvh1_terminal (F sig nu rho v z : R) : R :=
  F + sig / nu * ((1 + rho) / 2 * exp (v * z) - (1 - rho) / 2 * exp (- (v * z)) - rho * exp (v ^ 2 / 2)).
