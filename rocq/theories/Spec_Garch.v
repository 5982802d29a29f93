(** Specification vocabulary: the GARCH diffusion
      dV = k (th - V) dt + xi V dZ,   dJ = V dt,   dU = sqrt(V) dt,   dW = dt / sqrt(V)
    through its generator. *)
From Coq Require Import Reals List.
From Coquelicot Require Import Coquelicot.
From Verif Require Import Sums.
Open Scope R_scope.

(** [f t v j = E(g(V_t, J_t) | V_0 = v, J_0 = j)]: Kolmogorov backward equation *)
Definition garch_expectation (k th xi : R) (g : R -> R -> R) (f : R -> R -> R -> R) : Prop :=
  (forall v j, f 0 v j = g v j) /\
  exists ft fv fvv fj : R -> R -> R -> R, forall t v j : R, 0 <= t ->
    is_derive (fun y => f y v j) t (ft t v j) /\
    is_derive (fun y => f t y j) v (fv t v j) /\
    is_derive (fun y => fv t y j) v (fvv t v j) /\
    is_derive (fun y => f t v y) j (fj t v j) /\
    ft t v j = k * (th - v) * fv t v j + xi ^ 2 / 2 * v ^ 2 * fvv t v j + v * fj t v j.

(** [f v j u w] seen along the path (V, J, U, W) has no drift: the generator annihilates it where V > 0 *)
Definition garch_martingale (k th xi : R) (f : R -> R -> R -> R -> R) : Prop :=
  exists fv fvv fj fu fw : R -> R -> R -> R -> R, forall v j u w : R, 0 < v ->
    is_derive (fun y => f y j u w) v (fv v j u w) /\
    is_derive (fun y => fv y j u w) v (fvv v j u w) /\
    is_derive (fun y => f v y u w) j (fj v j u w) /\
    is_derive (fun y => f v j y w) u (fu v j u w) /\
    is_derive (fun y => f v j u y) w (fw v j u w) /\
    k * (th - v) * fv v j u w + xi ^ 2 / 2 * v ^ 2 * fvv v j u w
      + v * fj v j u w + sqrt v * fu v j u w + / sqrt v * fw v j u w = 0.

(** the volatility part of the log price has quadratic covariation rho int sqrt(V) dZ; the drift-free function must also
    load on dZ with exactly rho sqrt(V): xi v f_v = rho sqrt(v) f *)
Definition garch_loading (xi rho : R) (f : R -> R -> R -> R -> R) : Prop :=
  forall v j u w : R, 0 < v -> exists d, is_derive (fun y => f y j u w) v d /\ xi * v * d = rho * sqrt v * f v j u w.

(** trapezoidal rule for the integral of g(V) along a path sampled as v0, vs with time steps dts *)
Definition trap (g : R -> R) (dts vs : list R) (v0 : R) : R :=
  lsum (map (fun '(d, (a, b)) => (g a + g b) / 2 * d) (combine dts (combine (v0 :: vs) vs))).
