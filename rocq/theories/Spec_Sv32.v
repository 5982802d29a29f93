(** Specification vocabulary: the 3/2 model  dV = k V (th - V) dt + xi V^(3/2) dZ,  dI = V dt,  through its generator. *)
From Coq Require Import Reals.
From Coquelicot Require Import Coquelicot.
Open Scope R_scope.

(** generator of V on a function with first and second derivative f1, f2 at v; generator of the square-root process *)
Definition gen32 (k th xi v f1 f2 : R) : R := k * v * (th - v) * f1 + xi ^ 2 / 2 * v ^ 3 * f2.
Definition gen_sqrt (k th xi x f1 f2 : R) : R := k * (th - x) * f1 + xi ^ 2 / 2 * x * f2.
(** [f t v i] along the path (t, V, I) has no drift *)
Definition martingale32 (k th xi : R) (f : R -> R -> R -> R) : Prop :=
  exists ft fv fvv fi : R -> R -> R -> R, forall t v i : R, 0 < v ->
    is_derive (fun y => f y v i) t (ft t v i) /\
    is_derive (fun y => f t y i) v (fv t v i) /\
    is_derive (fun y => fv t y i) v (fvv t v i) /\
    is_derive (fun y => f t v y) i (fi t v i) /\
    ft t v i + gen32 k th xi v (fv t v i) (fvv t v i) + v * fi t v i = 0.
(** and loads on dZ with exactly rho sqrt(V): xi v^(3/2) f_v = rho sqrt(v) f *)
Definition loading32 (xi rho : R) (f : R -> R -> R -> R) : Prop :=
  forall t v i : R, 0 < v -> exists d, is_derive (fun y => f t y i) v d /\ xi * (v * sqrt v) * d = rho * sqrt v * f t v i.

(** psi is the digamma function of Gam and psi1 its trigamma function *)
Definition digamma_of (Gam psi : R -> R) : Prop := forall x, 0 < x -> is_derive (fun y => ln (Gam y)) x (psi x).
Definition trigamma_of (psi psi1 : R -> R) : Prop := forall x, 0 < x -> is_derive psi x (psi1 x).
(** L is a Laplace transform b -> E exp(- b X) near 0 with E X = m, Var X = v, through ln L *)
Definition laplace_mean_var (L : R -> R) (m v : R) : Prop :=
  L 0 = 1 /\ exists K1 : R -> R, locally 0 (fun b => 0 < L b /\ is_derive (fun y => ln (L y)) b (K1 b)) /\ K1 0 = - m /\ is_derive K1 0 v.
(** the published conditional transform E(exp(- b A) | V_0, V_dt), A the time average of V over the step: with
    n = 2 k/xi^2 + 1, n_b = sqrt(n^2 + 8 b/(xi^2 dt)) and z = 2 k th / (xi^2 sinh(k th dt/2) sqrt(V_0 V_dt)) it is
    I(n_b, z) / I(n, z); given the Bessel(n, z) index eta it is Gam(eta+n+1)/Gam(eta+n_b+1) (z/2)^(n_b - n) *)
Definition order32 (k xi : R) : R := 2 * k / xi ^ 2 + 1.
Definition order32_b (k xi dt b : R) : R := sqrt (order32 k xi ^ 2 + 8 * b / (xi ^ 2 * dt)).
Definition arg32 (k th xi dt v0 vt : R) : R := 2 * (k * th) / (xi ^ 2 * sinh (k * th * dt / 2) * sqrt (v0 * vt)).
Definition transform32 (I : R -> R -> R) (k th xi dt v0 vt b : R) : R :=
  I (order32_b k xi dt b) (arg32 k th xi dt v0 vt) / I (order32 k xi) (arg32 k th xi dt v0 vt).
Definition transform32_eta (Gam : R -> R) (k th xi dt v0 vt eta b : R) : R :=
  Gam (eta + order32 k xi + 1) / Gam (eta + order32_b k xi dt b + 1) *
  Rpower (arg32 k th xi dt v0 vt / 2) (order32_b k xi dt b - order32 k xi).
(** backward equation of E(S_T^u) / S^u in the 3/2 model with correlation rho, time to expiry t and variance v *)
Definition pricing_eq32 (k th xi rho u : R) (f : R -> R -> R) : Prop :=
  exists ft fv fvv : R -> R -> R, forall t v : R, 0 < t -> 0 < v ->
    is_derive (fun y => f y v) t (ft t v) /\ is_derive (fun y => f t y) v (fv t v) /\ is_derive (fun y => fv t y) v (fvv t v) /\
    ft t v = gen32 k th xi v (fv t v) (fvv t v) + u * rho * xi * v ^ 2 * fv t v + / 2 * u * (u - 1) * v * f t v.
(** and its value at expiry *)
Definition expiry_one (f : R -> R -> R) : Prop := forall v, 0 < v -> filterlim (fun t => f t v) (at_right 0) (locally 1).
