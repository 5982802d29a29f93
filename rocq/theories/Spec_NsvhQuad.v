(** Specification vocabulary: expectations over normals in polar coordinates, the hyperbolic half-space, and the forward
    equation of the hyperbolic normal stochastic-volatility model. *)
From Coq Require Import Reals List.
From Coquelicot Require Import Coquelicot.
From Verif Require Import Sums Spec_Expect Spec_Dist M_Fd M_NsvhQuad.
Import ListNotations.
Open Scope R_scope.

(** mean of f over a uniform angle *)
Definition circle_mean (f : R -> R) (v : R) : Prop := is_RInt f 0 (2 * PI) (2 * PI * v).
(** E f(X, Y), X and Y independent standard normals: uniform angle and squared radius with density exp(-r/2)/2 *)
Definition plane_expect (f : R -> R -> R) (v : R) : Prop :=
  exists A, (forall r, 0 < r -> circle_mean (fun t => f (sqrt r * cos t) (sqrt r * sin t)) (A r)) /\
            pos_expect (fun r => / 2 * exp (- r / 2)) A v.
(** E f(Z), Z standard normal (both tails independent) *)
Definition line_expect (f : R -> R) (v : R) : Prop :=
  is_RInt_gen (V := R_NormedModule) (fun z => f z * gauss_density z) (Rbar_locally m_infty) (Rbar_locally p_infty) v.
(** E f(X, Y, Z) *)
Definition space_expect (f : R -> R -> R -> R) (v : R) : Prop :=
  exists A, (forall z, plane_expect (fun x y => f x y z) (A z)) /\ line_expect A v.
(** a measure change: the integrand of E A(Z) seen from a normal shifted by h *)
Definition shifted (h : R) (A : R -> R) (z : R) : R := A (z + h) * exp (- h * z - h ^ 2 / 2).
(** a rule (x, w) for the weight sqrt(x) exp(-x) on (0, infinity) that is exact for f *)
Definition laguerre_exact (xw : list (R * R)) (f : R -> R) : Prop :=
  half_line (fun x => sqrt x * exp (- x) * f x) (rule_sum f xw).
(** second derivative of f at x *)
Definition deriv2 (f : R -> R) (x l : R) : Prop := exists f', locally x (fun y => is_derive f y (f' y)) /\ is_derive f' x l.
(** hyperbolic distance from (0, 0, 1) to (x, y, z) in the upper half-space, and the transition density of
    dX = Z dB1, dY = Z dB2, dZ = (lam/2) Z dt + Z dB3 started there *)
Definition hyp_cosh (x y z : R) : R := (1 + x ^ 2 + y ^ 2 + z ^ 2) / (2 * z).
Definition hyp_dist (x y z : R) : R := let c := hyp_cosh x y z in ln (c + sqrt (c ^ 2 - 1)).
Definition hyp_density (lam t x y z : R) : R :=
  let d := hyp_dist x y z in
  / (2 * PI * t * sqrt (2 * PI * t)) * (d / sinh d) * exp (- d ^ 2 / (2 * t) - (lam - 1) ^ 2 * t / 8) * Rpower z ((lam - 1) / 2 - 2).
(** the integrand (per weight sqrt(x) exp(-x)) of the radial integral at third normal z + vov sqrt(T)/2, strike offset K *)
Definition nq_target (p : sabrp) (lam T K z : R) (x : R) : R :=
  let s := nmc_std p T in let u := nq_u lam s z in let k := b_vov p / b_sigma p * K in
  nq_zv (nq_g (b_rho p) lam s k u) (nq_h (b_rho p) s u (nq_v0 (b_rho p) lam s k u) (2 * x)) / (PI * sqrt x).
(** squared length; mean of a list; the sampled price increments: both components of each row of normals and of its negative *)
Definition sqn (ab : R * R) : R := fst ab ^ 2 + snd ab ^ 2.
Definition nmc_sample (p : sabrp) (lam T : R) (z : list (R * R * R)) : list R :=
  flat_map (fun '(a, b, c) => [fst (nmc_prices p lam T a b c); snd (nmc_prices p lam T a b c)]) (flat_map (fun '(a, b, c) => [(a, b, c); (- a, - b, - c)]) z).
Definition mean (l : list R) : R := fold_right Rplus 0 l / INR (length l).
