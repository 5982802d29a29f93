(** C99: the QD+ American put. *)
From Coq Require Import Reals Lra.
From Coquelicot Require Import Coquelicot.
From Verif Require Import Base Gauss M_Opt Spec_Opt Spec_Expect P_Bsm M_Amer P_Amer P_Amer2 P_Amer3.
Open Scope R_scope.

(** *** C99 *)
(** whatever boundary the root finder returns, the price is the exercise value on the exercise side and is
    continuous across the boundary *)
Theorem C99_exercise_value : forall m bdd K S T, S <= bdd -> am_price m bdd K S T (-1) = K - S.
Proof. intros m bdd K S T H. unfold am_price. destruct (Rle_dec S bdd); [reflexivity|contradiction]. Qed.
Print Assumptions C99_exercise_value.
Theorem C99_value_matching : forall m K T bdd, 0 < K -> 0 < bdd -> continuous (fun x => am_price m bdd K x T (-1)) bdd.
Proof. exact am_price_cont. Qed.
Print Assumptions C99_value_matching.
(** smooth pasting: the price is differentiable across the boundary (with derivative -1) exactly when the boundary
    is a root of zero_func *)
Theorem C99_smooth_pasting : forall m K T bdd, is_fwd m = false -> 0 < K -> 0 < bdd ->
  (is_derive (fun x => am_price m bdd K x T (-1)) bdd (-1) <-> am_zero m K bdd T (-1) = 0).
Proof. exact smooth_spot. Qed.
Print Assumptions C99_smooth_pasting.
(** refuted for is_fwd = True: zero_func takes the delta without its discount factor, so the price has a kink at
    every root *)
Theorem C99_is_fwd_refuted : forall m K T bdd, is_fwd m = true -> 0 < K -> 0 < bdd -> 0 < intr m -> 0 < T ->
  am_zero m K bdd T (-1) = 0 -> ~ is_derive (fun x => am_price m bdd K x T (-1)) bdd (-1).
Proof. exact smooth_fwd. Qed.
Print Assumptions C99_is_fwd_refuted.
(** the long-maturity boundary s_inf of the initial guess lies in (0, K) and is the exercise boundary of the
    perpetual put: W solves the stationary Black-Scholes equation and meets K - S there with slope -1 *)
Theorem C99_perpetual : forall m K, 0 < K -> 0 < sigma m -> 0 < intr m ->
  0 < am_sinf m K < K /\
  exists W W1 W2 : R -> R,
  (forall S, 0 < S -> is_derive W S (W1 S) /\ is_derive W1 S (W2 S) /\
    / 2 * sigma m ^ 2 * S ^ 2 * W2 S + (intr m - divr m) * S * W1 S - intr m * W S = 0) /\
  W (am_sinf m K) = K - am_sinf m K /\ W1 (am_sinf m K) = -1 /\ (forall S, 0 < S -> 0 < W S).
Proof. exact (fun m K HK HS HR => conj (sinf_range m K HK HS HR) (am_perp m K HK HS HR)). Qed.
Print Assumptions C99_perpetual.
(** the initial guess starts at K min(1, r/q) and stays between that and s_inf while (r-q) sqrt T <= 2 sigma ... *)
Theorem C99_guess_start : forall m K, am_bdd_ig m K 0 = K * Rmin 1 (intr m / Rmax (divr m) eps).
Proof. exact guess_zero. Qed.
Print Assumptions C99_guess_start.
Theorem C99_guess_between : forall m K, 0 < K -> 0 < sigma m -> 0 < intr m -> forall T, 0 <= T ->
  (intr m - divr m) * sqrt T <= 2 * sigma m ->
  Rmin (am_sinf m K) (am_bdd_ig m K 0) <= am_bdd_ig m K T <= Rmax (am_sinf m K) (am_bdd_ig m K 0).
Proof. exact (fun m K HK HS HR T HT H => eq_ind_r (fun z => Rmin _ z <= _ <= Rmax _ z) (guess_w m K HK HS HR T HT H) (guess_zero m K)). Qed.
Print Assumptions C99_guess_between.
(** ... and exceeds the strike, which no put exercise boundary does, as soon as (r-q) sqrt T > 2 sigma *)
Theorem C99_guess_above_strike_refuted : forall m K, 0 < K -> 0 < sigma m -> 0 < intr m -> forall T, eps <= intr m -> divr m < intr m ->
  0 < T -> 2 * sigma m < (intr m - divr m) * sqrt T -> K < am_bdd_ig m K T.
Proof. exact guess_above. Qed.
Print Assumptions C99_guess_above_strike_refuted.
(** on the continuation side the price is Li's QD+ formula: European price plus the premium
    (K - B - p) / (1 - c0 L - b L^2) (S/B)^lambda, with lambda(h) the negative root of
    lambda^2 + (beta - 1) lambda - alpha/h = 0, h = 1 - exp(-rT), lambda' its derivative in h *)
Theorem C99_li_formula : forall m K T bdd (lam : R -> R),
  let al := 2 * intr m / sigma m ^ 2 in
  let be := 2 * (intr m - divr m) / sigma m ^ 2 in
  0 < sigma m -> 0 < intr m -> 0 < T ->
  (forall x, 0 < x -> lam x < 0 /\ lam x ^ 2 + (be - 1) * lam x - al / x = 0) ->
  forall S, bdd < S -> K - bdd - bsm_price m K bdd T (-1) <> 0 ->
  let h := 1 - DF (intr m) T in
  let p := bsm_price m K bdd T (-1) in
  let d := 2 * lam h + be - 1 in
  let c0 := - (1 - h) * al / d * (/ h - bsm_theta m K bdd T (-1) * exp (intr m * T) / (intr m * (K - bdd - p)) + Derive lam h / d) in
  let b := (1 - h) * al * Derive lam h / (2 * d) in
  let L := ln (S / bdd) in
  am_price m bdd K S T (-1) = bsm_price m K S T (-1) + (K - bdd - p) / (1 - c0 * L - b * L ^ 2) * exp (lam h * L).
Proof. exact li_price. Qed.
Print Assumptions C99_li_formula.
(** such a lambda exists for all parameters *)
Example C99_ex_lambda : exists lam : R -> R, forall x, 0 < x ->
  lam x < 0 /\ lam x ^ 2 + (2 * (/ 20 - 0) / (/ 10) ^ 2 - 1) * lam x - 2 * / 20 / (/ 10) ^ 2 / x = 0.
Proof. eexists. intros x Hx. apply (lam_meets (2 * (/ 20 - 0) / (/ 10) ^ 2 - 1) (2 * / 20 / (/ 10) ^ 2)); lra. Qed.
(** the early-exercise integrand is the discounted expectation of the carry r K - q S_t received while the
    Black-Scholes spot S_t, t = T - u, is at or below the boundary *)
Theorem C99_integrand : forall m B K S T u, is_fwd m = false -> 0 < S -> 0 < B -> eps <= sigma m * sqrt (T - u) ->
  let t := T - u in
  let X := fun z => S * exp ((intr m - divr m - sigma m ^ 2 / 2) * t + sigma m * sqrt t * z) in
  gauss_expect (fun z => DF (intr m) t * (if Rle_dec (X z) B then intr m * K - divr m * X z else 0)) (am_integrand m B K S T u).
Proof. exact integrand_expect. Qed.
Print Assumptions C99_integrand.
Example C99_ex_integrand : eps <= sigma (mkOpt (/ 5) (/ 20) (/ 50) false) * sqrt (2 - 1).
Proof. cbn [sigma]. replace (2 - 1) with 1 by lra. rewrite sqrt_1. unfold eps. lra. Qed.
(** sigma = 10%, r = 5%, q = 0, 25 years: the initial guess for a put struck at 100 is above 100; the spot
    model's price is smooth at 80 iff 80 solves zero_func *)
Example C99_ex : 100 < am_bdd_ig (mkOpt (/ 10) (/ 20) 0 false) 100 25 /\
  (is_derive (fun x => am_price (mkOpt (/ 10) (/ 20) 0 false) 80 100 x 25 (-1)) 80 (-1) <->
   am_zero (mkOpt (/ 10) (/ 20) 0 false) 100 80 25 (-1) = 0).
Proof.
  split.
  - apply C99_guess_above_strike_refuted; cbn [sigma intr divr]; try lra.
    + unfold eps. lra.
    + replace 25 with (5 * 5) by lra. rewrite sqrt_square by lra. lra.
  - apply C99_smooth_pasting; [reflexivity|lra|lra].
Qed.
