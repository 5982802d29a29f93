(** Property theorems for the closed-form option models (bsm.py, norm.py, opt_abc.py).
    Vocabulary: Spec_Opt.v (DF, FWD, payoff, call_or_put) and Spec_Expect.v (expectations).
    The model functions are in M_Opt.v and M_Numeric.v. *)
From Coq Require Import Reals Lra List.
From Coquelicot Require Import Coquelicot.
From Verif Require Import Base Spec_Opt Spec_Expect M_Opt M_Numeric P_Bsm P_Norm P_Numeric P_OptRefute P_Density
  P_Expect P_Impvol P_ImpvolRun P_OptMisc.
Import ListNotations.
Open Scope R_scope.

(** A concrete model used for the non-vacuity examples: sigma = 0.2, intr = 5%, divr = 1%. *)
Definition ex_m : opt := mkOpt (/ 5) (/ 20) (/ 100) false.
Lemma ex_floor : eps < sigma ex_m * sqrt 1 /\ 100 * eps <= sigma ex_m * sqrt 1 /\ eps <= sigma ex_m * sqrt 1.
Proof. rewrite sqrt_1. simpl. pose proof eps_small. lra. Qed.

(** *** C01 *)
Theorem C01_bsm_parity : forall m K S T,
  bsm_price m K S T 1 - bsm_price m K S T (-1)
  = DF (intr m) T * (FWD (intr m) (divr m) (is_fwd m) S T - K).
Proof. exact bsm_parity. Qed.
Print Assumptions C01_bsm_parity.
(* no hypotheses: every model, strike, spot and expiry, e.g. *)
Example C01_ex : bsm_price ex_m 100 100 1 1 - bsm_price ex_m 100 100 1 (-1)
  = exp (- (/ 20 * 1)) * (100 * exp ((/ 20 - / 100) * 1) - 100).
Proof. exact (C01_bsm_parity ex_m 100 100 1). Qed.

(** *** C02 *)
Theorem C02_bsm_bounds : forall m K S T cp, call_or_put cp -> 0 < K -> 0 < S ->
  DF (intr m) T * payoff cp K (FWD (intr m) (divr m) (is_fwd m) S T) < bsm_price m K S T cp
  /\ bsm_price m K S T cp
     < DF (intr m) T * (if Rlt_dec 0 cp then FWD (intr m) (divr m) (is_fwd m) S T else K).
Proof. exact bsm_bounds. Qed.
Print Assumptions C02_bsm_bounds.
Example C02_ex : 0 < bsm_price ex_m 120 100 1 1.
Proof.
  eapply Rle_lt_trans; [|apply (C02_bsm_bounds ex_m 120 100 1 1 ltac:(now left) ltac:(lra) ltac:(lra))].
  apply Rmult_le_pos; [left; apply exp_pos|apply Rmax_r].
Qed.

(** *** C03 *)
Theorem C03_bsm_increasing_in_sigma : forall m s1 s2 K S T cp, call_or_put cp -> 0 < K -> 0 < S ->
  eps <= s2 * sqrt T -> s1 * sqrt T < s2 * sqrt T ->
  bsm_price (set_sigma m s1) K S T cp <= bsm_price (set_sigma m s2) K S T cp
  /\ (eps < s2 * sqrt T -> bsm_price (set_sigma m s1) K S T cp < bsm_price (set_sigma m s2) K S T cp).
Proof. exact bsm_mono_sigma. Qed.
Print Assumptions C03_bsm_increasing_in_sigma.
Theorem C03_bsm_monotone_in_strike : forall m K1 K2 S T, 0 < K1 -> K1 < K2 -> 0 < S ->
  bsm_price m K2 S T 1 < bsm_price m K1 S T 1 /\ bsm_price m K1 S T (-1) < bsm_price m K2 S T (-1).
Proof. exact bsm_mono_strike. Qed.
Print Assumptions C03_bsm_monotone_in_strike.
Theorem C03_bsm_convex_in_strike : forall m K1 K2 l S T cp,
  call_or_put cp -> 0 < K1 -> 0 < K2 -> 0 < S -> 0 <= l <= 1 ->
  bsm_price m (l * K1 + (1 - l) * K2) S T cp <= l * bsm_price m K1 S T cp + (1 - l) * bsm_price m K2 S T cp.
Proof. exact bsm_convex_strike. Qed.
Print Assumptions C03_bsm_convex_in_strike.
Theorem C03_bsm_monotone_in_spot : forall m K S1 S2 T, 0 < K -> 0 < S1 -> S1 < S2 ->
  bsm_price m K S1 T 1 < bsm_price m K S2 T 1 /\ bsm_price m K S2 T (-1) < bsm_price m K S1 T (-1).
Proof. exact bsm_mono_spot. Qed.
Print Assumptions C03_bsm_monotone_in_spot.
Example C03_ex : bsm_price (set_sigma ex_m (/ 10)) 100 100 1 1 < bsm_price (set_sigma ex_m (/ 5)) 100 100 1 1.
Proof.
  destruct ex_floor as (H & _ & H'). simpl in H, H'.
  apply C03_bsm_increasing_in_sigma; try lra; [now left|rewrite sqrt_1; lra].
Qed.

(** *** C04 *)
Theorem C04_bsm_delta : forall m K S T cp, call_or_put cp -> 0 < K -> 0 < S ->
  is_derive (fun x => bsm_price m K x T cp) S (bsm_delta m K S T cp).
Proof. exact bsm_delta_derive. Qed.
Print Assumptions C04_bsm_delta.
Theorem C04_bsm_gamma : forall m K S T cp, call_or_put cp -> 0 < K -> 0 < S ->
  100 * eps <= sigma m * sqrt T ->
  is_derive_n (fun x => bsm_price m K x T cp) 2 S (bsm_gamma m K S T cp).
Proof. exact bsm_gamma_derive2. Qed.
Print Assumptions C04_bsm_gamma.
Theorem C04_bsm_vega : forall m K S T cp, call_or_put cp -> 0 < K -> 0 < S ->
  eps < sigma m * sqrt T ->
  is_derive (fun u => bsm_price (set_sigma m u) K S T cp) (sigma m) (bsm_vega m K S T cp).
Proof. exact bsm_vega_derive. Qed.
Print Assumptions C04_bsm_vega.
Theorem C04_bsm_theta : forall m K S T cp, call_or_put cp -> 0 < K -> 0 < S ->
  eps < sigma m * sqrt T ->
  is_derive (fun t => bsm_price m K S t cp) T (- bsm_theta m K S T cp).
Proof. exact bsm_theta_derive. Qed.
Print Assumptions C04_bsm_theta.
(** vega2 is off by the factor sqrt(texp): exact characterisation, then the witness *)
Theorem C04_bsm_vega2_scaled : forall m K S T cp, call_or_put cp -> 0 < K -> 0 < S ->
  eps < sigma m * sqrt T ->
  is_derive_n (fun u => bsm_price (set_sigma m u) K S T cp) 2 (sigma m) (sqrt T * bsm_vega2 m K S T cp).
Proof. exact bsm_vega2_derive2. Qed.
Print Assumptions C04_bsm_vega2_scaled.
Theorem C04_bsm_vega2_refuted : exists m K S T cp,
  call_or_put cp /\ 0 < K /\ 0 < S /\ eps < sigma m * sqrt T /\
  ~ is_derive_n (fun u => bsm_price (set_sigma m u) K S T cp) 2 (sigma m) (bsm_vega2 m K S T cp).
Proof. exact vega2_refuted. Qed.
Print Assumptions C04_bsm_vega2_refuted.
Example C04_ex : is_derive (fun t => bsm_price ex_m 90 100 t (-1)) 1 (- bsm_theta ex_m 90 100 1 (-1)).
Proof. apply C04_bsm_theta; try lra; [now right|apply ex_floor]. Qed.

(** *** C05 *)
Theorem C05_bsm_cdf_strike : forall m K S T cp, call_or_put cp -> 0 < K -> 0 < S ->
  is_derive (fun k => bsm_price m k S T cp) K (- cp * DF (intr m) T * bsm_cdf m K S T cp).
Proof. exact bsm_cdf_strike_derive. Qed.
Print Assumptions C05_bsm_cdf_strike.
Theorem C05_bsm_cdf_probability : forall m K S T,
  bsm_cdf m K S T 1 + bsm_cdf m K S T (-1) = 1 /\ 0 < bsm_cdf m K S T 1 < 1.
Proof. exact bsm_cdf_sum. Qed.
Print Assumptions C05_bsm_cdf_probability.
Example C05_ex : is_derive (fun k => bsm_price ex_m k 100 1 1) 110 (- (1) * exp (- (/ 20 * 1)) * bsm_cdf ex_m 110 100 1 1).
Proof. apply (C05_bsm_cdf_strike ex_m 110 100 1 1); try lra. now left. Qed.

(** *** C06 *)
Theorem C06_d2_var_scaled : forall m K S T cp, call_or_put cp -> 0 < K -> 0 < S ->
  0 < sigma m -> eps < sigma m * sqrt T ->
  is_derive_n (fun v => bsm_price (set_sigma m (sqrt v)) K S T cp) 2 (sigma m ^ 2)
    (FWD (intr m) (divr m) (is_fwd m) S T / S * bsm_d2_var m K S T cp).
Proof. exact bsm_d2_var_derive. Qed.
Print Assumptions C06_d2_var_scaled.
Theorem C06_d3_var_scaled : forall m K S T cp, call_or_put cp -> 0 < K -> 0 < S ->
  0 < sigma m -> eps < sigma m * sqrt T ->
  is_derive_n (fun v => bsm_price (set_sigma m (sqrt v)) K S T cp) 3 (sigma m ^ 2)
    (FWD (intr m) (divr m) (is_fwd m) S T / S * bsm_d3_var m K S T cp).
Proof. exact bsm_d3_var_derive. Qed.
Print Assumptions C06_d3_var_scaled.
Theorem C06_d2_var_refuted : exists m K S T cp,
  call_or_put cp /\ 0 < K /\ 0 < S /\ 0 < sigma m /\ eps < sigma m * sqrt T /\
  ~ is_derive_n (fun v => bsm_price (set_sigma m (sqrt v)) K S T cp) 2 (sigma m ^ 2) (bsm_d2_var m K S T cp).
Proof. exact d2_var_refuted. Qed.
Print Assumptions C06_d2_var_refuted.
Theorem C06_d3_var_refuted : exists m K S T cp,
  call_or_put cp /\ 0 < K /\ 0 < S /\ 0 < sigma m /\ eps < sigma m * sqrt T /\
  ~ is_derive_n (fun v => bsm_price (set_sigma m (sqrt v)) K S T cp) 3 (sigma m ^ 2) (bsm_d3_var m K S T cp).
Proof. exact d3_var_refuted. Qed.
Print Assumptions C06_d3_var_refuted.
Example C06_ex : 0 < sigma ex_m /\ eps < sigma ex_m * sqrt 1.
Proof. split; [simpl; lra|apply ex_floor]. Qed.

(** *** C07 *)
Theorem C07_impvol_unique : forall m s1 s2 K S T cp, call_or_put cp -> 0 < K -> 0 < S ->
  eps <= s1 * sqrt T -> eps <= s2 * sqrt T ->
  bsm_price (set_sigma m s1) K S T cp = bsm_price (set_sigma m s2) K S T cp -> s1 = s2.
Proof. exact impvol_unique. Qed.
Print Assumptions C07_impvol_unique.
Theorem C07_impvol_exists : forall m P K S T cp, call_or_put cp -> 0 < K -> 0 < S -> 0 < T ->
  bsm_price (set_sigma m 0) K S T cp <= P
    < DF (intr m) T * (if Rlt_dec 0 cp then FWD (intr m) (divr m) (is_fwd m) S T else K) ->
  exists s, eps <= s * sqrt T /\ bsm_price (set_sigma m s) K S T cp = P.
Proof. exact impvol_exists. Qed.
Print Assumptions C07_impvol_exists.
(** A volatility is left unchanged by the Newton update iff it reproduces the target. *)
Theorem C07_newton_fixed_point : forall s lk p, 0 < s -> 0 < p -> ~ taylor_zone s lk ->
  (iv_step s lk p = s <-> cstd s lk = p).
Proof. exact iv_fixed_point. Qed.
Print Assumptions C07_newton_fixed_point.
(** ... and the update is the Newton step on the logarithm of the price: it moves by the
    log-price error divided by the (positive) slope of the log-price in volatility. *)
Theorem C07_newton_step : forall s lk p, 0 < s -> 0 < p -> ~ taylor_zone s lk ->
  exists D, 0 < D /\ is_derive (fun y => ln (cstd y lk)) s D /\
            iv_step s lk p = s - (ln (cstd s lk) - ln p) / D.
Proof. exact iv_newton_step. Qed.
Print Assumptions C07_newton_step.

(** *** C08 *)
Theorem C08_bsm_in_out : forall m K B S T cp,
  bsm_price_barrier m K B S T cp 1 + bsm_price_barrier m K B S T cp (-1) = bsm_price m K S T cp.
Proof. exact bsm_barrier_in_out. Qed.
Print Assumptions C08_bsm_in_out.
Theorem C08_norm_in_out : forall m K B S T cp, eps <= sigma m * sqrt T ->
  norm_price_barrier m K B S T cp 1 + norm_price_barrier m K B S T cp (-1) = norm_price m K S T cp.
Proof. exact norm_barrier_in_out. Qed.
Print Assumptions C08_norm_in_out.
Theorem C08_bsm_knockout_at_barrier : forall m K B T cp, call_or_put cp -> 0 < B ->
  bsm_price_barrier m K B B T cp (-1) = 0.
Proof. exact bsm_barrier_ko_zero. Qed.
Print Assumptions C08_bsm_knockout_at_barrier.
Theorem C08_norm_knockout_at_barrier : forall m K B T cp, call_or_put cp ->
  norm_price_barrier m K B B T cp (-1) = 0.
Proof. exact norm_barrier_ko_zero. Qed.
Print Assumptions C08_norm_knockout_at_barrier.
(** with forward quotes the dividend rate must not matter, but it does *)
Theorem C08_barrier_forward_quote_refuted : exists m1 m2 K B S T,
  is_fwd m1 = true /\ is_fwd m2 = true /\ sigma m1 = sigma m2 /\ intr m1 = intr m2 /\
  0 < sigma m1 /\ 0 < K /\ 0 < B < S /\ 0 < T /\
  bsm_price m1 K S T 1 = bsm_price m2 K S T 1 /\
  bsm_price_barrier m1 K B S T 1 1 <> bsm_price_barrier m2 K B S T 1 1.
Proof. exact barrier_fwd_refuted. Qed.
Print Assumptions C08_barrier_forward_quote_refuted.
Example C08_ex : bsm_price_barrier ex_m 100 90 90 1 1 (-1) = 0.
Proof. apply C08_bsm_knockout_at_barrier; [now left|lra]. Qed.

(** *** C09 *)
Theorem C09_norm_parity : forall m K S T, eps <= sigma m * sqrt T ->
  norm_price m K S T 1 - norm_price m K S T (-1) = DF (intr m) T * (FWD (intr m) (divr m) (is_fwd m) S T - K).
Proof. exact norm_parity. Qed.
Print Assumptions C09_norm_parity.
Theorem C09_norm_lower_bound : forall m K S T cp, call_or_put cp -> eps <= sigma m * sqrt T ->
  DF (intr m) T * payoff cp K (FWD (intr m) (divr m) (is_fwd m) S T) < norm_price m K S T cp.
Proof. exact norm_lower. Qed.
Print Assumptions C09_norm_lower_bound.
Theorem C09_norm_delta : forall m K S T cp, call_or_put cp -> eps <= sigma m * sqrt T ->
  is_derive (fun x => norm_price m K x T cp) S (norm_delta m K S T cp).
Proof. exact norm_delta_derive. Qed.
Print Assumptions C09_norm_delta.
Theorem C09_norm_gamma : forall m K S T cp, call_or_put cp -> eps <= sigma m * sqrt T ->
  is_derive_n (fun x => norm_price m K x T cp) 2 S (norm_gamma m K S T cp).
Proof. exact norm_gamma_derive2. Qed.
Print Assumptions C09_norm_gamma.
Theorem C09_norm_vega : forall m K S T cp, call_or_put cp -> eps < sigma m * sqrt T ->
  is_derive (fun u => norm_price (set_sigma m u) K S T cp) (sigma m) (norm_vega m K S T cp).
Proof. exact norm_vega_derive. Qed.
Print Assumptions C09_norm_vega.
Theorem C09_norm_cdf : forall m K S T cp, call_or_put cp -> eps <= sigma m * sqrt T ->
  is_derive (fun k => norm_price m k S T cp) K (- cp * DF (intr m) T * norm_cdf m K S T cp).
Proof. exact norm_cdf_strike. Qed.
Print Assumptions C09_norm_cdf.
(** theta: right when the spot carries no dividend and is not a forward; wrong otherwise *)
Theorem C09_norm_theta_ok : forall m K S T cp, call_or_put cp -> eps < sigma m * sqrt T ->
  (if is_fwd m then intr m else divr m) = 0 ->
  is_derive (fun t => norm_price m K S t cp) T (- norm_theta m K S T cp).
Proof. exact norm_theta_ok. Qed.
Print Assumptions C09_norm_theta_ok.
Theorem C09_norm_theta_refuted : (exists m K S T cp,
  call_or_put cp /\ eps < sigma m * sqrt T /\ is_fwd m = false /\
  ~ is_derive (fun t => norm_price m K S t cp) T (- norm_theta m K S T cp)) /\
 (exists m K S T cp,
  call_or_put cp /\ eps < sigma m * sqrt T /\ is_fwd m = true /\ divr m = 0 /\
  ~ is_derive (fun t => norm_price m K S t cp) T (- norm_theta m K S T cp)).
Proof. exact (conj norm_theta_refuted_divr norm_theta_refuted_fwd). Qed.
Print Assumptions C09_norm_theta_refuted.
(** at expiry Norm.price is 0 rather than the intrinsic value *)
Theorem C09_norm_expiry_refuted : exists m K S T,
  0 < sigma m /\ 0 <= T /\
  norm_price m K S T 1 - norm_price m K S T (-1) <> DF (intr m) T * (FWD (intr m) (divr m) (is_fwd m) S T - K) /\
  norm_price m K S T 1 < DF (intr m) T * payoff 1 K (FWD (intr m) (divr m) (is_fwd m) S T).
Proof. exact norm_expiry_refuted. Qed.
Print Assumptions C09_norm_expiry_refuted.
Theorem C09_norm_binary_decomposition : forall m K S T cp, eps <= sigma m * sqrt T ->
  norm_price m K S T cp = norm_price_binary m K S T cp true - cp * K * norm_price_binary m K S T cp false.
Proof. exact norm_binary_decomp. Qed.
Print Assumptions C09_norm_binary_decomposition.
(** an asset-or-nothing put on a positive forward is quoted negative *)
Theorem C09_norm_binary_put_refuted : exists m K S T,
  eps <= sigma m * sqrt T /\ 0 < K /\ 0 < S /\ norm_price_binary m K S T (-1) true < 0.
Proof. exact norm_binary_refuted. Qed.
Print Assumptions C09_norm_binary_put_refuted.
Example C09_ex : norm_price ex_m (-3) 2 1 1 - norm_price ex_m (-3) 2 1 (-1)
   = exp (- (/ 20 * 1)) * (2 * exp ((/ 20 - / 100) * 1) - -3).
Proof. apply (C09_norm_parity ex_m (-3) 2 1). apply ex_floor. Qed.

(** *** C10 *)
Theorem C10_disp_beta_one : forall m K S T cp, d_beta m = 1 ->
  let b := mkOpt (d_sigma m) (d_intr m) (d_divr m) (d_isf m) in
  disp_price m K S T cp = bsm_price b K S T cp /\
  disp_delta m K S T cp = bsm_delta b K S T cp /\
  disp_gamma m K S T cp = bsm_gamma b K S T cp /\
  disp_vega m K S T cp = bsm_vega b K S T cp /\
  disp_theta m K S T cp = bsm_theta b K S T cp /\
  disp_cdf m K S T cp = bsm_cdf b K S T cp.
Proof. exact disp_beta1_all. Qed.
Print Assumptions C10_disp_beta_one.
Theorem C10_disp_parity : forall m K S T, d_beta m <> 0 ->
  disp_price m K S T 1 - disp_price m K S T (-1)
  = DF (d_intr m) T * (FWD (d_intr m) (d_divr m) (d_isf m) S T - K).
Proof. exact disp_parity. Qed.
Print Assumptions C10_disp_parity.
Theorem C10_disp_delta : forall m K S T cp, call_or_put cp -> d_beta m <> 0 ->
  0 < disp_strike m K T -> 0 < disp_spot m S ->
  is_derive (fun x => disp_price m K x T cp) S (disp_delta m K S T cp).
Proof. exact disp_delta_derive. Qed.
Print Assumptions C10_disp_delta.
Theorem C10_disp_gamma : forall m K S T cp, call_or_put cp -> d_beta m <> 0 ->
  0 < disp_strike m K T -> 0 < disp_spot m S -> 100 * eps <= d_sigma m * d_beta m * sqrt T ->
  is_derive_n (fun x => disp_price m K x T cp) 2 S (disp_gamma m K S T cp).
Proof. exact disp_gamma_derive2. Qed.
Print Assumptions C10_disp_gamma.
Theorem C10_disp_vega : forall m K S T cp, call_or_put cp -> d_beta m <> 0 ->
  0 < disp_strike m K T -> 0 < disp_spot m S -> eps < d_sigma m * d_beta m * sqrt T ->
  is_derive (fun u => disp_price (disp_set m u) K S T cp) (d_sigma m) (disp_vega m K S T cp).
Proof. exact disp_vega_derive. Qed.
Print Assumptions C10_disp_vega.
Theorem C10_disp_theta_refuted : exists m K S T cp,
  call_or_put cp /\ 0 < d_beta m < 1 /\ d_isf m = true /\ d_intr m = 0 /\
  0 < disp_strike m K T /\ 0 < disp_spot m S /\ eps < d_sigma m * d_beta m * sqrt T /\
  ~ is_derive (fun t => disp_price m K S t cp) T (- disp_theta m K S T cp).
Proof. exact disp_theta_refuted. Qed.
Print Assumptions C10_disp_theta_refuted.
Theorem C10_disp_vsk_refuted : exists m T, 0 < d_beta m < 1 /\ 0 < d_sigma m /\ 0 < T /\ d_pivot m = 1 /\
  let s := d_sigma m * d_beta m * sqrt T in
  let Y z := (exp (s * z - s * s / 2) - (1 - d_beta m)) / d_beta m in
  gauss_expect Y 1 /\ exists m2, gauss_expect (fun z => Y z ^ 2) m2 /\
   var_of_raw 1 m2 <> fst (fst (disp_price_vsk m T)).
Proof. exact disp_vsk_refuted. Qed.
Print Assumptions C10_disp_vsk_refuted.
Definition ex_d : dispo := mkDisp (/ 5) (/ 2) 100 (/ 20) 0 false.
Example C10_ex : d_beta ex_d <> 0 /\ 0 < disp_strike ex_d 90 1 /\ 0 < disp_spot ex_d 100
   /\ 100 * eps <= d_sigma ex_d * d_beta ex_d * sqrt 1.
Proof.
  pose proof eps_small. rewrite sqrt_1. unfold disp_strike, disp_spot, forward. simpl.
  pose proof (exp_pos ((/ 20 - 0) * 1)). repeat split; nra.
Qed.

(** *** C11 *)
Theorem C11_forward_consistent : forall m S T,
  forward m S T = FWD (intr m) (divr m) (is_fwd m) S T /\
  fst (fst (fwd_df_divf m S T)) = forward m S T /\
  snd (fst (fwd_df_divf m S T)) = DF (intr m) T /\
  (is_fwd m = false -> snd (fwd_df_divf m S T) = DF (divr m) T) /\
  (is_fwd m = true -> snd (fwd_df_divf m S T) = 1).
Proof. exact forward_consistent. Qed.
Print Assumptions C11_forward_consistent.
Theorem C11_bsm_homogeneous : forall m K S T cp c, 0 < c -> 0 < K -> 0 < S ->
  bsm_price m (c * K) (c * S) T cp = c * bsm_price m K S T cp.
Proof. exact bsm_homog. Qed.
Print Assumptions C11_bsm_homogeneous.
Theorem C11_norm_translation : forall m K S T cp a, is_fwd m = true ->
  norm_price m (K + a) (S + a) T cp = norm_price m K S T cp.
Proof. exact norm_translate. Qed.
Print Assumptions C11_norm_translation.
(** quoting the forward instead of the spot gives the same price *)
Theorem C11_forward_quote_agrees : forall s r q K S T cp,
  bsm_price (mkOpt s r q false) K S T cp = bsm_price (mkOpt s r q true) K (FWD r q false S T) T cp /\
  norm_price (mkOpt s r q false) K S T cp = norm_price (mkOpt s r q true) K (FWD r q false S T) T cp.
Proof. exact fwd_quote_agrees. Qed.
Print Assumptions C11_forward_quote_agrees.
Example C11_ex : bsm_price ex_m (2 * 50) (2 * 60) 1 1 = 2 * bsm_price ex_m 50 60 1 1.
Proof. apply C11_bsm_homogeneous; lra. Qed.

(** *** C12: [ext h h'] = every object of heap [h] is the same in [h'].  [pr], [get], [set]
    are an arbitrary price method and an arbitrary sigma attribute. *)
Theorem C12_numeric_greeks_leave_objects_unchanged :
  forall (A : Type) (pr : A -> R -> R -> R -> R -> R) (get : A -> R) (set : A -> R -> A) (d : A)
         fdd brentq (h : list A) a P K S T cp,
  ext h (snd (delta_numeric pr d h a K S T cp)) /\
  ext h (snd (gamma_numeric pr d h a K S T cp)) /\
  ext h (snd (theta_numeric pr d h a K S T cp)) /\
  ext h (snd (vega_numeric pr get set d h a K S T cp)) /\
  ext h (snd (volga_numeric pr get set d h a K S T cp)) /\
  ext h (snd (vanna_numeric pr get set d h a K S T cp)) /\
  ext h (snd (impvol_brentq pr set d fdd brentq h a P K S T cp false)).
Proof. exact @numeric_all_ext. Qed.
Print Assumptions C12_numeric_greeks_leave_objects_unchanged.
Theorem C12_unchanged_means_same_attributes : forall (A : Type) (d : A) (h h' : list A) a,
  ext h h' -> (a < length h)%nat -> nth a h' d = nth a h d.
Proof. exact @deref_ext. Qed.
Print Assumptions C12_unchanged_means_same_attributes.
(** exactness on quadratics, for a sigma attribute that behaves like a variable *)
Theorem C12_vega_volga_exact_on_quadratics :
  forall (A : Type) (pr : A -> R -> R -> R -> R -> R) (get : A -> R) (set : A -> R -> A) (d : A),
  (forall m x, get (set m x) = x) -> (forall m x y, set (set m x) y = set m y) -> (forall m, set m (get m) = m) ->
  forall h a K S T cp q2 q1 q0,
  (forall x, pr (set (deref d h a) x) K S T cp = q2 * x ^ 2 + q1 * x + q0) ->
  fst (vega_numeric pr get set d h a K S T cp) = 2 * q2 * get (deref d h a) + q1
  /\ fst (volga_numeric pr get set d h a K S T cp) = 2 * q2.
Proof. exact @vega_quadratic. Qed.
Print Assumptions C12_vega_volga_exact_on_quadratics.
Theorem C12_delta_gamma_exact_on_quadratics :
  forall (A : Type) (pr : A -> R -> R -> R -> R -> R) (d : A) h a K S T cp q2 q1 q0, S <> 0 ->
  (forall x, pr (deref d h a) K x T cp = q2 * x ^ 2 + q1 * x + q0) ->
  fst (delta_numeric pr d h a K S T cp) = 2 * q2 * S + q1
  /\ fst (gamma_numeric pr d h a K S T cp) = 2 * q2.
Proof. exact @delta_quadratic. Qed.
Print Assumptions C12_delta_gamma_exact_on_quadratics.
Theorem C12_theta_exact_on_quadratics :
  forall (A : Type) (pr : A -> R -> R -> R -> R -> R) (d : A) h a K S T cp q2 q1 q0, 0 < T ->
  (forall t, pr (deref d h a) K S t cp = q2 * t ^ 2 + q1 * t + q0) ->
  fst (theta_numeric pr d h a K S T cp) = - (2 * q2 * T + q1).
Proof. exact @theta_quadratic. Qed.
Print Assumptions C12_theta_exact_on_quadratics.
(** BsmDisp's sigma property is not such an attribute: its getter and setter disagree, and
    its numeric vega is more than 50 times its analytic vega. *)
Theorem C12_disp_vega_numeric_refuted : exists m K S T,
  0 < d_beta m < 1 /\ d_isf m = true /\ d_intr m = 0 /\ 0 < d_sigma m /\ 0 < T /\
  0 < disp_strike m K T /\ 0 < disp_spot m S /\ 0 < disp_vega m K S T 1 /\
  fst (vega_numeric disp_price disp_get disp_set m [m] 0 K S T 1) > 50 * disp_vega m K S T 1.
Proof. exact disp_vega_numeric_refuted. Qed.
Print Assumptions C12_disp_vega_numeric_refuted.
Example C12_ex : (forall m x, sigma (set_sigma m x) = x) /\ (forall m x y, set_sigma (set_sigma m x) y = set_sigma m y)
  /\ (forall m, set_sigma m (sigma m) = m).
Proof. repeat split. intros []; reflexivity. Qed.

(** *** C13 *)
(** [tends0 f l] : f h tends to l as the step h goes to 0 *)
Theorem C13_pdf_numeric_limit : forall m K S T cp, call_or_put cp -> 0 < K -> 0 < S ->
  tends0 (fun h => pdf_numeric bsm_price m K S T cp h)
         (DF (intr m) T * bsm_density m (K / FWD (intr m) (divr m) (is_fwd m) S T) 1 T).
Proof. exact pdf_numeric_limit. Qed.
Print Assumptions C13_pdf_numeric_limit.
Theorem C13_density_is_density : forall m K S T cp, call_or_put cp -> 0 < K -> 0 < S ->
  is_derive (fun k => bsm_cdf m k S T cp) K (- cp * bsm_density m K S T).
Proof. exact bsm_cdf_derive. Qed.
Print Assumptions C13_density_is_density.
Theorem C13_pdf_numeric_refuted : exists m K S T,
  is_fwd m = true /\ intr m = 0 /\ 0 < K /\ 0 < S /\ 0 < sigma m /\ 0 < T /\
  ~ tends0 (fun h => pdf_numeric bsm_price m K S T (-1) h) (bsm_density m K S T).
Proof. exact pdf_numeric_refuted. Qed.
Print Assumptions C13_pdf_numeric_refuted.
Theorem C13_cdf_numeric_limit : forall m K S T cp, call_or_put cp -> 0 < K -> 0 < S ->
  tends0 (fun h => cdf_numeric bsm_price m K S T cp h)
         (DF (intr m) T * bsm_cdf m K (FWD (intr m) (divr m) (is_fwd m) S T) T cp).
Proof. exact cdf_numeric_limit. Qed.
Print Assumptions C13_cdf_numeric_limit.
Theorem C13_cdf_numeric_refuted : exists m K S T, 0 < K /\ 0 < S /\ 0 < sigma m /\ 0 < T /\
  forall h, h <> 0 ->
  cdf_numeric bsm_price m K S T 1 h + cdf_numeric bsm_price m K S T (-1) h <> 1.
Proof. exact cdf_numeric_refuted. Qed.
Print Assumptions C13_cdf_numeric_refuted.
Theorem C13_cdf_numeric_ok : forall m K S T cp, call_or_put cp -> 0 < K -> 0 < S -> is_fwd m = true -> intr m = 0 ->
  tends0 (fun h => cdf_numeric bsm_price m K S T cp h) (bsm_cdf m K S T cp).
Proof. exact cdf_numeric_ok. Qed.
Print Assumptions C13_cdf_numeric_ok.
(** Brent: with zero rate and forward quotes every root is the true volatility ... *)
Theorem C13_brentq_root_ok : forall m K S T cp s, call_or_put cp -> 0 < K -> 0 < S -> is_fwd m = true -> intr m = 0 ->
  eps <= sigma m * sqrt T -> eps <= s * sqrt T ->
  bsm_price (set_sigma m s) (K / S) 1 T cp - bsm_price m K S T cp / exp (- intr m * T) / forward m S T = 0 ->
  s = sigma m.
Proof. exact brentq_root_ok. Qed.
Print Assumptions C13_brentq_root_ok.
(** ... but with a nonzero rate impvol_brentq never returns the volatility that produced the
    price, whatever (sound) root finder is used. *)
Theorem C13_impvol_brentq_refuted : forall brentq : (R -> R) -> R -> R -> option R,
  (forall f a b s, brentq f a b = Some s -> f s = 0 /\ a <= s <= b) ->
  exists m K S T, 0 < sigma m <= 10 /\ is_fwd m = true /\ 0 < K /\ 0 < S /\ 0 < T /\
  forall r h', impvol_brentq bsm_price set_sigma m bsm_fd brentq [m] 0 (bsm_price m K S T 1) K S T 1 false
    <> (Some (Some r), h') \/ r <> sigma m.
Proof. exact impvol_brentq_refuted. Qed.
Print Assumptions C13_impvol_brentq_refuted.

(** *** C54: the closed forms are discounted expected payoffs *)
Theorem C54_bsm_price_is_expectation : forall m K S T cp, call_or_put cp -> 0 < K -> 0 < S -> eps <= sigma m * sqrt T ->
  gauss_expect (fun z => DF (intr m) T * payoff cp K
      (FWD (intr m) (divr m) (is_fwd m) S T * exp (sigma m * sqrt T * z - (sigma m * sqrt T) * (sigma m * sqrt T) / 2)))
    (bsm_price m K S T cp).
Proof. exact bsm_expect. Qed.
Print Assumptions C54_bsm_price_is_expectation.
Theorem C54_norm_price_is_expectation : forall m K S T cp, call_or_put cp -> eps <= sigma m * sqrt T ->
  gauss_expect (fun z => DF (intr m) T * payoff cp K (FWD (intr m) (divr m) (is_fwd m) S T + sigma m * sqrt T * z))
    (norm_price m K S T cp).
Proof. exact norm_expect. Qed.
Print Assumptions C54_norm_price_is_expectation.
Theorem C54_bsm_mgf_is_expectation : forall m u T, 0 <= T ->
  gauss_expect (fun z => exp (u * (sigma m * sqrt T * z - sigma m * sigma m * T / 2))) (bsm_logp_mgf m u T).
Proof. exact bsm_mgf_expect. Qed.
Print Assumptions C54_bsm_mgf_is_expectation.
Theorem C54_bsm_price_vsk : forall sg T m1 m2 m3 m4, 0 < sg * sqrt T ->
  let X z := exp (sg * sqrt T * z - sg * sqrt T * (sg * sqrt T) / 2) in
  gauss_expect X m1 -> gauss_expect (fun z => X z ^ 2) m2 ->
  gauss_expect (fun z => X z ^ 3) m3 -> gauss_expect (fun z => X z ^ 4) m4 ->
  bsm_price_vsk sg T = (var_of_raw m1 m2, skew_of_raw m1 m2 m3, exkurt_of_raw m1 m2 m3 m4).
Proof. exact bsm_vsk_correct. Qed.
Print Assumptions C54_bsm_price_vsk.
Theorem C54_expectations_unique : forall f u v, gauss_expect f u -> gauss_expect f v -> u = v.
Proof. exact gauss_expect_unique. Qed.
Print Assumptions C54_expectations_unique.
Example C54_ex : exists v, gauss_expect (fun z => exp (/ 5 * z)) v /\ 1 < v.
Proof. exists (exp (/ 5 * / 5 / 2)). split; [apply gauss_mgf|apply exp_gt_1; lra]. Qed.
