(** C69 and C70: the GARCH diffusion (garch.py) and the uncorrelated second-order pricers of heston.py, ousv.py, garch.py.
    [garch_expectation k th xi g f]: f t v j = E(g(V_t, J_t)) for dV = k(th-V)dt + xi V dZ, J the integral of V (Spec_Garch.v). *)
From Coq Require Import Reals List Lra Lia.
From Coquelicot Require Import Coquelicot.
From Verif Require Import Base Sums M_Opt M_Mgf M_Heston M_Ou M_Garch Spec_Opt Spec_Expect Spec_Garch P_Garch P_Garch2 P_Garch3 P_Garch4.
Import ListNotations.
Open Scope R_scope.

(** avgvar_mv returns the mean and the variance of the average variance J_t / t *)
Theorem C69_avg_mean_variance : forall s0 xi rho k th, k <> 0 -> xi ^ 2 <> k -> xi ^ 2 <> 2 * k ->
  exists m1 m2 : R -> R -> R,
    garch_expectation k th xi (fun v j => j) (fun t v j => j + m1 t v) /\
    garch_expectation k th xi (fun v j => j ^ 2) (fun t v j => (j + m1 t v) ^ 2 + m2 t v) /\
    forall t v, 0 < t -> garch_avgvar_mv (mkSv s0 xi rho k th) t v = (m1 t v / t, m2 t v / t ^ 2).
Proof. exact garch_avg. Qed.
Print Assumptions C69_avg_mean_variance.
Theorem C69_avg_range : forall s0 xi rho k th t v, 0 < k -> 0 < t -> 0 < v -> 0 < th ->
  Rmin v th <= fst (garch_avgvar_mv (mkSv s0 xi rho k th) t v) <= Rmax v th.
Proof. exact garch_avg_pos. Qed.
Print Assumptions C69_avg_range.
Theorem C69_avg_variance_positive : forall s0 xi rho k th t v, 0 < k -> 0 < th -> xi <> 0 -> xi ^ 2 <> k -> xi ^ 2 <> 2 * k -> 0 < t -> 0 < v ->
  0 < snd (garch_avgvar_mv (mkSv s0 xi rho k th) t v).
Proof. exact garch_var_pos. Qed.
Print Assumptions C69_avg_variance_positive.
Example C69_ex : 2 <> 0 /\ (1/2) ^ 2 <> 2 /\ (1/2) ^ 2 <> 2 * 2 /\ 0 < snd (garch_avgvar_mv (mkSv (1/10) (1/2) 0 2 (1/5)) 1 (1/10)).
Proof. repeat split; try lra. apply garch_var_pos; lra. Qed.

(** Euler and Milstein steps before the floor: exact conditional mean of the drift, and variance (with the Milstein term) *)
Theorem C69_step_mean : forall p mil dt v0, 0 <= dt -> gauss_expect (garch_euler_raw p mil dt v0) (v0 + v_mr p * (v_theta p - v0) * dt).
Proof. exact garch_euler_mean. Qed.
Print Assumptions C69_step_mean.
Theorem C69_step_second_moment : forall p (mil : bool) dt v0, 0 <= dt ->
  gauss_expect (fun z => garch_euler_raw p mil dt v0 z ^ 2)
    ((v0 + v_mr p * (v_theta p - v0) * dt) ^ 2 + v_vov p ^ 2 * v0 ^ 2 * dt + (if mil then v_vov p ^ 4 * v0 ^ 2 * dt ^ 2 / 2 else 0)).
Proof. exact garch_euler_second. Qed.
Print Assumptions C69_step_second_moment.
(** the floor keeps the variance non-negative, and never acts on the Milstein scheme with (vov^2 + 2 mr) dt <= 1 *)
Theorem C69_step_nonneg : forall p mil dt v0 z, 0 <= garch_euler p mil dt v0 z.
Proof. exact garch_euler_nonneg. Qed.
Print Assumptions C69_step_nonneg.
Theorem C69_milstein_floor_inactive : forall p dt v0, 0 < v0 -> 0 < dt -> 0 < v_mr p -> 0 < v_theta p -> (v_vov p ^ 2 + 2 * v_mr p) * dt <= 1 ->
  (forall z, 0 < garch_euler p true dt v0 z) /\ gauss_expect (garch_euler p true dt v0) (v0 + v_mr p * (v_theta p - v0) * dt).
Proof.
  exact (fun p dt v0 a b c d e => conj (fun z => eq_rect_r (fun x => 0 < x) (garch_milstein_pos p dt v0 z a b c d e) (garch_milstein_floor p dt v0 z a b c d e))
           (garch_milstein_unbiased p dt v0 a b c d e)).
Qed.
Print Assumptions C69_milstein_floor_inactive.
(** log scheme: conditional mean of the next variance, whose rate at dt = 0 is the drift of the model *)
Theorem C69_log_step : forall p v0, 0 < v0 -> exists mean : R -> R,
  (forall dt, 0 <= dt -> gauss_expect (fun z => exp (garch_log_step p dt (ln v0) z)) (mean dt)) /\ mean 0 = v0 /\
  is_derive mean 0 (v_mr p * (v_theta p - v0)).
Proof.
  intros p v0 H. exists (fun dt => v0 * exp ((v_mr p * v_theta p / v0 - v_mr p) * dt)).
  split; [intros dt Hd; apply garch_log_mean; assumption|]. split; [rewrite Rmult_0_r, exp_0; ring|]. apply garch_log_rate. exact H.
Qed.
Print Assumptions C69_log_step.
(** the conditional spot is a drift-free function of (V, int V, int sqrt V, int 1/sqrt V) with the model's loading rho sqrt(V) on dZ,
    evaluated at trapezoidal integrals along the simulated path; the conditional variance is (1-rho^2) int V *)
Theorem C69_conditional : forall p, v_vov p <> 0 -> v_rho p ^ 2 <= 1 -> forall v0, 0 < v0 -> exists f : R -> R -> R -> R -> R,
  garch_martingale (v_mr p) (v_theta p) (v_vov p) f /\ garch_loading (v_vov p) (v_rho p) f /\ f v0 0 0 0 = 1 /\
  forall scheme z dts T s sg, (scheme <= 2)%nat -> 0 < T -> (forall d, In d dts -> 0 <= d) ->
    garch_cond_spot_sigma p scheme z dts T v0 = Some (Some s, sg) ->
    exists vs, length vs = length dts /\ (forall x, In x vs -> 0 < x) /\
      (forall n, (n < length dts)%nat -> exists a b c, garch_step p scheme (z n) (nth n dts 0) (nth n (v0 :: vs) 0) = Some (nth n vs 0, a, b, c)) /\
      s = f (last vs v0) (trap (fun x => x) dts vs v0) (trap sqrt dts vs v0) (trap (fun x => / sqrt x) dts vs v0) /\
      v0 * sg ^ 2 * T = (1 - v_rho p ^ 2) * trap (fun x => x) dts vs v0.
Proof. exact garch_conditional. Qed.
Print Assumptions C69_conditional.
(** an invalid scheme raises; the floor does not rescue a path: as soon as it acts the conditional spot is not finite (1/0) *)
Theorem C69_bad_scheme : forall p scheme z dts d T v0, (2 < scheme)%nat -> garch_cond_spot_sigma p scheme z (d :: dts) T v0 = None.
Proof. exact garch_bad_scheme. Qed.
Print Assumptions C69_bad_scheme.
Theorem C69_floor_refuted : forall p scheme z dts d T v0, (scheme < 2)%nat -> 0 < v0 -> garch_euler_raw p (Nat.eqb scheme 1) d v0 (z 0%nat) <= 0 ->
  exists s, garch_cond_spot_sigma p scheme z (d :: dts) T v0 = Some (None, s).
Proof. exact garch_floor_first. Qed.
Print Assumptions C69_floor_refuted.
Example C69_floor_ex : garch_euler_raw (mkSv 1 (1/2) 0 1 (1/2)) false 1 1 (-3) <= 0 /\
  (exists s sg, garch_cond_spot_sigma (mkSv 1 (1/2) (1/2) 1 (1/2)) 2 (fun _ => 0) [1] 1 1 = Some (Some s, sg)).
Proof.
  split; [unfold garch_euler_raw; cbn [v_mr v_theta v_vov]; rewrite sqrt_1; lra|].
  unfold garch_cond_spot_sigma. cbn [garch_loop]. unfold garch_step. cbn [Nat.ltb Nat.leb Nat.eqb]. rewrite sqrt_1. unfold np_inv.
  destruct (Req_EM_T 1 0); [lra|]. destruct (Req_EM_T (exp _) 0) as [E|E]; [|cbn [omap2]; eauto].
  exfalso. match type of E with exp ?x = _ => pose proof (exp_pos x) end. lra.
Qed.

(** *** C70.  The uncorrelated pricers, [BS v] being the Black-Scholes price at average variance v. *)
(** HestonUncorrBallRoma1994: Taylor terms of BS at the mean, with the true variance and third central moment of the average variance
    (C29), except that the correction is scaled by spot/forward *)
Theorem C70_heston : forall m p K S T cp, call_or_put cp -> 0 < K -> 0 < S ->
  let BS := fun v => bsm_price (mkOpt (sqrt v) (intr m) (divr m) false) K S T cp in
  let c := heston_cir p in let M := cir_avg_mean c T (v_sigma p) in
  0 < M -> eps < sqrt M * sqrt T -> exists D2 D3,
  is_derive_n BS 2 M D2 /\ is_derive_n BS 3 M D3 /\ let g := S / FWD (intr m) (divr m) false S T in
  (forall n, (n < 2)%nat -> heston_uncorr_price m p n K S T cp = BS M) /\
  heston_uncorr_price m p 2 K S T cp = BS M + / 2 * cir_avg_var c T (v_sigma p) * (g * D2) /\
  (forall n, (2 < n)%nat -> heston_uncorr_price m p n K S T cp =
     BS M + / 2 * cir_avg_var c T (v_sigma p) * (g * D2) + / 6 * cir_avg_c3 c T (v_sigma p) * (g * D3)).
Proof. exact heston_taylor. Qed.
Print Assumptions C70_heston.
Theorem C70_garch : forall m p K S T cp, call_or_put cp -> 0 < K -> 0 < S ->
  let BS := fun v => bsm_price (mkOpt (sqrt v) (intr m) (divr m) false) K S T cp in
  let M := fst (garch_avgvar_mv p T (v_sigma p)) in let V := snd (garch_avgvar_mv p T (v_sigma p)) in
  0 < M -> eps < sqrt M * sqrt T ->
  (forall n, (n < 2)%nat -> garch_uncorr_price m p n K S T cp = Some (BS M)) /\
  (exists D, is_derive_n BS 2 M D /\
    garch_uncorr_price m p 2 K S T cp = Some (BS M + / 2 * V * (S / FWD (intr m) (divr m) false S T * D))) /\
  (forall n, (2 < n)%nat -> garch_uncorr_price m p n K S T cp = None).
Proof. exact garch_taylor. Qed.
Print Assumptions C70_garch.
Theorem C70_ousv : forall m p K S T cp,
  ousv_uncorr_price m p 0 K S T cp = Some (bsm_price (mkOpt (sqrt (ou_avgvar p true T (v_sigma p))) (intr m) (divr m) false) K S T cp) /\
  (forall n, (0 < n)%nat -> ousv_uncorr_price m p n K S T cp = None).
Proof. exact ousv_taylor. Qed.
Print Assumptions C70_ousv.
(** so with r <> q the order-2 Heston price is never the Taylor expansion at the at-the-money-forward strike *)
Theorem C70_rates_refuted : forall m p S T cp D, call_or_put cp -> 0 < S -> 0 < T -> intr m <> divr m ->
  v_vov p <> 0 -> 0 < v_mr p -> 0 < v_theta p -> 0 < v_sigma p ->
  let c := heston_cir p in let M := cir_avg_mean c T (v_sigma p) in let K := FWD (intr m) (divr m) false S T in
  let BS := fun v => bsm_price (mkOpt (sqrt v) (intr m) (divr m) false) K S T cp in
  0 < M -> eps < sqrt M * sqrt T -> is_derive_n BS 2 M D ->
  heston_uncorr_price m p 2 K S T cp <> BS M + / 2 * cir_avg_var c T (v_sigma p) * D.
Proof. exact heston_taylor_refuted. Qed.
Print Assumptions C70_rates_refuted.
(** with deterministic variance the corrections vanish, otherwise the average variance has positive variance *)
Theorem C70_deterministic : (forall s0 rho k th t v, k <> 0 -> 0 < t -> snd (garch_avgvar_mv (mkSv s0 0 rho k th) t v) = 0) /\
  (forall c t v, c_xi c = 0 -> c_mr c <> 0 -> 0 < t -> cir_avg_var c t v = 0).
Proof. exact (conj garch_det cir_det). Qed.
Print Assumptions C70_deterministic.
Theorem C70_heston_variance_positive : forall c t v, c_xi c <> 0 -> 0 < c_mr c -> 0 < c_theta c -> 0 < v -> 0 < t -> 0 < cir_avg_var c t v.
Proof. exact cir_avg_var_pos. Qed.
Print Assumptions C70_heston_variance_positive.
(** put-call parity of every order, against the forward of a spot price *)
Theorem C70_heston_parity : forall m p n K S T,
  heston_uncorr_price m p n K S T 1 - heston_uncorr_price m p n K S T (-1) = DF (intr m) T * (FWD (intr m) (divr m) false S T - K).
Proof. exact heston_uncorr_parity. Qed.
Print Assumptions C70_heston_parity.
Theorem C70_garch_parity : forall m p n K S T c d,
  garch_uncorr_price m p n K S T 1 = Some c -> garch_uncorr_price m p n K S T (-1) = Some d ->
  c - d = DF (intr m) T * (FWD (intr m) (divr m) false S T - K).
Proof. exact garch_uncorr_parity. Qed.
Print Assumptions C70_garch_parity.
Theorem C70_ousv_parity : forall m p n K S T c d,
  ousv_uncorr_price m p n K S T 1 = Some c -> ousv_uncorr_price m p n K S T (-1) = Some d ->
  c - d = DF (intr m) T * (FWD (intr m) (divr m) false S T - K).
Proof. exact ousv_uncorr_parity. Qed.
Print Assumptions C70_ousv_parity.
Example C70_ex : let p := mkSv (1/25) (1/2) 0 2 (1/25) in cir_avg_mean (heston_cir p) 1 (v_sigma p) = 1/25 /\ eps < sqrt (1/25) * sqrt 1.
Proof.
  cbv zeta. split; [unfold cir_avg_mean, heston_cir; cbn [c_theta c_mr v_theta v_mr v_sigma]; ring|].
  rewrite sqrt_1, Rmult_1_r. replace (1/25) with (1/5 * (1/5)) by field. rewrite sqrt_square by lra. unfold eps.
  apply Rlt_trans with (/ 2 ^ 3); [apply Rinv_lt_contravar; [apply Rmult_lt_0_compat; apply pow_lt; lra|apply Rlt_pow; [lra|lia]]|lra].
Qed.
