(** C29, C62: square-root process moments, exact simulation laws, variance swap. *)
From Coq Require Import Reals Lra Lia List.
From Coquelicot Require Import Coquelicot.
From Verif Require Import Base Gauss Sums M_Opt M_Mgf M_Heston Spec_Expect Spec_Sde P_Expect P_Cir P_Cir2 P_Cir3 P_CirSmall.
Open Scope R_scope.

(** *** C29.  [expectation_of k th xi rho g f] (Spec_Sde.v): f t x v j = E[g(X_t, V_t, J_t)] started at (x, v, j). *)
Theorem C29_mean : forall k th xi rho, expectation_of k th xi rho (fun x v j => v) (fun t x v j => cir_mean (mkCir xi k th) t v).
Proof. exact c_exp_V. Qed.
Print Assumptions C29_mean.
Theorem C29_variance : forall k th xi rho, k <> 0 ->
  expectation_of k th xi rho (fun x v j => v ^ 2) (fun t x v j => cir_mean (mkCir xi k th) t v ^ 2 + cir_var (mkCir xi k th) t v).
Proof. exact c_exp_V2. Qed.
Print Assumptions C29_variance.
Theorem C29_avg_mean : forall k th xi rho, k <> 0 ->
  expectation_of k th xi rho (fun x v j => j) (fun t x v j => j + t * cir_avg_mean (mkCir xi k th) t v).
Proof. exact c_exp_J. Qed.
Print Assumptions C29_avg_mean.
Theorem C29_avg_variance : forall k th xi rho, k <> 0 ->
  expectation_of k th xi rho (fun x v j => j ^ 2)
    (fun t x v j => (j + t * cir_avg_mean (mkCir xi k th) t v) ^ 2 + t ^ 2 * cir_avg_var (mkCir xi k th) t v).
Proof. exact c_exp_J2. Qed.
Print Assumptions C29_avg_variance.
(** third central moment of the average, full formula; the routine uses it whenever mr*texp >= 0.1 *)
Theorem C29_avg_third : forall k th xi rho, k <> 0 ->
  let M t v := t * cir_avg_mean (mkCir xi k th) t v in let W t v := t ^ 2 * cir_avg_var (mkCir xi k th) t v in
  expectation_of k th xi rho (fun x v j => j ^ 3)
    (fun t x v j => (j + M t v) ^ 3 + 3 * (j + M t v) * W t v + t ^ 3 * cir_avg_c3_full (mkCir xi k th) t v).
Proof. exact c_exp_J3. Qed.
Print Assumptions C29_avg_third.
Lemma c3_branch c T v0 : / 10 <= c_mr c * T -> cir_avg_c3 c T v0 = cir_avg_c3_full c T v0.
Proof. intros H. unfold cir_avg_c3. destruct (Rlt_dec _ _); [lra|reflexivity]. Qed.
Theorem C29_avg_third_branch : forall c T v0, / 10 <= c_mr c * T -> cir_avg_c3 c T v0 = cir_avg_c3_full c T v0.
Proof. exact c3_branch. Qed.
Print Assumptions C29_avg_third_branch.
(** below 0.1 the routine returns a second-order expansion in mr*texp; its error is of third order *)
Theorem C29_avg_third_small : forall c T v0, 0 < c_mr c -> 0 < T -> 0 <= v0 -> 0 <= c_theta c ->
  Rabs (cir_avg_c3 c T v0 - cir_avg_c3_full c T v0) <= (c_xi c ^ 2 * T) ^ 2 * (c_mr c * T) ^ 3 * (v0 / 2 + c_theta c / 5).
Proof. exact c3_small_close. Qed.
Print Assumptions C29_avg_third_small.
(** mean and variance of the log-price over forward *)
Theorem C29_logp_mean : forall k th xi rho, k <> 0 ->
  expectation_of k th xi rho (fun x v j => x) (fun t x v j => x + heston_logp_mean (mkSv v xi rho k th) t).
Proof. exact c_exp_X. Qed.
Print Assumptions C29_logp_mean.
Theorem C29_logp_variance : forall k th xi rho, k <> 0 -> xi <> 0 ->
  expectation_of k th xi rho (fun x v j => x ^ 2)
   (fun t x v j => (x + heston_logp_mean (mkSv v xi rho k th) t) ^ 2 + heston_logp_var (mkSv v xi rho k th) t).
Proof. exact c_exp_X2. Qed.
Print Assumptions C29_logp_variance.
(** semigroup (tower) property over consecutive steps *)
Theorem C29_mean_tower : forall c s t v, cir_mean c s (cir_mean c t v) = cir_mean c (t + s) v.
Proof. exact cir_mean_compose. Qed.
Print Assumptions C29_mean_tower.
Theorem C29_variance_tower : forall c s t v, c_mr c <> 0 ->
  cir_var c (t + s) v = cir_var c s (cir_mean c t v) + exp (- (c_mr c * s)) ^ 2 * cir_var c t v.
Proof. exact cir_var_compose. Qed.
Print Assumptions C29_variance_tower.
Theorem C29_avg_tower : forall c s t v, c_mr c <> 0 ->
  (t + s) * cir_avg_mean c (t + s) v = t * cir_avg_mean c t v + s * cir_avg_mean c s (cir_mean c t v).
Proof. exact cir_avg_mean_compose. Qed.
Print Assumptions C29_avg_tower.
Theorem C29_avg_is_time_average : forall c T v, c_mr c <> 0 -> T * cir_avg_mean c T v = RInt (fun t => cir_mean c t v) 0 T.
Proof. exact cir_avg_mean_integral. Qed.
Print Assumptions C29_avg_is_time_average.
(** transforms: integrated variance, and the law drawn by the two exact samplers *)
Theorem C29_log_mgf : forall k th xi u : R, 0 < k -> xi <> 0 -> 2 * u * xi ^ 2 < k ^ 2 -> forall rho,
  expectation_of k th xi rho (fun x v j => exp (u * j)) (fun t x v j => exp (cir_log_mgf (mkCir xi k th) u t v + u * j)).
Proof. exact log_mgf_expect. Qed.
Print Assumptions C29_log_mgf.
Theorem C29_ncx2_draw : forall k th xi u : R, 0 < k -> xi <> 0 -> u <= 0 -> forall rho,
  exists f, expectation_of k th xi rho (fun x v j => exp (u * v)) f /\
   forall t x v j, 0 < t -> f t x v j = (let '(scale, df, nonc) := cir_ncx2_args (mkCir xi k th) t v in
      exp (- (df / 2) * ln (1 - 2 * scale * u) + nonc * scale * u / (1 - 2 * scale * u))).
Proof. exact transition_expect. Qed.
Print Assumptions C29_ncx2_draw.
Theorem C29_pois_gamma_draw : forall k th xi u : R, 0 < k -> xi <> 0 -> u <= 0 -> forall t v, 0 < t -> 0 <= v ->
  let '(scale2, shape, inten) := cir_pois_gamma_args (mkCir xi k th) t v in
  let '(scale, df, nonc) := cir_ncx2_args (mkCir xi k th) t v in
  is_series (fun n => exp (- inten) * inten ^ n / INR (fact n) * exp (- (shape + INR n) * ln (1 - scale2 * u)))
    (exp (- (df / 2) * ln (1 - 2 * scale * u) + nonc * scale * u / (1 - 2 * scale * u))).
Proof. exact pois_gamma_transition. Qed.
Print Assumptions C29_pois_gamma_draw.
Theorem C29_lognormal_draw : forall mean vs, 0 <= vs ->
  gauss_expect (dfm_ln mean vs) mean /\ gauss_expect (fun z => dfm_ln mean vs z ^ 2) (mean ^ 2 * (1 + vs)).
Proof. exact dfm_ln_moments. Qed.
Print Assumptions C29_lognormal_draw.
(** the Euler/Milstein step omits sqrt(dt): with dt = 0 the state still moves; it is the Euler step exactly at dt = 1 *)
Theorem C29_euler_refuted : forall c v0 z, 0 < v0 -> 0 < c_xi c -> 0 < z -> v0 < cir_euler c false 0 v0 z.
Proof. exact euler_no_dt. Qed.
Print Assumptions C29_euler_refuted.
Theorem C29_euler_unit_step : forall c v0 z mil, cir_euler c mil 1 v0 z =
  Rmax (v0 + c_mr c * (c_theta c - v0) * 1 + sqrt v0 * c_xi c * (sqrt 1 * z) + (if mil then c_xi c ^ 2 / 4 * 1 * (z ^ 2 - 1) else 0)) 0.
Proof. exact euler_unit_dt. Qed.
Print Assumptions C29_euler_unit_step.
Example C29_ex : expectation_of 2 (/ 25) (/ 2) (- / 2) (fun x v j => exp (1 * j)) (fun t x v j => exp (cir_log_mgf (mkCir (/ 2) 2 (/ 25)) 1 t v + 1 * j)).
Proof. apply C29_log_mgf; lra. Qed.

(** *** C62: the variance-swap strike is the time average of the expected squared log-returns over n equal periods;
    [second]: conditional second moment of one period's return, [total]: its expectation seen from today *)
Theorem C62_var_swap : forall (p : svp) (r q T : R) (n : nat),
  0 < v_mr p -> v_vov p <> 0 -> 0 < T -> (0 < n)%nat ->
  let dt := T / INR n in
  let E_of := expectation_of (v_mr p) (v_theta p) (v_vov p) (v_rho p) in
  exists second total : R -> R -> R -> R -> R,
    E_of (fun x v j => (x + (r - q) * dt) ^ 2) second /\
    E_of (fun x v j => second dt 0 v 0) total /\
    heston_var_swap p r q T dt = / T * rsum n (fun i => total (INR i * dt) 0 (v_sigma p) 0).
Proof. exact var_swap_expect. Qed.
Print Assumptions C62_var_swap.
Lemma var_swap_cont_eq p T : v_mr p <> 0 -> T <> 0 ->
  heston_var_swap_cont p T = / T * RInt (fun t => cir_mean (heston_cir p) t (v_sigma p)) 0 T.
Proof. intros Hk HT. rewrite <- cir_avg_mean_integral by exact Hk. unfold heston_var_swap_cont, cir_avg_mean, heston_cir; cbn. field. exact HT. Qed.
Theorem C62_var_swap_continuous : forall p T, v_mr p <> 0 -> T <> 0 ->
  heston_var_swap_cont p T = / T * RInt (fun t => cir_mean (heston_cir p) t (v_sigma p)) 0 T.
Proof. exact var_swap_cont_eq. Qed.
Print Assumptions C62_var_swap_continuous.
Example C62_ex : exists second total : R -> R -> R -> R -> R,
    expectation_of 1 (/ 25) (/ 2) (- / 2) (fun x v j => (x + (/ 50 - 0) * (1 / INR 12)) ^ 2) second /\
    expectation_of 1 (/ 25) (/ 2) (- / 2) (fun x v j => second (1 / INR 12) 0 v 0) total /\
    heston_var_swap (mkSv (/ 20) (/ 2) (- / 2) 1 (/ 25)) (/ 50) 0 1 (1 / INR 12) = / 1 * rsum 12 (fun i => total (INR i * (1 / INR 12)) 0 (/ 20) 0).
Proof. apply (C62_var_swap (mkSv (/ 20) (/ 2) (- / 2) 1 (/ 25)) (/ 50) 0 1 12); cbn; try lra; lia. Qed.
