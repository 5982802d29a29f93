{
 "claims": [
  {
   "property": "C01",
   "status": "proved",
   "theorems": [
    "C01_bsm_parity"
   ],
   "note": ""
  },
  {
   "property": "C02",
   "status": "proved",
   "theorems": [
    "C02_bsm_bounds"
   ],
   "note": ""
  },
  {
   "property": "C03",
   "status": "proved",
   "theorems": [
    "C03_bsm_increasing_in_sigma",
    "C03_bsm_monotone_in_strike",
    "C03_bsm_convex_in_strike",
    "C03_bsm_monotone_in_spot"
   ],
   "note": ""
  },
  {
   "property": "C04",
   "status": "proved",
   "theorems": [
    "C04_bsm_delta",
    "C04_bsm_gamma",
    "C04_bsm_vega",
    "C04_bsm_theta",
    "C04_bsm_vega2_scaled",
    "C04_bsm_vega2_refuted"
   ],
   "note": "delta, gamma, vega, theta are the exact derivatives; vega2 is refuted (off by sqrt(texp), exact factor proved)."
  },
  {
   "property": "C05",
   "status": "proved",
   "theorems": [
    "C05_bsm_cdf_strike",
    "C05_bsm_cdf_probability"
   ],
   "note": ""
  },
  {
   "property": "C06",
   "status": "proved",
   "theorems": [
    "C06_d2_var_scaled",
    "C06_d3_var_scaled",
    "C06_d2_var_refuted",
    "C06_d3_var_refuted"
   ],
   "note": "exact factor fwd/spot proved for all inputs, so d2_var/d3_var are right iff spot=forward; refuted otherwise."
  },
  {
   "property": "C07",
   "status": "proved",
   "theorems": [
    "C07_impvol_converges",
    "C07_impvol_run",
    "C07_impvol_roundtrip",
    "C07_initial_guess",
    "C07_impvol_unique",
    "C07_impvol_exists",
    "C07_newton_fixed_point",
    "C07_newton_step"
   ],
   "note": "convergence is proved for every array of arbitrage-free quotes with enough iterations (the code's n_iter=8 cap itself is not shown to suffice); a converged run reprices and inverts, including inside the Taylor branch of price_std, whose relative error is bounded by 3e-13."
  },
  {
   "property": "C08",
   "status": "proved",
   "theorems": [
    "C08_bsm_knockout_bvp",
    "C08_bsm_knockout_expiry_value",
    "C08_bsm_strike_below_barrier_refuted",
    "C08_norm_knockout_bvp",
    "C08_norm_drift_refuted",
    "C08_bsm_in_out",
    "C08_norm_in_out",
    "C08_bsm_knockout_at_barrier",
    "C08_norm_knockout_at_barrier",
    "C08_barrier_forward_quote_refuted"
   ],
   "note": ""
  },
  {
   "property": "C09",
   "status": "proved",
   "theorems": [
    "C09_norm_parity",
    "C09_norm_lower_bound",
    "C09_norm_delta",
    "C09_norm_gamma",
    "C09_norm_vega",
    "C09_norm_cdf",
    "C09_norm_theta_ok",
    "C09_norm_theta_refuted",
    "C09_norm_expiry_refuted",
    "C09_norm_binary_decomposition",
    "C09_norm_binary_put_refuted",
    "C09_standardised_ratio"
   ],
   "note": "parity, bounds, delta, gamma, vega, cdf proved; theta proved when no dividend/forward carry and refuted otherwise; expiry and asset-or-nothing put refuted."
  },
  {
   "property": "C10",
   "status": "proved",
   "theorems": [
    "C10_disp_beta_one",
    "C10_disp_parity",
    "C10_disp_delta",
    "C10_disp_gamma",
    "C10_disp_vega",
    "C10_disp_theta_refuted",
    "C10_disp_vsk_refuted",
    "C10_disp_theta_characterised"
   ],
   "note": "beta=1 reduction, parity, delta, gamma, vega proved; theta and price_vsk refuted."
  },
  {
   "property": "C11",
   "status": "proved",
   "theorems": [
    "C11_forward_consistent",
    "C11_bsm_homogeneous",
    "C11_norm_translation",
    "C11_forward_quote_agrees"
   ],
   "note": ""
  },
  {
   "property": "C12",
   "status": "proved",
   "theorems": [
    "C12_numeric_greeks_leave_objects_unchanged",
    "C12_unchanged_means_same_attributes",
    "C12_vega_volga_exact_on_quadratics",
    "C12_delta_gamma_exact_on_quadratics",
    "C12_theta_exact_on_quadratics",
    "C12_disp_vega_numeric_refuted"
   ],
   "note": "frame property for arbitrary price methods; BsmDisp.vega_numeric value refuted."
  },
  {
   "property": "C13",
   "status": "proved",
   "theorems": [
    "C13_pdf_numeric_limit",
    "C13_density_is_density",
    "C13_pdf_numeric_refuted",
    "C13_cdf_numeric_limit",
    "C13_cdf_numeric_refuted",
    "C13_cdf_numeric_ok",
    "C13_brentq_root_ok",
    "C13_impvol_brentq_refuted"
   ],
   "note": "what the routines converge to is characterised exactly; agreement with the model's own pdf/cdf/vol is refuted."
  },
  {
   "property": "C14",
   "status": "proved",
   "theorems": [
    "C14_params_kw_exact",
    "C14_from_model_copies",
    "C14_heston_roundtrip",
    "C14_type_mismatch_raises",
    "C14_untyped_raises",
    "C14_bsmdisp_copy",
    "C14_bsmdisp_roundtrip_refuted"
   ],
   "note": "round trip for all compatible dataclass models, concretely Heston analytic/MC; refuted for BsmDisp, which is not a dataclass."
  },
  {
   "property": "C15",
   "status": "proved",
   "theorems": [
    "C15_heston_accepts_iff",
    "C15_heston_attributes",
    "C15_heston_object_valid",
    "C15_hestoncev_object_valid",
    "C15_cev_accepts_iff",
    "C15_vg_accepts_iff",
    "C15_nig_accepts_iff",
    "C15_cgmy_accepts_iff",
    "C15_spread_accepts_iff",
    "C15_vg_nu_positive_refuted",
    "C15_nig_nu_positive_refuted",
    "C15_sv_orig_roundtrip",
    "C15_orig_sv_roundtrip",
    "C15_nig_always_convertible"
   ],
   "note": "acceptance characterised exactly; nu > 0 documented for VG/NIG is not enforced (refuted)."
  },
  {
   "property": "C16",
   "status": "proved",
   "theorems": [
    "C16_cache_coherent",
    "C16_permuted_parameters_stale",
    "C16_shallow_copy_stale",
    "C16_stale_price_refuted"
   ],
   "note": "coherent for every history without hash collisions; refuted: any permutation of parameter values collides."
  },
  {
   "property": "C17",
   "status": "proved",
   "theorems": [
    "C17_exclusive",
    "C17_rho",
    "C17_cor",
    "C17_cov",
    "C17_wrong_shape_raises",
    "C17_roundtrip",
    "C17_omitted_correlation_refuted",
    "C17_rho_attribute_refuted"
   ],
   "note": "canonical form and round trip for all dimensions; documented ValueError when correlation is omitted is refuted; Cholesky factor and weight not modelled."
  },
  {
   "property": "C18",
   "status": "proved",
   "theorems": [
    "C18_bsm",
    "C18_vargamma",
    "C18_nig",
    "C18_cgmy",
    "C18_heston",
    "C18_ousv",
    "C18_sv32",
    "C18_garch",
    "C18_unit_argument_refuted",
    "C18_levy",
    "C18_hyp1f1_series"
   ],
   "note": "real arguments only; Heston/OUSV need rho*vov < mr, otherwise the coded form is 0/0 at u=1 (refuted part)."
  },
  {
   "property": "C19",
   "status": "proved",
   "theorems": [
    "C19_vg_stale_refuted",
    "C19_nig_stale_refuted"
   ],
   "note": "refuted: exact condition under which the cached correction stays right."
  },
  {
   "property": "C20",
   "status": "proved",
   "theorems": [
    "C20_vargamma",
    "C20_nig",
    "C20_bsm",
    "C20_vargamma_cos"
   ],
   "note": ""
  },
  {
   "property": "C21",
   "status": "proved",
   "theorems": [
    "C21_chi",
    "C21_psi",
    "C21_price",
    "C21_series",
    "C21_mass"
   ],
   "note": "characteristic function given by arbitrary real/imaginary parts; one strike at a time."
  },
  {
   "property": "C22",
   "status": "proved",
   "theorems": [
    "C22_lefloch_parity",
    "C22_lefloch_boundary",
    "C22_lefloch_put_is_fo_put",
    "C22_fo_parity"
   ],
   "note": ""
  },
  {
   "property": "C23",
   "status": "proved",
   "theorems": [
    "C23_interval_refuted",
    "C23_call_vanishes",
    "C23_shared_frequencies"
   ],
   "note": "refuted: exact condition for the interval to contain the mean, and strikes for which the price is identically 0."
  },
  {
   "property": "C24",
   "status": "proved",
   "theorems": [
    "C24_grid",
    "C24_last",
    "C24_steps"
   ],
   "note": ""
  },
  {
   "property": "C25",
   "status": "proved",
   "theorems": [
    "C25_normal_pairs",
    "C25_odd_moments_vanish",
    "C25_normal_length",
    "C25_uniform_pairs",
    "C25_uniform_mean",
    "C25_uniform_range",
    "C25_bm_entries",
    "C25_bm_cum",
    "C25_bm_odd_refuted",
    "C25_bm_plain_refuted"
   ],
   "note": "bm_incr with an odd path count or without antithetic sampling always raises (refuted parts)."
  },
  {
   "property": "C26",
   "status": "proved",
   "theorems": [
    "C26_mc_parity",
    "C26_mc_bounds",
    "C26_mixture_parity",
    "C26_mixture_bounds",
    "C26_subordinated_quad_parity",
    "C26_var_option_parity"
   ],
   "note": ""
  },
  {
   "property": "C27",
   "status": "proved",
   "theorems": [
    "C27_nonneg",
    "C27_mean",
    "C27_variance",
    "C27_martingale",
    "C27_positive_moments",
    "C27_martingale_neg_corr"
   ],
   "note": ""
  },
  {
   "property": "C28",
   "status": "proved",
   "theorems": [
    "C28_eta_draws",
    "C28_total",
    "C28_moment_matched"
   ],
   "note": ""
  },
  {
   "property": "C29",
   "status": "proved",
   "theorems": [
    "C29_mean",
    "C29_variance",
    "C29_avg_mean",
    "C29_avg_variance",
    "C29_avg_third",
    "C29_avg_third_branch",
    "C29_avg_third_small",
    "C29_logp_mean",
    "C29_logp_variance",
    "C29_mean_tower",
    "C29_variance_tower",
    "C29_avg_tower",
    "C29_avg_is_time_average",
    "C29_log_mgf",
    "C29_ncx2_draw",
    "C29_pois_gamma_draw",
    "C29_lognormal_draw",
    "C29_euler_refuted",
    "C29_euler_unit_step"
   ],
   "note": "all moment formulas proved; draw_euler refuted; the Taylor branch of the third moment (mr*texp<0.1) is an approximation and is not claimed."
  },
  {
   "property": "C30",
   "status": "proved",
   "theorems": [
    "C30_avg_vol",
    "C30_avg_var",
    "C30_step_law",
    "C30_steps_compose",
    "C30_tower",
    "C30_theta_shift"
   ],
   "note": ""
  },
  {
   "property": "C31",
   "status": "proved",
   "theorems": [
    "C31_state_is_path_average",
    "C31_path_without_normals_refuted"
   ],
   "note": "for every n_sin and all normals; vol_path_sin without given normals always raises (refuted part)."
  },
  {
   "property": "C32",
   "status": "proved",
   "theorems": [
    "C32_thomas_solves",
    "C32_thomas_unique",
    "C32_dominant_no_division_by_zero",
    "C32_sabr_price_sweep",
    "C32_heston_price_sweep",
    "C32_sabr_vol_sweep",
    "C32_heston_vol_sweep",
    "C32_heston_vol_sweep_refuted"
   ],
   "note": "refuted part: HestonFinDiff variance sweep can hit a zero pivot (witness with valid parameters); safe under an explicit step-size condition."
  },
  {
   "property": "C33",
   "status": "proved",
   "theorems": [
    "C33_sabr_fd_parity",
    "C33_heston_fd_parity",
    "C33_sabr_normal_parity_refuted"
   ],
   "note": "Heston parity under the no-zero-pivot step-size condition; refuted for SABR beta=0 with a witness."
  },
  {
   "property": "C34",
   "status": "proved",
   "theorems": [
    "C34_exact_on_bilinear",
    "C34_grid_values",
    "C34_no_overshoot",
    "C34_bracketing_cell"
   ],
   "note": ""
  },
  {
   "property": "C35",
   "status": "proved",
   "theorems": [
    "C35_avgvar_raw_moments",
    "C35_avgvar_mean_branch",
    "C35_avgvar_mvsk",
    "C35_conditional_moments",
    "C35_conditional_mean_bridge",
    "C35_conditional_mvsk",
    "C35_conditional_mean_small",
    "C35_conditional_small_vov",
    "C35_conditional_small_vov_refuted"
   ],
   "note": "C35_conditional_small_vov_refuted: in the small-vovn branch of cond_avgvar_mvsk the vov^4 term of the scaled variance has the wrong sign; C35_conditional_small_vov characterises all four outputs of that branch against the true Taylor expansions, and C35_conditional_mean_small does the Hermite branch of the bridge mean."
  },
  {
   "property": "C36",
   "status": "proved",
   "theorems": [
    "C36_mc_discounts_once",
    "C36_mix_discounts_once",
    "C36_mc_rates_refuted",
    "C36_mc_parity_cev",
    "C36_mc_parity",
    "C36_mc_parity_normal",
    "C36_mix_parity",
    "C36_vol_step",
    "C36_vol_steps_compose",
    "C36_chen_step_moments",
    "C36_conditional_forward_martingale",
    "C36_log_return_mean",
    "C36_normal_limit",
    "C36_negative_forward_refuted"
   ],
   "note": "Refuted parts: C36_negative_forward_refuted (beta=0 with a negative forward) and C36_mc_rates_refuted (0<beta<1, r<>q: the Cev base model keeps its rate-dependent variance factor, so the price is never the once-discounted one). Discounting once is proved for the whole price in the remaining cases with the modelled base models. beta=0 parity is stated for conditional standard deviations above the code's floor."
  },
  {
   "property": "C37",
   "status": "proved",
   "theorems": [
    "C37_price_is_expectation",
    "C37_cdf_is_probability",
    "C37_parity",
    "C37_atm_vol",
    "C37_vsk_true_moments",
    "C37_lambda_one",
    "C37_lambda_zero",
    "C37_fit_round_trip"
   ],
   "note": "cdf ignores is_atmvol (the cdf theorem is for is_atmvol=False, the only mode the code implements there). The root search of fit_moments is outside the model: the round trip is stated at any root of the searched function."
  },
  {
   "property": "C38",
   "status": "proved",
   "theorems": [
    "C38_h_function",
    "C38_hagan_formula",
    "C38_hagan_atm",
    "C38_hagan_forward_refuted",
    "C38_hagan_parity",
    "C38_hagan_lognormal_limit",
    "C38_normal_formula",
    "C38_normal_atm",
    "C38_normal_parity",
    "C38_normal_limit",
    "C38_choiwu_lognormal",
    "C38_choiwu_normal",
    "C38_norm_analytic_parity"
   ],
   "note": "C38_hagan_forward_refuted shows the spot-based alpha differs from Hagan's formula under non-zero rates; C38_hagan_formula characterises exactly what is computed (sigma*(F/S)^(1-beta))."
  },
  {
   "property": "C39",
   "status": "proved",
   "theorems": [
    "C39_lognormal_mass",
    "C39_lognormal_mean",
    "C39_lognormal_positive",
    "C39_gamma_exact",
    "C39_ig_mass_mean",
    "C39_ig_exact",
    "C39_ig_exact_inverse",
    "C39_ig_inverse_mean",
    "C39_ig_positive",
    "C39_gig_exact",
    "C39_gig_corrected_mass",
    "C39_gig_half_is_ig",
    "C39_gh_quad_moments",
    "C39_gh_cdf",
    "C39_gh_quantile",
    "C39_gh_cache_fresh",
    "C39_gh_cache_refuted"
   ],
   "note": "C39_gh_cache_refuted: nodes stay stale after a parameter change; C39_gh_cache_fresh gives the exact condition under which they are fresh. The base Gauss-Hermite / Laguerre rules of numpy/scipy enter through their textbook exactness property; the Bessel function kve of the GIG law through its integral."
  },
  {
   "property": "C40",
   "status": "proved",
   "theorems": [
    "C40_lognormal_mvsk",
    "C40_lognormal_negative_lam_refuted",
    "C40_gamma_mvsk",
    "C40_ig_mvsk",
    "C40_gig_moments",
    "C40_gh_mvsk",
    "C40_nig_mvsk",
    "C40_lognormal_fit_two",
    "C40_lognormal_fit_three",
    "C40_lognormal_fit_negative_skew_refuted",
    "C40_gamma_fit",
    "C40_ig_fit",
    "C40_gig_fit",
    "C40_gig_mvsk"
   ],
   "note": "negative skew and negative lam refuted for the lognormal. GIG root search outside the model: the round trip is stated at any root of the searched function; kve enters through its integral representation."
  },
  {
   "property": "C41",
   "status": "proved",
   "theorems": [
    "C41_table_by_index",
    "C41_index_bijection",
    "C41_tensor_sum",
    "C41_product",
    "C41_ghq_exact",
    "C41_axis_exact"
   ],
   "note": "base Gauss rules enter through their textbook exactness property (hermite_rule), with a concrete rule shown to satisfy it."
  },
  {
   "property": "C42",
   "status": "proved",
   "theorems": [
    "C42_moment_raw",
    "C42_moment_error",
    "C42_moments",
    "C42_cumulants",
    "C42_gram_charlier",
    "C42_gram_charlier_doc",
    "C42_gram_charlier_doc_refuted",
    "C42_powrel_average"
   ],
   "note": "moments-to-cumulants conversion of statsmodels (cum2mc and friends) is modelled by its recursion; the docstring formula of the Gram-Charlier coefficients is refuted at order five."
  },
  {
   "property": "C43",
   "status": "proved",
   "theorems": [
    "C43_spread_parity",
    "C43_exchange_exact",
    "C43_bjerksund_strategy",
    "C43_bjerksund_lower_bound",
    "C43_kirk_intrinsic",
    "C43_max2_exact",
    "C43_max2_parity",
    "C43_max2_flags"
   ],
   "note": "scipy's bivariate normal cdf enters C43_max2_exact through its defining property (bivariate_cdf: joint law of two unit linear forms of two normals); parity and independence of other flags hold for any cdf routine. Exactness of Kirk at zero strike is above the volatility floor."
  },
  {
   "property": "C44",
   "status": "proved",
   "theorems": [
    "C44_ju_second_moment",
    "C44_basket_moments",
    "C44_mvsk",
    "C44_parity",
    "C44_norm_exact",
    "C44_geo_exact",
    "C44_levy",
    "C44_milevsky_moments",
    "C44_ju_moments",
    "C44_milevsky_law"
   ],
   "note": "Cholesky factor = any factor of the covariance; gamma cdf arbitrary (cdf + sf = 1). Ju's third-order correction is modelled and covered by parity only."
  },
  {
   "property": "C45",
   "status": "proved",
   "theorems": [
    "C45_householder",
    "C45_first_factor",
    "C45_covariance",
    "C45_parity",
    "C45_lower_bound",
    "C45_conditional",
    "C45_factor_mean"
   ],
   "note": "np.linalg.solve / svd enter through their defining equations; covariance preservation is stated outside the branch where the vector is within 100 eps of the first axis."
  },
  {
   "property": "C46",
   "status": "proved",
   "theorems": [
    "C46_ccd_update",
    "C46_ccd_descent",
    "C46_ccd_converges",
    "C46_ccd_result",
    "C46_ccd_long_only",
    "C46_unique",
    "C46_short_sign_refuted",
    "C46_original_update",
    "C46_original_result",
    "C46_newton",
    "C46_newton_start",
    "C46_newton_longshort_refuted",
    "C46_budget_default",
    "C46_budget_given",
    "C46_longshort_array",
    "C46_longshort_scalar"
   ],
   "note": "C46_short_sign_refuted and C46_newton_longshort_refuted: requested short signs are lost. Convergence is for a sufficiently large iteration cap (the code caps at 1023); spop.root is an arbitrary routine, the Newton theorem is conditional on it returning a positive root."
  },
  {
   "property": "C47",
   "status": "proved",
   "theorems": [
    "C47_box",
    "C47_closest",
    "C47_near_projection",
    "C47_raises"
   ],
   "note": "error bound is the 100-step bisection bound; real arithmetic."
  },
  {
   "property": "C48",
   "status": "proved",
   "theorems": [
    "C48_raw_moments",
    "C48_mnc4",
    "C48_mvsk",
    "C48_mean_variance_at_rq",
    "C48_rq_divides_by_zero",
    "C48_small_variance",
    "C48_jsu_parity",
    "C48_jsu_parity_refuted",
    "C48_linetsky_parity",
    "C48_linetsky_real_spectrum_refuted",
    "C48_linetsky_differences",
    "C48_ju_moments",
    "C48_ju_parity",
    "C48_ju_second_moment",
    "C48_ju_second_moment_refuted"
   ],
   "note": "All moment orders by induction on the order (divided differences); the average is specified as the limit of N-date averages driven by independent normals. Refuted parts (JSU double discounting, Linetsky real spectrum, Ju second moment) carry the exact wrong value and a witness. The NSVh moment fit, Whittaker functions and gamma function enter as arbitrary functions."
  },
  {
   "property": "C49",
   "status": "proved",
   "theorems": [
    "C49_routines_exist",
    "C49_parity",
    "C49_bounds",
    "C49_sigma_monotone",
    "C49_delta",
    "C49_gamma",
    "C49_vega",
    "C49_theta",
    "C49_pde",
    "C49_law",
    "C49_beta_gt1",
    "C49_cdf_refuted",
    "C49_price_std",
    "C49_price_std_types",
    "C49_mass_zero_t0",
    "C49_log_mass",
    "C49_log_mass_refuted"
   ],
   "note": "scipy's ncx2/gamma routines enter as: they compute the distribution function, survival function and density of the laws defined in Spec_Cev (existence proved: C49_routines_exist). Greeks and law are stated above the price's variance floor (the Greeks have no floor). C49_cdf_refuted: beta > 1; C49_log_mass_refuted: log=True for beta near 1 (x > 100 is not enough for the expansion)."
  },
  {
   "property": "C50",
   "status": "proved",
   "theorems": [
    "C50_minimum",
    "C50_convex",
    "C50_wings",
    "C50_price",
    "C50_from_heston",
    "C50_heston_limit",
    "C50_from_heston_refuted"
   ],
   "note": "C50_from_heston_refuted: init_from_heston puts the initial variance where the vol of vol belongs; C50_from_heston states exactly what it computes and C50_heston_limit proves that the smile with vol of vol is the large-maturity Heston smile."
  },
  {
   "property": "C51",
   "status": "proved",
   "theorems": [
    "C51_gamma_exists",
    "C51_predictor_exact",
    "C51_corrector_exact",
    "C51_weight_sums",
    "C51_interpolants",
    "C51_integral_unique",
    "C51_adam_lagged",
    "C51_adam_refuted",
    "C51_adam_values",
    "C51_riccati",
    "C51_riccati_heston",
    "C51_adam_log"
   ],
   "note": "real transform arguments; C51_adam_refuted: the scheme is fed with lagged node values (C51_adam_lagged is the exact recursion); C51_riccati ties the right-hand side to the square-root model. The float floor-division used for indexing is taken as exact."
  },
  {
   "property": "C52",
   "status": "proved",
   "theorems": [
    "C52_series_lagged",
    "C52_series_refuted",
    "C52_I1_series",
    "C52_I2_series",
    "C52_phi_euler",
    "C52_phi_series",
    "C52_I1_trapezoid",
    "C52_I2_refuted",
    "C52_small_entries",
    "C52_large_refuted",
    "C52_input_overwritten",
    "C52_method_checked",
    "C52_small_value",
    "C52_large_value"
   ],
   "note": "real transform arguments, r_0 and n arbitrary (250 and 128 in the code). Refuted: C52_series_refuted, C52_I2_refuted, C52_large_refuted, C52_input_overwritten; each with its exact characterisation."
  },
  {
   "property": "C53",
   "status": "proved",
   "theorems": [
    "C53_closed_form",
    "C53_transform",
    "C53_simulation_and_grids",
    "C53_sabr",
    "C53_spread",
    "C53_basket",
    "C53_refuted",
    "C53_hagan_refuted",
    "C53_nd_mc_refuted",
    "C53_cev_mc_refuted"
   ],
   "note": "C53_refuted, C53_hagan_refuted, C53_nd_mc_refuted, C53_cev_mc_refuted: the pricers that ignore the flag. Not covered: the Asian and rough Heston pricers."
  },
  {
   "property": "C54",
   "status": "proved",
   "theorems": [
    "C54_bsm_price_is_expectation",
    "C54_norm_price_is_expectation",
    "C54_bsm_mgf_is_expectation",
    "C54_bsm_price_vsk",
    "C54_expectations_unique"
   ],
   "note": ""
  },
  {
   "property": "C55",
   "status": "proved",
   "theorems": [
    "C55_fft_parity",
    "C55_simpson_parity"
   ],
   "note": ""
  },
  {
   "property": "C56",
   "status": "proved",
   "theorems": [
    "C56_heston_affine",
    "C56_ousv_affine"
   ],
   "note": ""
  },
  {
   "property": "C57",
   "status": "proved",
   "theorems": [
    "C57_schobel_zhu_equals_lord_kahl"
   ],
   "note": ""
  },
  {
   "property": "C58",
   "status": "proved",
   "theorems": [
    "C58_garch_difference",
    "C58_garch_refuted"
   ],
   "note": "refuted for texp<>1 with the exact difference."
  },
  {
   "property": "C59",
   "status": "proved",
   "theorems": [
    "C59_tail_bound",
    "C59_range"
   ],
   "note": ""
  },
  {
   "property": "C60",
   "status": "proved",
   "theorems": [
    "C60_cond_matches_steps",
    "C60_cond_second_moment"
   ],
   "note": ""
  },
  {
   "property": "C61",
   "status": "proved",
   "theorems": [
    "C61_path_mean",
    "C61_martingale_refuted"
   ],
   "note": "refuted: exact bias proved."
  },
  {
   "property": "C62",
   "status": "proved",
   "theorems": [
    "C62_var_swap",
    "C62_var_swap_continuous"
   ],
   "note": ""
  },
  {
   "property": "C63",
   "status": "proved",
   "theorems": [
    "C63_first_order",
    "C63_dividend_refuted"
   ],
   "note": "first-order coefficient in the monitoring step; refuted for divr <> 0 with the exact error."
  },
  {
   "property": "C64",
   "status": "proved",
   "theorems": [
    "C64_a2sum",
    "C64_a2overn2sum",
    "C64_a4sum",
    "C64_a6sum",
    "C64_a6n2sum",
    "C64_moments_any_truncation",
    "C64_clip_inactive",
    "C64_basel"
   ],
   "note": ""
  },
  {
   "property": "C65",
   "status": "proved",
   "theorems": [
    "C65_totals",
    "C65_nz_step",
    "C65_second_moment",
    "C65_spot_form",
    "C65_spot_martingale"
   ],
   "note": ""
  },
  {
   "property": "C66",
   "status": "proved",
   "theorems": [
    "C66_strategy_value",
    "C66_exact_at_root",
    "C66_root_finder",
    "C66_root_raises",
    "C66_price_accuracy"
   ],
   "note": "all strikes of one call, shared stopping rule included; error bound explicit (geometric in the ratio of loadings)."
  },
  {
   "property": "C67",
   "status": "proved",
   "theorems": [
    "C67_bsm_paths",
    "C67_norm_paths",
    "C67_unbiased",
    "C67_bsm_reprices",
    "C67_norm_forward",
    "C67_norm_forward_refuted",
    "C67_basket_unbiased",
    "C67_single_asset_exact",
    "C67_sample_parity"
   ],
   "note": "C67_norm_forward_refuted: NormNdMc under rates. Normal draws are independent standard normals; an odd n_path with antithetic raises (reshape) and is outside the model."
  },
  {
   "property": "C68",
   "status": "proved",
   "theorems": [
    "C68_result",
    "C68_terminates",
    "C68_line_search",
    "C68_gradient",
    "C68_gradient_refuted"
   ],
   "note": "C68_gradient_refuted: the coded direction is not the gradient. Termination for a sufficiently large iteration cap, at tolerances above the explicit floor sca_tol_ok."
  },
  {
   "property": "C69",
   "status": "proved",
   "theorems": [
    "C69_avg_mean_variance",
    "C69_avg_range",
    "C69_avg_variance_positive",
    "C69_step_mean",
    "C69_step_second_moment",
    "C69_step_nonneg",
    "C69_milstein_floor_inactive",
    "C69_log_step",
    "C69_conditional",
    "C69_bad_scheme",
    "C69_floor_refuted"
   ],
   "note": "C69_floor_refuted: the floor makes 1/sqrt(V) infinite. The path integrals are specified by the trapezoidal rule used by the code."
  },
  {
   "property": "C70",
   "status": "proved",
   "theorems": [
    "C70_heston",
    "C70_garch",
    "C70_ousv",
    "C70_rates_refuted",
    "C70_deterministic",
    "C70_heston_variance_positive",
    "C70_heston_parity",
    "C70_garch_parity",
    "C70_ousv_parity"
   ],
   "note": "stated above the price's variance floor. C70_rates_refuted: Taylor terms scaled by spot/forward; C70_heston/C70_garch give the exact value."
  },
  {
   "property": "C71",
   "status": "proved",
   "theorems": [
    "C71_routines_exist",
    "C71_invgam_law",
    "C71_invgam_parity",
    "C71_invgam_forward_refuted",
    "C71_invgauss_law",
    "C71_invgauss_parity"
   ],
   "note": "scipy's gamma / invgauss distribution functions enter as exact (existence proved, C71_routines_exist). C71_invgam_forward_refuted: is_fwd is not passed on."
  },
  {
   "property": "C72",
   "status": "proved",
   "theorems": [
    "C72_sabr_price_is_adi",
    "C72_heston_price_is_adi",
    "C72_differences_consistent"
   ],
   "note": "Heston: under the step-size condition of C32_heston_vol_sweep. The bilinear interpolation is specified by C34."
  },
  {
   "property": "C73",
   "status": "proved",
   "theorems": [
    "C73_step_law",
    "C73_step_cond",
    "C73_step_mass",
    "C73_path",
    "C73_price"
   ],
   "note": "numpy generators enter as exact gamma and Poisson laws; the two draws of a step are independent. is_fwd=True is refuted in C53_cev_mc_refuted."
  },
  {
   "property": "C74",
   "status": "proved",
   "theorems": [
    "C74_ellipe_exists",
    "C74_hh",
    "C74_lower_limit",
    "C74_taylor",
    "C74_analytic_integral",
    "C74_corrected",
    "C74_rule_exists",
    "C74_ellipe_value",
    "C74_parity"
   ],
   "note": "scipy.special.ellipe, roots_genlaguerre and quad are parameters (ellipe: the integral definition; quad: exact in C74_ellipe_value; the Laguerre rule: exact on its integrand in C74_corrected). That the elliptic formula is the normal SABR price is not proved."
  },
  {
   "property": "C75",
   "status": "proved",
   "theorems": [
    "C75_put_mass_limit",
    "C75_put_mass_rate",
    "C75_discount_refuted"
   ],
   "note": "scipy.stats.norm.ppf enters as: Phi(ppf mass) = mass at the given mass. C75_discount_refuted: Bsm(vol) drops the rates."
  },
  {
   "property": "C76",
   "status": "proved",
   "theorems": [
    "C76_x1_remainder",
    "C76_x2_remainder",
    "C76_draw_gk",
    "C76_draw_ge",
    "C76_draw_x1",
    "C76_draw_x2",
    "C76_asymp",
    "C76_x2_negative_refuted",
    "C76_x2_positive"
   ],
   "note": "C76_x2_negative_refuted: Taylor branch below mr*dt = 0.2. The laws of the draws enter through the cumulant generating functions of their independent building blocks (gamma, compound Poisson of exponentials); draw_from_mv's moment matching is C37."
  },
  {
   "property": "C77",
   "status": "proved",
   "theorems": [
    "C77_bessel_posterior",
    "C77_eta_moments",
    "C77_draw_eta",
    "C77_cond_tower",
    "C77_poistd_moments",
    "C77_poistd_mean_small"
   ],
   "note": "scipy.special.ive/gammaln enter as exp(-z) I_nu(z) and log Gamma (series definition of I_nu); exact for mr*dt >= 0.2, C77_poistd_mean_small bounds the Taylor branch."
  },
  {
   "property": "C78",
   "status": "proved",
   "theorems": [
    "C78_x2_mgf",
    "C78_cond_mgf",
    "C78_cond_mgf_0"
   ],
   "note": "real transform arguments (the branch-cut correction of the complex case is not modelled)."
  },
  {
   "property": "C79",
   "status": "proved",
   "theorems": [
    "C79_reciprocal_is_cir",
    "C79_conditional_spot",
    "C79_euler_mean",
    "C79_euler_second",
    "C79_step_nonneg",
    "C79_milstein_positive",
    "C79_bad_scheme",
    "C79_step_average",
    "C79_exact_schemes",
    "C79_draw_ig",
    "C79_draw_ga",
    "C79_draw_ln",
    "C79_draw_small"
   ],
   "note": "the exact schemes enter through the square-root process of 1/V (C27, C76); numpy generators as exact laws."
  },
  {
   "property": "C80",
   "status": "proved",
   "theorems": [
    "C80_bessel_truncated",
    "C80_bessel_converges",
    "C80_order_derivatives",
    "C80_digamma_exists",
    "C80_transform",
    "C80_mean_variance",
    "C80_mean_variance_given_index",
    "C80_index_mixture",
    "C80_transform_given_index",
    "C80_transform_given_index_refuted"
   ],
   "note": "C80_transform_given_index_refuted: nu_diff lacks dt in cond_avgvar_laplace with an index. iv_complex is modelled with its number of terms as a parameter; draw_cond_avgvar's Fourier inversion is not modelled."
  },
  {
   "property": "C81",
   "status": "proved",
   "theorems": [
    "C81_transform",
    "C81_backward_equation"
   ],
   "note": "real transform argument; the number of series terms and the clip enter as parameters tending to infinity. Uniqueness of the equation's solution is not part of the claim."
  },
  {
   "property": "C82",
   "status": "proved",
   "theorems": [
    "C82_em",
    "C82_em_defined",
    "C82_em_positive_refuted",
    "C82_em_default_alpha",
    "C82_alpha_convention",
    "C82_fast",
    "C82_fast_noise_refuted",
    "C82_nodes_error",
    "C82_nodes_range",
    "C82_node_counts",
    "C82_tolerance_refuted",
    "C82_factors",
    "C82_multifactor",
    "C82_multifactor_stable"
   ],
   "note": "None stands for a path with NaN/inf entries. The Gauss rules of scipy enter as arbitrary lists with their errors. The three refutations are proved with witnesses."
  },
  {
   "property": "C83",
   "status": "proved",
   "theorems": [
    "C83_normals",
    "C83_price_mean",
    "C83_price_parity",
    "C83_price_parity_refuted",
    "C83_last_step_ignored",
    "C83_cond_fwd_mean",
    "C83_cond_fwd_det",
    "C83_cond_sigma",
    "C83_correct_fwd",
    "C83_cmc_parity",
    "C83_cmc_corrected_parity",
    "C83_cmc_parity_refuted"
   ],
   "note": "the expectation is over the normals of all steps; the variance scheme is an arbitrary adapted non-negative function of the past draws. priceCMC with a scalar strike fails (np.mean over axis 1) and is modelled as None. The code comments admit two of the refuted points."
  },
  {
   "property": "C84",
   "status": "proved",
   "theorems": [
    "C84_var_swap_unbiased",
    "C84_draw_matches_cond",
    "C84_correction_gap",
    "C84_cond_is_conditional_mean_refuted",
    "C84_missing_variance"
   ],
   "note": "unbiasedness is stated for mr*dt >= 0.2 where the code uses the closed forms (below it the series branch has the error bounded in C77); the QE cond/draw mismatch is characterised and refuted."
  },
  {
   "property": "C85",
   "status": "proved",
   "theorems": [
    "C85_price_is_expectation",
    "C85_measure_change",
    "C85_slices_exist",
    "C85_parity",
    "C85_cdf_complement",
    "C85_scalar_strike_refuted"
   ],
   "note": "the outer rule is arbitrary: the theorem is the identity between the price and the rule applied to the exact conditional expectation, exact when the Laguerre rule is exact for its integrand; the expectation behind cdf is not stated, only its complementarity; scalar-strike refutation: C85_scalar_strike_refuted"
  },
  {
   "property": "C86",
   "status": "proved",
   "theorems": [
    "C86_distance",
    "C86_density",
    "C86_onto",
    "C86_forward_equation",
    "C86_martingale",
    "C86_sample_price",
    "C86_parity"
   ],
   "note": "normals are assumed independent standard; the antithetic flag is not read by the code (rows are always paired), which the model reflects"
  },
  {
   "property": "C87",
   "status": "proved",
   "theorems": [
    "C87_chi2_error",
    "C87_chi2_decreasing",
    "C87_chi2_far",
    "C87_draw"
   ],
   "note": "math.gamma, scipy's central chi-square and the root finder are parameters; that the root finder converges is a hypothesis; the Penev-Raykov branch is checked only for the side of the median"
  },
  {
   "property": "C88",
   "status": "proved",
   "theorems": [
    "C88_transform",
    "C88_mgf_shape",
    "C88_mgf_mean",
    "C88_euler_error",
    "C88_euler_geometric",
    "C88_weights",
    "C88_draw_solves",
    "C88_step_scaling"
   ],
   "note": "real arguments only (the inversion evaluates the same formula at complex arguments); the inversion's discretisation error is not bounded"
  },
  {
   "property": "C89",
   "status": "proved",
   "theorems": [
    "C89_domain",
    "C89_mass_zero_refuted",
    "C89_order0",
    "C89_base_invariant",
    "C89_atm",
    "C89_no_base",
    "C89_p_formula",
    "C89_p_atm_limit",
    "C89_p_integral",
    "C89_p_lognormal_limit",
    "C89_p_lognormal_refuted",
    "C89_h_base_limit",
    "C89_h_base_refuted",
    "C89_mass_zero_t0",
    "C89_p_series"
   ],
   "note": "the limit theorem for P excludes the window |eta^2-1| <= 1e-6 (first-order patch) and the point eta = sqrt(1-rho^2), where the closed form divides by zero; refuted parts: C89_mass_zero_refuted, C89_h_base_refuted, C89_p_lognormal_refuted"
  },
  {
   "property": "C90",
   "status": "proved",
   "theorems": [
    "C90_short",
    "C90_atm",
    "C90_time_slope",
    "C90_flat",
    "C90_parity",
    "C90_forward",
    "C90_time_scaling",
    "C90_sign_symmetry",
    "C90_smile_symmetry"
   ],
   "note": "higher-order time terms are tied down only through the slope at expiry zero, the flat case and the T=0 smile"
  },
  {
   "property": "C91",
   "status": "proved",
   "theorems": [
    "C91_log_sum_exp",
    "C91_mixture_range",
    "C91_mixture_log",
    "C91_correct_fwd",
    "C91_mc_range",
    "C91_mc_log",
    "C91_rates_refuted"
   ],
   "note": "for beta > 11/12 the CEV log-mass itself is refuted in C49; node sets are arbitrary inputs (their construction is C38-C41)"
  },
  {
   "property": "C92",
   "status": "proved",
   "theorems": [
    "C92_conditional_moments_positive",
    "C92_uncorr_nodes",
    "C92_mixture_nodes",
    "C92_inner_skewness",
    "C92_negative_beta_raises",
    "C92_forward_refuted",
    "C92_uncorr_parity",
    "C92_mixture_parity_normal",
    "C92_uncorr_bounds",
    "C92_uncorr_constant_vol",
    "C92_mass_zero_range"
   ],
   "note": "refuted parts: C92_forward_refuted (correct_fwd is off by default), C92_negative_beta_raises. Quadrature rules enter as arbitrary positive symmetric lists."
  },
  {
   "property": "C93",
   "status": "proved",
   "theorems": [
    "C93_ou_steps",
    "C93_ou_law",
    "C93_ou_averages",
    "C93_simpson_cubic",
    "C93_sabr_steps",
    "C93_sabr_measure",
    "C93_sabr_conditional",
    "C93_normal_conditional_refuted"
   ],
   "note": "refuted part: C93_normal_conditional_refuted. The change of measure is stated as an equality of paths and of joint densities under a translation of the normals, not as an iterated integral."
  },
  {
   "property": "C94",
   "status": "proved",
   "theorems": [
    "C94_transforms",
    "C94_real",
    "C94_integrand",
    "C94_parity",
    "C94_rule",
    "C94_origin_refuted"
   ],
   "note": "elementary complex functions are parameters that extend the real ones; the convergence of the inversion integral is not stated; refuted part: C94_origin_refuted."
  },
  {
   "property": "C95",
   "status": "proved",
   "theorems": [
    "C95_admissible",
    "C95_fit",
    "C95_price_fit"
   ],
   "note": "scipy.optimize.root is a parameter; uniqueness of the root is not claimed."
  },
  {
   "property": "C96",
   "status": "proved",
   "theorems": [
    "C96_share",
    "C96_range",
    "C96_decreasing",
    "C96_limit",
    "C96_rate"
   ],
   "note": "the sums are the closed forms of C64; ns=None reads n_sin."
  },
  {
   "property": "C97",
   "status": "proved",
   "theorems": [
    "C97_schemes",
    "C97_nonneg",
    "C97_qe_moments",
    "C97_exact_moments",
    "C97_ncx2_same",
    "C97_same_as_pricing",
    "C97_same_as_poistd",
    "C97_euler_refuted"
   ],
   "note": "refuted part: C97_euler_refuted. The variates of a step enter as its draws (scheme 2: non-central chi-square, scheme 3: gamma given the Poisson index); their laws are C29 and C76."
  },
  {
   "property": "C98",
   "status": "proved",
   "theorems": [
    "C98_interval",
    "C98_price_integral",
    "C98_junike_integral",
    "C98_special_integral",
    "C98_lefloch_parity",
    "C98_lefloch_put",
    "C98_call_vanishes",
    "C98_accepted",
    "C98_negative_Y_refuted",
    "C98_lefloch_refuted"
   ],
   "note": "refuted parts: C98_negative_Y_refuted, C98_lefloch_refuted. At Y = 0 the width is 0 and the code divides by zero; only the interval is stated there."
  },
  {
   "property": "C99",
   "status": "proved",
   "theorems": [
    "C99_exercise_value",
    "C99_value_matching",
    "C99_smooth_pasting",
    "C99_is_fwd_refuted",
    "C99_perpetual",
    "C99_guess_start",
    "C99_guess_between",
    "C99_guess_above_strike_refuted",
    "C99_li_formula",
    "C99_integrand"
   ],
   "note": "refuted parts: C99_is_fwd_refuted, C99_guess_above_strike_refuted. The class only runs when combined with BsmParams (its own constructor raises); the Newton iteration is abstracted to the boundary it returns, existence of a root is not claimed."
  }
 ]
}