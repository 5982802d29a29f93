{"id": "C01", "title": "BSM put-call parity", "statement": "For a Bsm model, price(cp=1) - price(cp=-1) equals the discounted forward minus the discounted strike, where forward and discount factor are the ones implied by intr, divr and is_fwd.", "quantifier": "every strike, spot, sigma (including zero), texp, intr, divr, and both is_fwd settings", "why_tests_cant": "ranges over a continuum of real inputs; a test samples finitely many points", "anchors": ["pyfeng/bsm.py:Bsm.price_formula", "pyfeng/opt_abc.py:OptAnalyticABC.price", "pyfeng/opt_abc.py:OptABC._fwd_df_divf"]}
{"id": "C02", "title": "BSM no-arbitrage bounds", "statement": "A Bsm call is never below its discounted intrinsic value nor negative and never above the discounted forward; a put is never below its discounted intrinsic value nor negative and never above the discounted strike; the time value is strictly positive.", "quantifier": "every positive strike and spot, every sigma and texp >= 0 (the vol floor makes them valid), every intr/divr/is_fwd", "why_tests_cant": "ranges over a continuum of real inputs; a test samples finitely many points", "anchors": ["pyfeng/bsm.py:Bsm.price_formula"]}
{"id": "C03", "title": "BSM monotone and convex", "statement": "Bsm prices are strictly increasing in sigma (above the internal floor), calls strictly decreasing and puts strictly increasing in strike, both convex in strike, calls increasing and puts decreasing in spot.", "quantifier": "every pair of sigmas / strikes / spots and all other inputs", "why_tests_cant": "ranges over a continuum of real inputs; a test samples finitely many points", "anchors": ["pyfeng/bsm.py:Bsm.price_formula"]}
{"id": "C04", "title": "BSM greeks are the derivatives of the price", "statement": "Bsm.delta, gamma, vega, vega2 and theta equal the exact partial derivatives of Bsm.price with respect to spot, spot twice, sigma, sigma twice and minus texp.", "quantifier": "every valid input with sigma*sqrt(texp) above the floor, calls and puts, is_fwd on or off", "why_tests_cant": "ranges over a continuum of real inputs; a test samples finitely many points; a numerical derivative test has its own truncation error", "anchors": ["pyfeng/bsm.py:Bsm.delta", "pyfeng/bsm.py:Bsm.gamma", "pyfeng/bsm.py:Bsm.vega", "pyfeng/bsm.py:Bsm.vega2", "pyfeng/bsm.py:Bsm.theta"]}
{"id": "C05", "title": "BSM cdf is the strike derivative of the undiscounted price", "statement": "Bsm.cdf(cp) equals -cp/df times the derivative of Bsm.price(cp) in strike, lies strictly between 0 and 1, and the cp=1 and cp=-1 values add to 1.", "quantifier": "every valid input", "why_tests_cant": "ranges over a continuum of real inputs; a test samples finitely many points", "anchors": ["pyfeng/bsm.py:Bsm.cdf"]}
{"id": "C06", "title": "BSM variance derivatives", "statement": "Bsm.d2_var and d3_var equal the second and third derivatives of Bsm.price with respect to variance sigma^2. (True only when spot equals forward; refuted otherwise.)", "quantifier": "every valid input; the failure ranges over every model with is_fwd=False and intr != divr", "why_tests_cant": "ranges over a continuum of real inputs; a test samples finitely many points; the shipped tests use is_fwd-like parameters where the error is invisible", "anchors": ["pyfeng/bsm.py:Bsm.d2_var", "pyfeng/bsm.py:Bsm.d3_var"]}
{"id": "C07", "title": "BSM implied volatility is the inverse of the price", "statement": "Two volatilities giving the same price coincide, so impvol is unique; the Newton loop reaches its convergence test on every array of arbitrage-free quotes given enough iterations, and then every returned volatility reprices its quote with relative error on the time value at most exp(1e-10+4e-13)-1 and inverts the price up to that tolerance times time value over vega; the starting point never overshoots; a volatility is a fixed point of the iteration iff it reproduces the target price; setval=True stores exactly the returned value and setval=False leaves the model unchanged.", "quantifier": "every price in the arbitrage-free range, strike, spot, texp, cp, iteration count", "why_tests_cant": "ranges over a continuum of real inputs; a test samples finitely many points; also ranges over all iteration counts", "anchors": ["pyfeng/bsm.py:Bsm.impvol", "pyfeng/bsm.py:Bsm.price_std"]}
{"id": "C08", "title": "Barrier knock-in plus knock-out equals vanilla", "statement": "For Bsm and Norm barrier options, knock-in plus knock-out price equals the vanilla price, and a knock-out option is worthless when spot sits on the barrier. The coded knock-out price solves the pricing equation of the model on the live side, vanishes on the barrier and tends to the payoff at expiry, unless the barrier lies in the money of a down call or up put (strike beyond the barrier), where the coded formula is wrong: it increases with the strike of a call. The Bachelier formula does so without drift and cannot with drift.", "quantifier": "every strike, barrier, spot, texp, cp, rates", "why_tests_cant": "ranges over a continuum of real inputs; a test samples finitely many points", "anchors": ["pyfeng/bsm.py:Bsm.price_barrier", "pyfeng/norm.py:Norm.price_barrier"]}
{"id": "C09", "title": "Bachelier parity, bounds and greeks", "statement": "Norm prices satisfy put-call parity and bounds; delta, gamma, vega are exact derivatives; theta is the exact negative texp derivative (refuted in general: wrong when divr != 0 or is_fwd with intr != 0).", "quantifier": "every strike, spot (any sign), sigma, texp, rates, cp", "why_tests_cant": "ranges over a continuum of real inputs; a test samples finitely many points", "anchors": ["pyfeng/norm.py:Norm"]}
{"id": "C10", "title": "Displaced BSM reduces to BSM and keeps parity", "statement": "BsmDisp with beta=1 prices, greeks and implied vols coincide with Bsm; for any beta in (0,1] put-call parity holds and delta/gamma/vega are derivatives of its own price; price_vsk moments are those of the displaced lognormal (refuted: scaling by beta is wrong).", "quantifier": "every input and beta", "why_tests_cant": "ranges over a continuum of real inputs; a test samples finitely many points", "anchors": ["pyfeng/bsm.py:BsmDisp"]}
{"id": "C11", "title": "Forward / discount consistency and homogeneity", "statement": "forward(spot) equals the forward returned by _fwd_df_divf; discounting an at-forward synthetic is consistent; scaling strike and spot by the same positive factor scales Bsm prices, and shifting both shifts nothing for Norm (is_fwd).", "quantifier": "every spot, texp, rates and scale factor", "why_tests_cant": "ranges over a continuum of real inputs; a test samples finitely many points", "anchors": ["pyfeng/opt_abc.py:OptABC.forward", "pyfeng/opt_abc.py:OptABC._fwd_df_divf"]}
{"id": "C12", "title": "Numeric greeks do not disturb the model", "statement": "vega_numeric, volga_numeric, vanna_numeric, impvol_brentq(setval=False) leave every attribute of the model unchanged, for any price method, and central differences are exact on prices quadratic in the bumped variable.", "quantifier": "every model state, price method and call history", "why_tests_cant": "quantifies over all price methods and histories", "anchors": ["pyfeng/opt_abc.py:OptABC.vega_numeric", "pyfeng/opt_abc.py:OptABC.volga_numeric", "pyfeng/opt_abc.py:OptABC.vanna_numeric", "pyfeng/opt_abc.py:OptABC.impvol_brentq"]}
{"id": "C13", "title": "pdf_numeric / cdf_numeric / impvol_brentq rate handling", "statement": "The generic numeric density, distribution and Brent implied-vol routines agree with the model's own discounted prices for any intr/divr. (Refuted: they re-apply drift and discounting unless is_fwd and intr=0.)", "quantifier": "every model with non-zero rates", "why_tests_cant": "needs every rate setting; tests use zero rates", "anchors": ["pyfeng/opt_abc.py:OptABC.pdf_numeric", "pyfeng/opt_abc.py:OptABC.cdf_numeric", "pyfeng/opt_abc.py:OptABC.impvol_brentq"]}
{"id": "C14", "title": "Parameter copy round trip", "statement": "from_model(m) of the same class yields a model whose params_kw equals m's; params_kw never contains numerical or init=False fields; copying across different model types raises TypeError and returns nothing.", "quantifier": "every model instance, class pair and field set", "why_tests_cant": "quantifies over all field lists and values", "anchors": ["pyfeng/params.py:BaseParams.from_model", "pyfeng/params.py:_params_kw"]}
{"id": "C15", "title": "Constructor validation", "statement": "Every model object that exists after construction satisfies its documented constraints (Heston positivity and |rho|<1, VG/NIG log-price existence, CGMY ranges, CEV beta, theta default), and construction succeeds on all inputs satisfying them.", "quantifier": "every parameter tuple", "why_tests_cant": "quantifies over all real parameter tuples", "anchors": ["pyfeng/params.py:HestonParams", "pyfeng/params.py:VarGammaParams", "pyfeng/params.py:NigParams", "pyfeng/params.py:CgmyParams", "pyfeng/params.py:CevParams", "pyfeng/params.py:SvParams"]}
{"id": "C16", "title": "Parameter hash / FFT cache coherence", "statement": "An FFT price never comes from a cache entry computed for different parameters. (Refuted: params_hash identifies permuted values, so mutating a model through a permutation returns the stale price; holds when all hashes met are distinct.)", "quantifier": "every history of attribute writes and price calls on one instance (and its shallow copies)", "why_tests_cant": "history-dependent: needs a mutation sequence between two calls", "anchors": ["pyfeng/params.py:BaseParams.params_hash", "pyfeng/sv_fft.py:FftABC"]}
{"id": "C17", "title": "Multi-asset covariance canonicalisation", "statement": "MaParams accepts exactly one of the alternative specifications and any accepted specification yields cor_m with unit diagonal, symmetric, and cov_m[i,j] = sigma_i sigma_j cor_m[i,j]; re-feeding the canonical form reproduces it.", "quantifier": "every number of assets, sigma vector and correlation", "why_tests_cant": "quantifies over all dimensions", "anchors": ["pyfeng/params.py:MaParams"]}
{"id": "C18", "title": "Martingale normalisation of the log-price MGF", "statement": "For BSM, Variance-Gamma, NIG, CGMY, Heston, GARCH, OUSV and 3/2-type models the moment generating function of log(S_T/F) is 1 at u=0 and 1 at u=1.", "quantifier": "every valid parameter set and maturity", "why_tests_cant": "ranges over a continuum of real inputs; a test samples finitely many points", "anchors": ["pyfeng/subord_bm.py", "pyfeng/heston.py:HestonABC.logp_mgf", "pyfeng/ousv.py:OusvABC.logp_mgf", "pyfeng/sv_fft.py"]}
{"id": "C19", "title": "Stale martingale correction after mutation", "statement": "The martingale normalisation survives assigning a new sigma to a constructed VG/NIG model. (Refuted: the correction is precomputed, so mgf(1) != 1 after vega_numeric-style mutation.)", "quantifier": "every constructed model and new sigma", "why_tests_cant": "needs a mutation history", "anchors": ["pyfeng/params.py:VarGammaParams.__post_init__", "pyfeng/params.py:NigParams.__post_init__", "pyfeng/opt_abc.py:OptABC.vega_numeric"]}
{"id": "C20", "title": "Cumulants match the MGF", "statement": "logp_cum4 of Variance-Gamma and NIG (and the COS overrides) equals the first four derivatives at zero of the logarithm of the model's own MGF.", "quantifier": "every valid parameter set and maturity", "why_tests_cant": "ranges over a continuum of real inputs; a test samples finitely many points", "anchors": ["pyfeng/subord_bm.py", "pyfeng/sv_cos.py:VarGammaCos.logp_cum4", "pyfeng/sv_cos.py:BsmCos.logp_cum4"]}
{"id": "C21", "title": "COS payoff coefficients are exact integrals", "statement": "The chi/psi coefficients are the exact integrals of exp(x)cos(u(x-a)) and cos(u(x-a)), so the COS price is exactly the discounted integral of the payoff against the truncated cosine series of the density.", "quantifier": "every mode index, interval, strike and number of terms", "why_tests_cant": "quantifies over all term counts and intervals", "anchors": ["pyfeng/sv_cos.py:CosABC._chi", "pyfeng/sv_cos.py:CosABC._psi", "pyfeng/sv_cos.py:CosABC.price"]}
{"id": "C22", "title": "COS put-call parity", "statement": "In lefloch mode call - put equals df(F-K) exactly for every strike including those outside the truncation interval; in fang-oosterlee mode call - put is affine in the strike with coefficients independent of the strike.", "quantifier": "every strike, interval, term count, characteristic function", "why_tests_cant": "quantifies over all characteristic functions", "anchors": ["pyfeng/sv_cos.py:CosABC._price_lefloch", "pyfeng/sv_cos.py:CosABC._vanilla_payoff_coefficients"]}
{"id": "C23", "title": "Heston COS interval covers the mean", "statement": "HestonCos integrates over an interval that contains the mean of log(S_T/F). (Refuted for far strikes: the interval is shifted by log(F/K) although coordinates are log(S_T/F).)", "quantifier": "every strike", "why_tests_cant": "ranges over a continuum of real inputs; a test samples finitely many points", "anchors": ["pyfeng/sv_cos.py:HestonCos._integration_range"]}
{"id": "C24", "title": "Monte-Carlo observation times", "statement": "tobs(texp) is strictly increasing, equally spaced, ends exactly at texp and its spacing never exceeds dt; dt=None gives a single step.", "quantifier": "every texp, dt", "why_tests_cant": "all real texp/dt pairs incl. floor boundaries", "anchors": ["pyfeng/sv_abc.py:CondMcBsmABC.tobs"]}
{"id": "C25", "title": "Antithetic sampling", "statement": "With antithetic sampling the generated normals come in pairs summing to zero, so sample odd moments vanish exactly; uniform variates pair to one.", "quantifier": "every path count (even) and random stream", "why_tests_cant": "quantifies over all random streams", "anchors": ["pyfeng/sv_abc.py:CondMcBsmABC.rv_normal", "pyfeng/sv_abc.py:CondMcBsmABC.rv_uniform"]}
{"id": "C26", "title": "Conditional MC / mixture parity", "statement": "Conditional Monte-Carlo and quadrature mixture prices satisfy put-call parity exactly when the conditional forwards average to one, in particular always with correct_fwd=True; and lie within no-arbitrage bounds.", "quantifier": "every sample of conditional forwards and vols of any size", "why_tests_cant": "quantifies over all random samples", "anchors": ["pyfeng/sv_abc.py:CondMcBsmABC.price", "pyfeng/sv_abc.py:SvMixtureABC.price", "pyfeng/sabr_int.py:SabrMixtureABC.price"]}
{"id": "C27", "title": "QE step moment matching", "statement": "The Andersen QE step yields a non-negative variance whose distribution parameters reproduce exactly the CIR conditional mean and variance in both the quadratic and the exponential branch.", "quantifier": "every mean, variance, random draw", "why_tests_cant": "ranges over a continuum of real inputs; a test samples finitely many points", "anchors": ["pyfeng/heston_mc.py:HestonMcAndersen2008.var_step_qe"]}
{"id": "C28", "title": "Glasserman-Kim draw distribution", "statement": "Every path receives exactly eta of the independent Z draws and the internal consistency assertion never fails.", "quantifier": "every vector of eta values of any length", "why_tests_cant": "quantifies over all eta vectors", "anchors": ["pyfeng/heston_mc.py:HestonMcGlassermanKim2011.cond_states_step"]}
{"id": "C29", "title": "CIR and Heston moments", "statement": "CirModel.mv, avg_mv, log_mgf and HestonABC.logp_mv return exactly the conditional mean, variance, third central moment and transform of the square-root process, of its time average and of the log-price; they satisfy the tower property over consecutive steps; the exact samplers (non-central chi-square, Poisson-gamma) draw from the transition law. (Refuted for draw_euler: sqrt(dt) is missing.)", "quantifier": "every parameter set, start value, pair of steps", "why_tests_cant": "ranges over a continuum of real inputs; a test samples finitely many points", "anchors": ["pyfeng/heston.py:CirModel", "pyfeng/heston.py:HestonABC.logp_mv", "pyfeng/heston_mc.py:draw_from_mv"]}
{"id": "C30", "title": "OU volatility moments", "statement": "OUSV average vol/variance means equal time averages of OU moments, conditional-on-endpoint means average back to the unconditional ones, and the exact step composes.", "quantifier": "every parameter set and horizon", "why_tests_cant": "ranges over a continuum of real inputs; a test samples finitely many points", "anchors": ["pyfeng/ousv.py:OusvABC.avgvol_mv", "pyfeng/ousv.py:OusvABC.avgvar_mv", "pyfeng/ousv.py:OusvABC.cond_avgvolvar_m", "pyfeng/ousv.py:OusvMcABC.vol_step"]}
{"id": "C31", "title": "KL sine-series state equals path averages", "statement": "With given normals, the Karhunen-Loeve step returns exactly the terminal value and the time averages of vol and variance of the sine-series volatility path.", "quantifier": "every number of sine terms and normal values", "why_tests_cant": "quantifies over all n_sin", "anchors": ["pyfeng/ousv.py:OusvMcChoi2025KL.cond_states_step", "pyfeng/ousv.py:OusvMcChoi2025KL.vol_path_sin"]}
{"id": "C32", "title": "Tridiagonal solve correctness", "statement": "The Thomas algorithm returns the solution of the tridiagonal system, and never divides by zero for the diagonally dominant matrices built by the implicit sweeps.", "quantifier": "every system size, coefficients and right-hand side", "why_tests_cant": "quantifies over all sizes", "anchors": ["pyfeng/sv_fin_diff.py:_thomas_batch", "pyfeng/sv_fin_diff.py:SvFinDiffABC._solve_S_implicit", "pyfeng/sv_fin_diff.py:SvFinDiffABC._solve_v_implicit"]}
{"id": "C33", "title": "Finite-difference put-call parity", "statement": "The ADI pricer satisfies put-call parity exactly on every grid (Heston; SABR with beta>0). (Refuted for beta=0 with a negative left boundary.)", "quantifier": "every grid size, step count, theta weight and model parameters", "why_tests_cant": "quantifies over all grids and step counts", "anchors": ["pyfeng/sv_fin_diff.py:SvFinDiffABC._solve_one", "pyfeng/sv_fin_diff.py:_standard_bc"]}
{"id": "C34", "title": "Bilinear interpolation", "statement": "Interpolation reproduces grid values and bilinear functions exactly inside the grid and never leaves the range of the four corner values.", "quantifier": "every grid, query point", "why_tests_cant": "quantifies over all grids", "anchors": ["pyfeng/sv_fin_diff.py:_bilinear"]}
{"id": "C35", "title": "SABR average-variance moments", "statement": "For the average variance of the SABR volatility path: avgvar_mnc4 returns its exact first four raw moments (time-averages of the squared geometric Brownian motion), avgvar_mvsk (the closed polynomial form) is the mean, scaled variance, skewness and kurtosis of exactly those moments, and the conditional moments given the terminal volatility are the bridge moments of the same process. The small-vov branches are the Taylor expansions of the exact conditional moments to the order the code keeps. (Refuted for the scaled variance: its second-order term is returned with the wrong sign.)", "quantifier": "every vov*sqrt(T) > 0, every terminal normal deviate", "why_tests_cant": "ranges over a continuum of real inputs; a test samples finitely many points", "anchors": ["pyfeng/sabr.py:SabrABC.avgvar_mvsk", "pyfeng/sabr.py:SabrABC.avgvar_mnc4", "pyfeng/sabr.py:SabrABC.cond_avgvar_mvsk"]}
{"id": "C36", "title": "SABR conditional Monte-Carlo and mixtures: discounting, parity, martingale", "statement": "SABR conditional Monte-Carlo and mixture prices discount exactly once, satisfy put-call parity against the forward implied by the sampled conditional forwards (exactly the model forward when correct_fwd is on), the volatility step is a martingale that composes over sub-steps, the Chen step reproduces the conditional moments, and the conditional forward is drift-free. (Refuted: beta=0 with a negative forward loses the sign of the forward; 0<beta<1 with different rates keeps a rate-dependent variance factor.)", "quantifier": "every path set, node set, strike, rates and parameter set", "why_tests_cant": "quantifies over all path samples and rates; tests use zero rates", "anchors": ["pyfeng/sabr_mc.py:SabrMcABC.price", "pyfeng/sabr_mc.py:SabrMcTimeDisc", "pyfeng/sabr_int.py:SabrMixtureABC.price"]}
{"id": "C37", "title": "Hyperbolic-normal SV model: law, parity and moments", "statement": "Nsvh1.price is the discounted expected payoff, and cdf the probability, of the S_U-distributed terminal price; parity holds for all parameters; is_atmvol makes sigma the at-the-money Bachelier volatility; price_vsk is the true variance, skewness and excess kurtosis and agrees with the general-lambda formula at lambda = 1 (and 0 for normal SABR); fitting to (variance, skewness, kurtosis) reproduces them at the root.", "quantifier": "every parameter set, strike, forward and expiry", "why_tests_cant": "ranges over a continuum of real inputs; a test samples finitely many points", "anchors": ["pyfeng/nsvh.py:Nsvh1", "pyfeng/nsvh.py:NsvhABC.price_vsk"]}
{"id": "C38", "title": "SABR volatility approximations", "statement": "vol_for_price of SabrHagan2002 is Hagan's published formula (with its H-function the integral of 1/sqrt(1+2 rho u+u^2), continuous through the money), prices satisfy parity, the lognormal / normal limits (vov = 0) are Black-Scholes / Bachelier, and the Choi-Wu approximation agrees with the Hagan forms at beta = 1 and beta = 0. (Refuted: with non-zero rates vol_for_price scales by the spot, so it is Hagan's formula for the volatility sigma*(F/S)^(1-beta), not for sigma.)", "quantifier": "every parameter set, strike, forward, expiry and non-zero rate", "why_tests_cant": "quantifies over all strikes and rates; tests use zero rates", "anchors": ["pyfeng/sabr.py:SabrHagan2002.vol_for_price", "pyfeng/sabr.py:SabrNormVolApprox", "pyfeng/sabr.py:SabrChoiWu2021H"]}
{"id": "C39", "title": "Distribution quadratures: exactness, cdf, quantiles and cached nodes", "statement": "The quadrature rules of the lognormal, gamma, inverse-Gaussian, generalized inverse-Gaussian and (N)IG-mixture distributions have positive nodes and weights, integrate the constant and the mean exactly, and integrate every moment up to the order promised by the base Gauss rule exactly against the true density (for the inverse Gaussian also the inverse moments). The normal-mixture cdf built from them is a genuine distribution function with the right mean, its quantile lies in the search bracket used. (Refuted: the mixture nodes are cached, and are stale after refitting or changing parameters.)", "quantifier": "every number of nodes, every base Gauss rule, every parameter set, every sequence of setter calls", "why_tests_cant": "quantifies over all node counts, moment orders and call histories", "anchors": ["pyfeng/disthelper.py:DistLognormal.quad", "pyfeng/disthelper.py:DistInvGauss.quad", "pyfeng/disthelper.py:DistGenInvGauss.quad", "pyfeng/disthelper.py:DistNormalInvGauss"]}
{"id": "C40", "title": "Distribution moments and moment fitting", "statement": "mvsk of each distribution class is the true mean, variance, skewness and excess kurtosis of its law; fitting to a mean and variance (and skew) and reading the moments back reproduces them. (Refuted for lognormal with negative skew or negative shift weight.)", "quantifier": "every parameter set and every admissible moment triple", "why_tests_cant": "ranges over a continuum of real inputs; a test samples finitely many points", "anchors": ["pyfeng/disthelper.py:DistLognormal.fit", "pyfeng/disthelper.py:DistGamma.fit", "pyfeng/disthelper.py:DistInvGauss.fit", "pyfeng/disthelper.py:DistGenInvGauss.fit"]}
{"id": "C41", "title": "N-dimensional quadrature indexing", "statement": "NdGHQ node-by-index access enumerates exactly the rows of the full tensor table, each once, with product weights.", "quantifier": "every tuple of sizes and index", "why_tests_cant": "quantifies over all dimensions and sizes", "anchors": ["pyfeng/quad.py:NdGHQ"]}
{"id": "C42", "title": "Moments from a generating function", "statement": "Mgf2Mom returns the exact n-th moment of an analytic moment generating function plus an explicit aliasing error made of the higher Taylor coefficients damped by powers of the chosen radius; a mean or variance supplied by the caller is returned unchanged; the Gram-Charlier coefficients are the Taylor coefficients of the exponential of the cumulants of order three and above (the docstring's closed formula is refuted at order five); powrel and logrel are the averages they claim to be.", "quantifier": "every analytic generating function, order, oversampling, damping and cumulant vector", "why_tests_cant": "ranges over a continuum of real inputs; a test samples finitely many points", "anchors": ["pyfeng/mgf2mom.py:Mgf2Mom", "pyfeng/util.py:MathFuncs"]}
{"id": "C43", "title": "Spread and two-asset options", "statement": "Kirk and Bjerksund-Stensland satisfy put-call parity and both equal the exact exchange-option value at zero strike; for other strikes the Bjerksund-Stensland price is the exact value of its exercise rule and hence a lower bound of the true price; the maximum-of-two-assets price is the exact discounted expected payoff for calls and puts.", "quantifier": "every forward pair, vols, correlation, strike", "why_tests_cant": "ranges over a continuum of real inputs; a test samples finitely many points", "anchors": ["pyfeng/multiasset.py:BsmSpreadKirk", "pyfeng/multiasset.py:BsmSpreadBjerksund2014", "pyfeng/multiasset.py:BsmMax2"]}
{"id": "C44", "title": "Basket approximations: parity and moments", "statement": "Basket pricers satisfy put-call parity with the basket forward; price_mvsk returns the true mean, variance, skewness and kurtosis of the basket; the Bachelier basket price is exact; Levy and Milevsky-Posner match the first two moments.", "quantifier": "every number of assets", "why_tests_cant": "quantifies over all dimensions", "anchors": ["pyfeng/multiasset.py"]}
{"id": "C45", "title": "Factor rotation of the Choi (2018) basket pricer", "statement": "The Householder construction yields an orthonormal matrix mapping the first axis to the given unit vector; the factor-loading matrix preserves the covariance; the price satisfies parity and, without quadrature, is a lower bound of the true basket price.", "quantifier": "every dimension and unit vector", "why_tests_cant": "quantifies over all dimensions", "anchors": ["pyfeng/multiasset.py:BsmBasketChoi2018"]}
{"id": "C46", "title": "Risk parity updates", "statement": "Each cyclical coordinate update solves its quadratic exactly with the requested sign and minimises the objective; the iteration converges from every start; a converged fit has weights summing to one and risk contributions within tolerance of budgets; the exact long-only portfolio is unique; Newton uses the true Jacobian. (Refuted: the requested sign is not kept by the final normalisation, and fit_newton ignores it.)", "quantifier": "every covariance, budget, iteration history", "why_tests_cant": "quantifies over all iteration histories", "anchors": ["pyfeng/assetalloc.py:RiskParity"]}
{"id": "C47", "title": "Simplex-box projection", "statement": "The projection always returns a point inside the box; with feasibility its total is within an explicit tolerance of one, it is the closest point of the box with that total, it is within the tolerance of the exact projection, and it raises exactly when infeasible.", "quantifier": "every vector, bounds, iteration count", "why_tests_cant": "quantifies over all dimensions and iteration counts", "anchors": ["pyfeng/assetalloc.py:RiskParitySCA._project_simplex_box"]}
{"id": "C48", "title": "Asian moments and fitted prices", "statement": "BsmAsianJsu.price_mnc(texp, n) is the n-th moment of the continuously averaged lognormal price (limit of the moments of N-date averages) for every n and every sigma, rates and texp off the resonances p + k = 0, p = 2(r-q)/sigma^2; price_mnc4 returns the first four of them and price_mvsk the resulting mean, var/mean^2, skewness and kurtosis for sigma^2 texp >= 0.01, with the mean and variance also right at r = q (where the higher moments divide by zero). Below 0.01 the third and fourth central moments are right to order v^2 but the 'precision' branch of the variance is off by (8-p^3)/(48(p+1)(p+2)) v^2. Call minus put of every Asian pricer should be the discounted mean minus strike: true of Linetsky (up to 2e-16 of spot) and Ju; refuted for BsmAsianJsu, which discounts twice. Ju's prices should imply the second moment they match: refuted (sigma^6 coefficients), while the basket version does so exactly. Linetsky's real-spectrum terms (2(r-q) <= -sigma^2) divide by zero because eta_q subtracts a value from itself.", "quantifier": "every moment order, sigma > 0, rates, texp, strike; every fit result and every value of the special functions", "why_tests_cant": "ranges over a continuum of real inputs; a test samples finitely many points", "anchors": ["pyfeng/asian.py:BsmAsianJsu.price_mnc", "pyfeng/asian.py:BsmAsianJsu.price_mnc4", "pyfeng/asian.py:BsmAsianJsu.price_mvsk", "pyfeng/asian.py:BsmAsianJsu.price", "pyfeng/asian.py:BsmAsianLinetsky2004.price", "pyfeng/asian.py:BsmAsianLinetsky2004.eta_q", "pyfeng/asian.py:BsmContinuousAsianJu2002.price"]}
{"id": "C49", "title": "CEV: parity, Greeks, pricing equation, law and mass at zero", "statement": "For every beta <> 1, Cev prices satisfy put-call parity, lie within the no-arbitrage bounds and increase in sigma; delta, gamma, vega and theta are the derivatives of price and the price solves the CEV pricing equation. For beta < 1 the prices are discounted expected payoffs of the law reported by cdf (mean = forward, atom = mass_zero); mass_zero_t0 is lim -T log(mass); mass_zero(log=True) is its logarithm. For beta > 1 puts are expected payoffs and calls exceed theirs by the missing forward mass. price_std is the normalised price / vega. (Refuted: cdf for beta > 1, and the log mass for beta near 1.)", "quantifier": "every beta, strike, spot, sigma, rates, expiry", "why_tests_cant": "ranges over a continuum of real inputs; a test samples finitely many points", "anchors": ["pyfeng/cev.py:Cev"]}
{"id": "C50", "title": "SVI surface", "statement": "The SVI variance is convex in log-moneyness, has the stated closed-form minimum (so it is non-negative everywhere exactly when that minimum is), has linear wings with slopes vov(1+rho) and vov(1-rho), and the price is the lognormal expected payoff with that variance (put-call parity included). init_from_heston is documented to give the equivalent Heston smile.", "quantifier": "every strike and admissible parameter set", "why_tests_cant": "ranges over a continuum of real inputs; a test samples finitely many points", "anchors": ["pyfeng/svi.py"]}
{"id": "C51", "title": "Fractional Adams solver of the rough Heston transform", "statement": "The predictor weights give the exact fractional integral of every step function on the grid and the corrector weights that of every piecewise linear function, so both sum to t^alpha/Gamma(alpha+1); logp_mgf_adam solves the fractional Riccati equation with the Adams predictor-corrector, returns one value per argument, and 1 at u=0 and u=1. (Refuted part: the node values fed to the scheme lag one step behind, so it is not the Adams method.)", "quantifier": "every order alpha > 0, step size, step index, node values, parameters and real argument", "why_tests_cant": "an identity between array weights and improper integrals for every step index", "anchors": ["pyfeng/heston_rough.py:RoughHestonABC.a_j_kp1", "pyfeng/heston_rough.py:RoughHestonABC.b_j_kp1", "pyfeng/heston_rough.py:RoughHestonABC.F", "pyfeng/heston_rough.py:RoughHestonABC.Ih", "pyfeng/heston_rough.py:RoughHestonABC.logp_mgf_adam"]}
{"id": "C52", "title": "Fast hybrid solver of the rough Heston transform", "statement": "logp_mgf_hybrid returns the transform at each argument and leaves its input unchanged; the series coefficients solve the fractional Riccati equation, the series integrals and the discretised integrals are those of the computed solution. (Refuted parts: the Cauchy square enters one index late; the weights of the fractional integral are raised to a power twice; for texp > 0.198 the reused loop variable makes the call fail for up to 250 arguments and otherwise writes entry 250 only; the input array is overwritten.)", "quantifier": "every parameter set, order, grid size and argument array", "why_tests_cant": "needs every series index and array length, and the aliasing of the input", "anchors": ["pyfeng/heston_rough.py:RoughHestonABC.a", "pyfeng/heston_rough.py:RoughHestonABC.I_1_FPS", "pyfeng/heston_rough.py:RoughHestonABC.I_2_FPS", "pyfeng/heston_rough.py:RoughHestonABC.phi_n", "pyfeng/heston_rough.py:RoughHestonABC.I_1_PED", "pyfeng/heston_rough.py:RoughHestonABC.I_2_PED", "pyfeng/heston_rough.py:RoughHestonABC.logp_mgf_hybrid"]}
{"id": "C53", "title": "Forward-flag propagation", "statement": "Every model honours is_fwd: the price with is_fwd=True at the forward equals the price with is_fwd=False at the spot, for the closed-form, transform, quadrature, simulation, finite-difference, SABR, spread and basket pricers. (Refuted for InvGam, HestonUncorrBallRoma1994, OusvUncorrBallRoma1994, GarchUncorrBaroneAdesi2004, price_from_mass_zero - at every strike as soon as the rates differ -, SabrHagan2002, BsmNdMc and CevMc.)", "quantifier": "every rate, spot, strike, model parameters, simulated sample and grid", "why_tests_cant": "ranges over a continuum of real inputs; a test samples finitely many points", "anchors": ["pyfeng/opt_abc.py:OptABC.forward", "pyfeng/opt_abc.py:OptABC._fwd_df_divf", "pyfeng/gamma.py:InvGam.price", "pyfeng/heston.py:HestonUncorrBallRoma1994", "pyfeng/garch.py:GarchUncorrBaroneAdesi2004", "pyfeng/opt_abc.py:MassZeroABC.price_from_mass_zero", "pyfeng/sabr.py:SabrHagan2002.vol_for_price", "pyfeng/multiasset_mc.py:BsmNdMc", "pyfeng/cev.py:CevMc"]}
{"id": "C54", "title": "Closed-form prices are discounted expected payoffs", "statement": "Bsm.price (Norm.price) equals the discount factor times the expected payoff when the terminal price is lognormal (normal) with the model's forward and volatility; Bsm.logp_mgf is the corresponding expectation of exp(u x) and Bsm.price_vsk the variance, skewness and excess kurtosis of the terminal price.", "quantifier": "every strike, spot, rates, sigma and texp above the volatility floor, calls and puts", "why_tests_cant": "an equality between a closed form and an improper integral, for a continuum of inputs", "anchors": ["pyfeng/bsm.py:Bsm.price_formula", "pyfeng/norm.py:Norm.price_formula", "pyfeng/bsm.py:Bsm.logp_mgf", "pyfeng/bsm.py:Bsm.price_vsk"]}
{"id": "C55", "title": "Fourier prices satisfy put-call parity", "statement": "FFT and Simpson Fourier prices satisfy call - put = DF*(F-K) for any characteristic function, interpolation grid or truncation, even when the cached interpolator is stale.", "quantifier": "every interpolator/quadrature value, strike, spot, rates", "why_tests_cant": "quantifies over all characteristic functions and grids", "anchors": ["pyfeng/sv_fft.py:FftABC.price", "pyfeng/sv_fft.py:FftABC.price_simpson"]}
{"id": "C56", "title": "Stochastic-volatility transforms solve the model's equations", "statement": "The Heston and OUSV moment generating functions of log(S_T/F) are exponential-affine in the initial state with coefficients that vanish at expiry 0 and solve the Riccati/Feynman-Kac equations of the documented SDEs.", "quantifier": "every parameter set with vov<>0, every real argument between 0 and 1, every texp >= 0", "why_tests_cant": "ranges over a continuum of real inputs; a test samples finitely many points", "anchors": ["pyfeng/heston.py:HestonABC.logp_mgf", "pyfeng/ousv.py:OusvABC.logp_mgf"]}
{"id": "C57", "title": "Two published forms of the OUSV transform agree", "statement": "The Schobel-Zhu (1998) form and the Lord-Kahl form of the OUSV log-price transform return the same value.", "quantifier": "every parameter set with mr, vov <> 0, argument between 0 and 1 and texp >= 0", "why_tests_cant": "ranges over a continuum of real inputs; a test samples finitely many points", "anchors": ["pyfeng/ousv.py:OusvABC.logp_mgf", "pyfeng/ousv.py:OusvABC.logp_mgf_schobelzhu1998"]}
{"id": "C58", "title": "Refined GARCH transform equals the line-by-line one", "statement": "GarchFftWuMaWang2012.logp_mgf, a rewrite of the line-by-line logp_mgf_old, returns the same value. (Refuted for every texp other than 1: one term is multiplied by texp; the exact difference is proved.)", "quantifier": "every parameter set, argument between 0 and 1, texp > 0", "why_tests_cant": "ranges over a continuum of real inputs; a test samples finitely many points", "anchors": ["pyfeng/sv_fft.py:GarchFftWuMaWang2012.logp_mgf", "pyfeng/sv_fft.py:GarchFftWuMaWang2012.logp_mgf_old"]}
{"id": "C59", "title": "Chernoff truncation bound (junike mode)", "statement": "When the adaptive truncation search stops by its own test, the probability mass outside the returned interval is at most eps_junike; the half-width is always between 12 and 30 scale units.", "quantifier": "every density, MGF, grid, cumulants and tolerance", "why_tests_cant": "quantifies over all densities", "anchors": ["pyfeng/sv_cos.py:CosABC._junike_half_width"]}
{"id": "C60", "title": "Conditional pricing matches path simulation (Heston MC)", "statement": "The conditional spot and volatility used by the Heston Monte-Carlo pricer equal the totals of the stepwise conditional log-return means and variances along the same variance path, for every step scheme; the conditional realised variance of a step is the second moment of its log-return.", "quantifier": "every variance path, step scheme, time grid, parameters", "why_tests_cant": "quantifies over all variance paths and grids", "anchors": ["pyfeng/heston_mc.py:HestonMcABC.cond_spot_sigma", "pyfeng/heston_mc.py:HestonMcABC.draw_log_return", "pyfeng/heston_mc.py:HestonMcABC.cond_log_return_var"]}
{"id": "C61", "title": "Simulated price paths are martingales", "statement": "price_paths multiplies each path by a step whose conditional expectation is the conditional spot. (Refuted: the -sigma^2 dt/2 term is missing, the exact bias is exp(sigma^2 dt/2).)", "quantifier": "every conditional spot, volatility and step", "why_tests_cant": "statement about an expectation over all draws", "anchors": ["pyfeng/sv_abc.py:CondMcBsmABC.price_paths"]}
{"id": "C62", "title": "Variance-swap strike", "statement": "strike_var_swap_analytic equals the average over the monitoring periods of the expected squared log-return, for any number of periods, and the integral of expected variance under continuous monitoring.", "quantifier": "every parameter set, expiry and number of monitoring dates", "why_tests_cant": "quantifies over all numbers of monitoring dates", "anchors": ["pyfeng/heston.py:HestonABC.strike_var_swap_analytic"]}
{"id": "C63", "title": "OUSV variance-swap strike", "statement": "The discrete-monitoring correction of strike_var_swap_analytic per unit monitoring step is the time average of E[(r - sigma^2/2)^2 - rho*vov*sigma^2] under the model. (With dividends the drift should be intr-divr; the exact error of using intr is proved.)", "quantifier": "every parameter set with mr>0, expiry and step", "why_tests_cant": "ranges over a continuum of real inputs; a test samples finitely many points", "anchors": ["pyfeng/ousv.py:OusvABC.strike_var_swap_analytic"]}
{"id": "C64", "title": "KL closed-form sums and truncation independence", "statement": "The closed-form tail sums of the Karhunen-Loeve coefficients are the sums of the infinite series they stand for (all, odd or even terms, beyond any number of explicit terms), and the first two joint moments of the simulated average volatility and variance do not depend on the number of explicit sine terms.", "quantifier": "every mean reversion times step > 0, every number of sine terms", "why_tests_cant": "infinite series and all truncation levels", "anchors": ["pyfeng/ousv.py:OusvMcChoi2025KL._a2sum", "pyfeng/ousv.py:OusvMcChoi2025KL._a4sum", "pyfeng/ousv.py:OusvMcChoi2025KL._a6n2sum", "pyfeng/ousv.py:OusvMcChoi2025KL.cond_states_step"]}
{"id": "C65", "title": "Conditional pricing matches path simulation (OUSV MC)", "statement": "The conditional spot and volatility used by the OUSV Monte-Carlo pricer equal the totals of the stepwise conditional log-return means and variances along the same volatility path for every step scheme, and the conditional spot is drift-free under the model.", "quantifier": "every volatility path, step scheme, time grid, parameters", "why_tests_cant": "quantifies over all paths and grids", "anchors": ["pyfeng/ousv.py:OusvMcABC.cond_spot_sigma", "pyfeng/ousv.py:OusvMcABC.draw_log_return", "pyfeng/ousv.py:OusvMcABC.cond_log_return_var"]}
{"id": "C66", "title": "Baskets driven by one Brownian motion", "statement": "BsmBasket1Bm.price is the exact value of exercising above the computed boundary, so parity holds and the price never exceeds the true one; the boundary search always returns for positive weights and its error, and the resulting price error, are bounded explicitly; it raises exactly when some asset contributes with the wrong sign.", "quantifier": "every number of assets, weights, volatilities, strikes", "why_tests_cant": "quantifies over all dimensions and iteration histories", "anchors": ["pyfeng/multiasset.py:BsmBasket1Bm.root", "pyfeng/multiasset.py:BsmBasket1Bm.price"]}
{"id": "C67", "title": "Multi-asset Monte-Carlo", "statement": "Simulated multi-asset paths have the exact means and cross-moments at all dates; prices are unbiased for every payoff, number of paths, antithetic setting and control variate, reprice the underlyings and their vanilla options; with one asset the geometric control variate gives the exact price for every draw. (Refuted: NormNdMc ignores the drift but discounts, so it misprices the underlying under rates.)", "quantifier": "every number of assets, dates, paths, draws and payoffs", "why_tests_cant": "statement about an expectation over all draws, for all dimensions", "anchors": ["pyfeng/multiasset_mc.py:BsmNdMc", "pyfeng/multiasset_mc.py:NormNdMc", "pyfeng/multiasset_mc.py:BsmBasketMc"]}
{"id": "C68", "title": "Constrained risk parity (SCA)", "statement": "Every iterate satisfies the constraints, the line search ends within 40 halvings with a real decrease or at the step floor, the fit ends for enough iterations, and the result is within tol of a feasible point no worse than the start. (Refuted: the direction used is not the gradient of the objective; the true gradient is proved.)", "quantifier": "every covariance matrix, cap, tolerance, starting weights, iteration history", "why_tests_cant": "quantifies over all iteration histories and dimensions", "anchors": ["pyfeng/assetalloc.py:RiskParitySCA.fit_sca"]}
{"id": "C69", "title": "GARCH diffusion: average variance, simulation steps, conditional spot", "statement": "avgvar_mv returns the exact mean and variance of the average variance of the GARCH diffusion; the Euler and Milstein steps have the exact conditional mean and second moment and are never negative (the Milstein floor never acts for small steps), the log scheme has the model's drift; the conditional spot is the drift-free functional of the model (with its loading on the variance noise) evaluated by trapezoidal integrals along the simulated path; an unknown scheme raises. (Refuted: once the floor at zero acts, the conditional spot is not finite.)", "quantifier": "every parameter set, scheme, time grid and random draws", "why_tests_cant": "quantifies over all simulated paths and an expectation over all draws", "anchors": ["pyfeng/garch.py:GarchUncorrBaroneAdesi2004.avgvar_mv", "pyfeng/garch.py:GarchMcTimeDisc.vol_step_euler", "pyfeng/garch.py:GarchMcTimeDisc.var_step_log", "pyfeng/garch.py:GarchMcTimeDisc.cond_spot_sigma"]}
{"id": "C70", "title": "Uncorrelated stochastic-volatility expansions", "statement": "HestonUncorrBallRoma1994, GarchUncorrBaroneAdesi2004 and OusvUncorrBallRoma1994 return the Black-Scholes price at the mean average variance plus the Taylor terms with the exact central moments of the average variance, satisfy put-call parity at every order and reduce to Black-Scholes for deterministic variance; unsupported orders raise. (Refuted for rates differing from dividends: the Taylor terms are scaled by spot/forward.)", "quantifier": "every parameter set, strike, rates, order", "why_tests_cant": "ranges over a continuum of real inputs; a test samples finitely many points", "anchors": ["pyfeng/heston.py:HestonUncorrBallRoma1994.price", "pyfeng/garch.py:GarchUncorrBaroneAdesi2004.price", "pyfeng/ousv.py:OusvUncorrBallRoma1994.price"]}
{"id": "C71", "title": "Inverse gamma and inverse Gaussian models", "statement": "InvGam and InvGauss prices are discounted expected payoffs, and cdf the exceedance probability, of an inverse gamma / inverse Gaussian terminal price whose mean is the forward and whose second moment is that of the lognormal with the same sigma; put-call parity holds. (Refuted for InvGam with is_fwd: price drops the flag.)", "quantifier": "every strike, spot, sigma, expiry, rates", "why_tests_cant": "ranges over a continuum of real inputs; a test samples finitely many points", "anchors": ["pyfeng/gamma.py:InvGam", "pyfeng/gamma.py:InvGauss"]}
{"id": "C72", "title": "Finite differences solve the model's pricing equation", "statement": "The SABR and Heston (also CEV-Heston) finite-difference prices are DF*F times the bilinearly interpolated value, at today's forward and volatility (a point inside the grid), of the grid obtained from the payoff by exactly N Douglas ADI steps of length T/N: explicit predictor with all three parts of the generator, implicit correction in price and in variance, each stage with the stated boundary conditions (fixed values at the price edges, zero slope at the largest variance, payoff or degenerate-equation Euler step at zero variance); and the difference operators reproduce the generator of the model exactly on polynomials of degree two in each variable.", "quantifier": "every grid size, step count, theta weight, strike, expiry, rates and parameters (Heston: under the step-size condition of the variance sweep)", "why_tests_cant": "quantifies over all grids and step counts; tests compare a few prices with tolerance", "anchors": ["pyfeng/sv_fin_diff.py:SvFinDiffABC._step", "pyfeng/sv_fin_diff.py:SvFinDiffABC._solve_one", "pyfeng/sv_fin_diff.py:HestonFinDiff._pre_step", "pyfeng/sv_fin_diff.py:SvFinDiffABC._F0"]}
{"id": "C73", "title": "CEV Monte-Carlo samples the exact CEV law", "statement": "For beta < 1 a simulated step (gamma draw, Poisson draw, second gamma draw) exceeds every level K with exactly the probability returned by Cev.cdf and is absorbed at zero with probability mass_zero, for steps of any length; paths are never negative and stay at zero; the prices satisfy put-call parity with the sample mean and dominate the simulated mass at zero.", "quantifier": "every beta < 1, sigma, rates, spot, step length, level, sample", "why_tests_cant": "an equality of distributions over all draws, for a continuum of inputs", "anchors": ["pyfeng/cev.py:CevMc.price_step", "pyfeng/cev.py:CevMc.price", "pyfeng/cev.py:CevMc.mass_zero"]}
{"id": "C74", "title": "Normal SABR by elliptic integrals", "statement": "SabrNormEllipeInt integrates the elliptic-integral kernel of normal SABR from the geodesic lower limit, none of its fmax/fmin guards acts on the range of integration, and the integral converges; SabrNormAnalytic's closed form is the integral of the kernel's second-order expansion at the lower limit, and quad_correction completes it to the exact integral whenever the Gauss-Laguerre rule is exact on its integrand; put-call parity holds whatever the quadrature.", "quantifier": "every sigma, vov>0, |rho|<1, strike, forward, expiry, quadrature", "why_tests_cant": "an improper integral equality for a continuum of parameters", "anchors": ["pyfeng/sabr_int.py:SabrNormAnalytic.price", "pyfeng/sabr_int.py:SabrNormEllipeInt.price", "pyfeng/sabr_int.py:SabrNormEllipeInt.hh_xi", "pyfeng/sabr_int.py:SabrNormEllipeInt.hh_xi_approx"]}
{"id": "C75", "title": "Volatility and price from the mass at zero", "statement": "vol_from_mass_zero/price_from_mass_zero turn a probability mass at zero into a small-strike implied volatility: the put price per unit of strike tends to the mass as the strike goes to 0, with an error of order log(spot/strike)^(-3/2) when there is no drift. The price is not discounted, so with a non-zero rate the limit is not the discounted mass.", "quantifier": "every mass in (0,1), spot, expiry and rates, as the strike goes to 0", "why_tests_cant": "a limit as the strike tends to 0", "anchors": ["pyfeng/opt_abc.py:MassZeroABC.vol_from_mass_zero", "pyfeng/opt_abc.py:MassZeroABC.price_from_mass_zero"]}
{"id": "C76", "title": "Gamma expansion of the Heston average variance: remainders", "statement": "Truncating the gamma expansion at kk terms, x1star/x2star_avgvar_mv return the mean and variance of the omitted terms (exactly for mr*dt >= 0.2, with sixth/fourth-order error bounds below), so the average variance drawn by the Glasserman-Kim and Poisson-conditioned gamma-expansion steps has the same conditional mean and variance for every kk, the ones of cond_avgvar_mv; the asymptotic formulas are the leading order as kk grows. (Refuted: for mr*dt < 0.2 the X2 remainder variance is negative from some kk on.)", "quantifier": "every parameter set with mr, vov, theta > 0, step, initial and final variance, truncation index and Bessel index", "why_tests_cant": "an infinite series identity and all truncation levels", "anchors": ["pyfeng/heston_mc.py:HestonMcABC.gamma_lambda", "pyfeng/heston_mc.py:HestonMcABC.x1star_avgvar_mv", "pyfeng/heston_mc.py:HestonMcABC.x2star_avgvar_mv", "pyfeng/heston_mc.py:HestonMcGlassermanKim2011.draw_x1", "pyfeng/heston_mc.py:HestonMcGlassermanKim2011.draw_x2", "pyfeng/heston_mc.py:HestonMcChoiKwok2023PoisGe.draw_x123"]}
{"id": "C77", "title": "Bessel index and Poisson conditioning of the Heston variance", "statement": "Given the initial and final variance of a step, the Poisson index of the gamma mixture has the Bessel distribution; eta_mv returns its mean and variance, draw_eta inverts its distribution function (exactly below the cap of 16), cond_avgvar_mv without an index is the mixture over this law of cond_avgvar_mv with it, and the Poisson-conditioned step reproduces the exact mean and variance of the average variance.", "quantifier": "every parameter set with mr, vov, theta > 0, step, initial and final variance, uniform", "why_tests_cant": "infinite sums over the index and integrals over the draw", "anchors": ["pyfeng/heston_mc.py:HestonMcABC.eta_mv", "pyfeng/heston_mc.py:HestonMcABC.cond_avgvar_mv", "pyfeng/heston_mc.py:HestonMcGlassermanKim2011.draw_eta", "pyfeng/heston_mc.py:HestonMcChoiKwok2023PoisTd.cond_states_step"]}
{"id": "C78", "title": "Transforms of the conditional average variance", "statement": "x2_avgvar_mgf is the transform of the gamma expansion of X2; cond_avgvar_mgf is the transform of X1 times the Bessel mixture of X2 transforms, equals 1 at 0, and averaged over the Poisson-gamma draw of the final variance gives the transform of the average variance returned by the CIR model.", "quantifier": "every parameter set with mr, vov, theta > 0, step, initial and final variance, real argument below the pole (<= 0 for the average)", "why_tests_cant": "an identity between infinite sums and integrals over a continuum of arguments", "anchors": ["pyfeng/heston_mc.py:HestonMcGlassermanKim2011.cond_avgvar_mgf", "pyfeng/heston_mc.py:HestonMcGlassermanKim2011.x2_avgvar_mgf", "pyfeng/heston.py"]}
{"id": "C79", "title": "Simulation of the 3/2 model", "statement": "1/V of the 3/2 model is the square-root process the exact schemes simulate, with the parameters used; Euler and Milstein steps have the exact conditional mean and second moment before the floor, are never negative, and the Milstein floor never acts for small steps; an unknown scheme raises; the conditional spot is the drift-free functional of the model with the right loading on the variance noise, and the conditional volatility its residual variance; draws of the average variance (inverse Gaussian, gamma, lognormal) have the requested mean and variance.", "quantifier": "every parameter set, scheme, time grid and random draws", "why_tests_cant": "quantifies over all simulated paths and an expectation over all draws", "anchors": ["pyfeng/sv32_mc.py:Sv32McABC.cond_spot_sigma", "pyfeng/sv32_mc.py:Sv32McTimeStep.var_step_euler", "pyfeng/sv32_mc.py:Sv32McTimeStep.cond_states_step", "pyfeng/sv32_mc.py:Sv32McBaldeaux2012Exact"]}
{"id": "C80", "title": "Conditional average variance of the 3/2 model", "statement": "The modified Bessel function and its order derivatives used by the 3/2 sampler are the truncated series and its exact derivatives (converging to I_nu); cond_avgvar_mv returns the mean and variance determined by the published conditional Laplace transform, with and without the Bessel index, and the index mixture reproduces the unconditional transform. (Refuted: the transform given the index lacks the step length in the exponent, so it is right only for dt = 1.)", "quantifier": "every parameter set with mr, vov, theta > 0, step, initial and final variance, argument, index", "why_tests_cant": "derivatives and infinite sums over a continuum of inputs", "anchors": ["pyfeng/sv32_mc.py:Sv32McABC.cond_avgvar_mv", "pyfeng/sv32_mc.py:Sv32McBaldeaux2012Exact.cond_avgvar_laplace", "pyfeng/sv32_mc.py:Sv32McABC.iv_complex"]}
{"id": "C81", "title": "Moment generating function of the 3/2 model", "statement": "Sv32ABC.logp_mgf at real u in [0,1] tends, as more terms of the hypergeometric series are kept and with the exponent clip out of reach, to a solution of the backward equation of E(S_T^u)/S_0^u in the 3/2 model which equals 1 at expiry; for every other u with non-negative discriminant it solves the same equation.", "quantifier": "every mr, theta, vov > 0, rho, variance, expiry and real u", "why_tests_cant": "a partial differential equation and limits over a continuum of inputs", "anchors": ["pyfeng/sv32.py:Sv32ABC.logp_mgf", "pyfeng/sv32.py:hyp1f1_complex"]}
{"id": "C82", "title": "Rough Heston variance simulation", "statement": "ModifiedEM paths are the stochastic Volterra equation with kernel t^-alpha/Gamma(1-alpha), frozen coefficients, exact cell integrals and exact Ito standard deviations; Fast replaces the kernel on old cells by a sum of exponentials whose error at every time is the tail beyond the cut-off plus the scaled errors of the Gauss rules; MultifactorApprox uses the mass and mean of the mixing measure on each interval and is stable. (Refuted: paths become NaN after a negative variance, always for alpha >= 1/2 including the default 0.62; Fast's noise on old cells is too large; the node counts miss the stated tolerance.)", "quantifier": "every parameter set, step count, draw, quadrature rule and time", "why_tests_cant": "quantifies over all paths, draws and rules", "anchors": ["pyfeng/heston_rough_mc.py:RoughHestonMcMaWu2022.ModifiedEM", "pyfeng/heston_rough_mc.py:RoughHestonMcMaWu2022.Fast", "pyfeng/heston_rough_mc.py:RoughHestonMcMaWu2022.get_nodes_weights", "pyfeng/heston_rough_mc.py:RoughHestonMcMaWu2022.MultifactorApprox"]}
{"id": "C83", "title": "Rough Heston Monte-Carlo prices", "statement": "For every look-back variance scheme: the expected simulated asset, the expected conditional forward and the conditional variance are computed exactly, giving call minus put of price and priceCMC. (Refuted: price uses intr instead of intr*dt and one step too few, so parity holds only if (n_ts-1)*intr = (intr-divr)*texp; the conditional forward has an extra exp(intr*texp) and is grown again by the Black-Scholes pricer, so parity holds only if 2*intr = divr.)", "quantifier": "every adapted non-negative variance scheme, step count, rates, strike, sample", "why_tests_cant": "an expectation over all draws for all schemes", "anchors": ["pyfeng/heston_rough_mc.py:RoughHestonMcMaWu2022.price", "pyfeng/heston_rough_mc.py:RoughHestonMcMaWu2022.cond_spot_sigma", "pyfeng/heston_rough_mc.py:RoughHestonMcMaWu2022.priceCMC", "pyfeng/heston_rough_mc.py:RoughHestonMcMaWu2022.random_normals"]}
{"id": "C84", "title": "Heston variance-swap strike by simulation", "statement": "With the Poisson-conditioned time discretisation, the expectation over all Poisson and gamma draws of return_var_realized(texp, cond=True) equals strike_var_swap_analytic(texp, dt) for the observation period used, for any rates; drawing the returns (cond=False) has the same expectation for every scheme without a drift correction; the term added for the unexplained variance is exactly what a random average variance contributes. (Refuted for the QE scheme with correct_martingale: cond=True ignores the correction that cond=False adds to every return.)", "quantifier": "every parameter set with mean reversion times step at least 0.2, any number of steps, all rates", "why_tests_cant": "ranges over a continuum of real inputs; a test samples finitely many points; a simulation test only sees the sum of bias and sampling noise", "anchors": ["pyfeng/heston_mc.py:HestonMcABC.return_var_realized", "pyfeng/heston_mc.py:HestonMcABC.cond_log_return_var", "pyfeng/heston_mc.py:HestonMcABC.draw_log_return", "pyfeng/heston_mc.py:HestonMcChoiKwok2023PoisTd.cond_states_step", "pyfeng/sv_abc.py:CondMcBsmABC.strike_var_swap"]}
{"id": "C85", "title": "NSVh Gaussian quadrature", "statement": "NsvhGaussQuad.price is the discounted expected payoff of the law simulated by NsvhMc: the angular and radial integrals are evaluated in closed form / by a rule applied to the right integrand, and the outer rule is applied to the conditional expectation after an exact change of measure; put-call parity holds exactly for every symmetric rule and cdf(cp=1)+cdf(cp=-1)=1. (Refuted: a scalar strike raises in NsvhGaussQuad and NsvhMc.)", "quantifier": "every parameter set with |rho|<1, strike, expiry, lambda and quadrature rule", "why_tests_cant": "quantifies over all parameters and rules; the reference value is a three-dimensional integral", "anchors": ["pyfeng/nsvh.py:NsvhGaussQuad.price", "pyfeng/nsvh.py:NsvhGaussQuad.cdf", "pyfeng/nsvh.py:NsvhMc.price"]}
{"id": "C86", "title": "NSVh exact simulation", "statement": "One step of NsvhMc.mc_vol_price of any length samples the exact joint law of volatility and the two Brownian integrals: the simulated point is at hyperbolic distance vov*sqrt(texp)*|Z|, its density is the hyperbolic density with drift lambda, which solves the forward equation of the model; every point is reached; prices are martingales and the sampled prices satisfy parity against the sampled forward.", "quantifier": "every lambda, parameter set, expiry and normal sample", "why_tests_cant": "a statement about the law of a continuous random point and a partial differential equation", "anchors": ["pyfeng/nsvh.py:NsvhMc.mc_vol_price", "pyfeng/nsvh.py:NsvhMc.price"]}
{"id": "C87", "title": "Chi-square routine and terminal-price draw of the exact SABR simulation", "statement": "SabrMcCai2017Exact.chi2_cdf_appr for arguments up to 500 always returns, and returns the non-central chi-square distribution function from below within 1e-7; it is strictly decreasing in the non-centrality; beyond 500 its value is on the right side of 1/2 relative to the mean. simu_ST returns 0 exactly when the uniform falls in the CEV mass at zero, and otherwise the CEV quantile of a probability within 1e-7 of the uniform.", "quantifier": "every argument, degrees of freedom, non-centrality, beta < 1, integrated variance, spot, uniform", "why_tests_cant": "an unbounded loop and an infinite series over a continuum of inputs", "anchors": ["pyfeng/sabr_mc.py:SabrMcCai2017Exact.chi2_cdf_appr", "pyfeng/sabr_mc.py:SabrMcCai2017Exact.simu_ST", "pyfeng/sabr_mc.py:SabrMcCai2017Exact.sabr_chi2_cdf"]}
{"id": "C88", "title": "Conditional transform of the SABR average variance", "statement": "SabrMcCai2017Exact.cond_invavgvar_mgf is E[exp(uu/avgvar) | sigma_t] of the SABR model: times the density of the volatility it solves the forward equation of (sigma, 1/integrated variance) with the right initial behaviour, equals 1 at 0, is increasing with values in (0,1], vanishes at -infinity and has first derivative 2 ln(sigma_t)/(sigma_t^2-1) at 0; the Euler transformation used to invert it has weights summing to one and relative error at most 2^-m on mixtures of geometric decays.", "quantifier": "every vovn > 0, volatility ratio > 0, argument, Euler parameters m and n", "why_tests_cant": "a partial differential equation and infinite sums", "anchors": ["pyfeng/sabr_mc.py:SabrMcCai2017Exact.cond_invavgvar_mgf", "pyfeng/sabr_mc.py:SabrMcCai2017Exact.inv_laplace", "pyfeng/sabr_mc.py:SabrMcCai2017Exact._init_euler_coefs"]}
{"id": "C89", "title": "Equivalent CEV volatilities of SABR", "statement": "SabrChoiWu2021H and SabrChoiWu2021P return, for every positive strike and base beta, a volatility whose leading order is the same geodesic distance whatever the base beta, whose at-the-money value is the second-order expansion, and which is continuous at the money; the correction of P is one integral whichever branch computes it; mass_zero_t0 is the short-time rate of the mass at zero. (Refuted: mass_zero always raises because the strike 0 is outside the domain of powrel; H with a base beta jumps at the money because its curvature term is divided by q instead of q^2; P with |1-beta| < 1e-3 misses the factor alpha/vov and jumps by rho*beta*vov*(vov-alpha)*T/4.)", "quantifier": "every parameter set, base beta, strike, forward, expiry", "why_tests_cant": "limits at the money and at strike 0 over all real parameters cannot be observed at finitely many points", "anchors": ["pyfeng/sabr.py:SabrChoiWu2021H", "pyfeng/sabr.py:SabrChoiWu2021P", "pyfeng/util.py:MathFuncs.powrel"]}
{"id": "C90", "title": "Lorig expansion of SABR", "statement": "SabrLorig2017.vol_for_price agrees at expiry zero with the exact leading-order volatility to third order in log-moneyness, equals Hagan's formula in the forward at the money for approx_order=1, keeps its slope in time at every order, depends on the forward only and reduces to Black-Scholes for vov=0, beta=1; put-call parity holds.", "quantifier": "every parameter set, order, strike, forward, expiry", "why_tests_cant": "third-order agreement is a limit statement over all parameters", "anchors": ["pyfeng/sabr.py:SabrLorig2017"]}
{"id": "C91", "title": "Mass at zero of SABR mixtures and simulations", "statement": "SabrMixtureABC.mass_zero and SabrMcTimeDisc.mass_zero return a probability strictly between 0 and 1 for every set of nodes; log=True returns its logarithm within 1e-7 relative for beta <= 11/12 and never exponentiates a positive number; correct_fwd makes the forward ratios average to one. (Refuted: the mass depends on the rates although the inputs are forwards.)", "quantifier": "every number of nodes or paths, weights, parameters, expiry", "why_tests_cant": "quantifies over all node sets and sample sizes", "anchors": ["pyfeng/sabr_int.py:SabrMixtureABC.mass_zero", "pyfeng/sabr_mc.py:SabrMcTimeDisc.mass_zero"]}
{"id": "C92", "title": "Conditioning nodes of the SABR mixtures", "statement": "The nodes of SabrUncorrChoiWu2021 and SabrMixtureChoi (cond_spot_sigma) are one per pair of quadrature points with positive weights summing to one, positive forward and volatility ratios; conditional average variance matches the lognormal moments used; the resulting prices satisfy put-call parity for a lognormal, normal or CEV base model, respect the no-arbitrage bounds, reduce to Black-Scholes without vol-of-vol, and the mass at zero is a probability strictly between 0 and 1. (Refuted: the forward ratios do not average to one for beta>0, rho<>0 unless correct_fwd is set; a negative beta raises UnboundLocalError.)", "quantifier": "every positive symmetric quadrature rule of any size, parameters, strike, expiry, rates", "why_tests_cant": "quantifies over all quadrature rules and a continuum of parameters", "anchors": ["pyfeng/sabr_int.py:SabrUncorrChoiWu2021.cond_spot_sigma", "pyfeng/sabr_int.py:SabrMixtureChoi.cond_spot_sigma", "pyfeng/sabr_int.py:SabrMixtureABC.price"]}
{"id": "C93", "title": "Volatility paths on a time grid", "statement": "OusvMcTimeDisc.vol_paths is, draw by draw, the exact volatility step repeated over the grid, with the joint Ornstein-Uhlenbeck law at the observation times; cond_states_full returns its end and Simpson averages with avgvol^2 <= avgvar, between the extremes of the path and exact for cubics on an even number of equal steps. SabrMcTimeDisc.vol_paths is the exact SABR volatility step repeated, and with a shift mu the returned log_rn_deriv is exactly the log ratio of the joint densities; cond_spot_sigma_volpath agrees with cond_spot_sigma. (Refuted for beta=0: its forward ratio misses the leading 1.)", "quantifier": "every grid, normals, parameters and shift", "why_tests_cant": "quantifies over all grids and draws; the change of measure is an identity between expectations", "anchors": ["pyfeng/ousv.py:OusvMcTimeDisc.vol_paths", "pyfeng/ousv.py:OusvMcTimeDisc.cond_states_full", "pyfeng/sabr_mc.py:SabrMcTimeDisc.vol_paths", "pyfeng/sabr_mc.py:SabrMcTimeDisc.cond_spot_sigma_volpath"]}
{"id": "C94", "title": "Schobel-Zhu inversion pricer", "statement": "In OusvSchobelZhu1998, f_1 and f_2 are the transform of the log-price at 1+i*phi and i*phi (for any complex square root, exponential and logarithm), and on real arguments in (0,1) that transform is logp_mgf of the model; put-call parity is exact for every truncation and step. (Refuted: the inversion integral over (0, infinity) starts at h: the rule is exact for cubics on [h, n*h], so the interval (0,h) is left out.)", "quantifier": "every parameter set, phi, strike, expiry, truncation and step", "why_tests_cant": "identities between complex functions on a continuum", "anchors": ["pyfeng/ousv.py:OusvSchobelZhu1998.f_1", "pyfeng/ousv.py:OusvSchobelZhu1998.f_2", "pyfeng/ousv.py:OusvSchobelZhu1998.D_B_C", "pyfeng/ousv.py:OusvSchobelZhu1998.price"]}
{"id": "C95", "title": "Three-strike SABR calibration", "statement": "SabrHagan2002.calibrate3 returns sigma > 0, vov > 0, -1 < rho < 1 with the model's beta whatever the solver does; every such parameter set is in its search space, so quotes produced by the model are reproduced when the solver finds a root; calibrated to prices, matched implied volatilities mean matched prices; the model changes only with setval=True.", "quantifier": "every quote triple, strikes, solver outcome", "why_tests_cant": "quantifies over all solver behaviours and quotes", "anchors": ["pyfeng/sabr.py:SabrHagan2002.calibrate3"]}
{"id": "C96", "title": "Unexplained variance ratio of the KL scheme", "statement": "OusvMcChoi2025KL.unexplained_var_ratio(mr_t, ns) is one minus the share of the first ns terms in the infinite series of a_n^4: in (0,1], 1 without terms, strictly decreasing in ns, and at most (mr_t^2+pi^2)^2/(3 pi^4 ns^3), so it tends to 0.", "quantifier": "every mr_t > 0 and number of sine terms", "why_tests_cant": "an infinite series and a limit in the number of terms", "anchors": ["pyfeng/ousv.py:OusvMcChoi2025KL.unexplained_var_ratio"]}
{"id": "C97", "title": "Heston variance paths", "statement": "HestonMcAndersen2008.vol_paths starts at sigma, is non-negative at every date under every scheme and raises ValueError exactly for a scheme outside 0..4; under the quadratic-exponential scheme the variance at every date of every grid has exactly the mean and second moment of the CIR process and is the variance the prices are simulated on; scheme 3 gives the paths of HestonMcChoiKwok2023PoisTd and has the same exact moments, scheme 2 being scheme 3 on doubled gamma draws. (Refuted: the Euler noise is not scaled by sqrt(dt).)", "quantifier": "every grid, draws, parameters, scheme", "why_tests_cant": "quantifies over all grids and draws; moments are expectations over all normals", "anchors": ["pyfeng/heston_mc.py:HestonMcAndersen2008.vol_paths", "pyfeng/heston_mc.py:HestonMcChoiKwok2023PoisTd.vol_paths"]}
{"id": "C98", "title": "CgmyCos truncation interval", "statement": "The COS interval of CgmyCos (fang-oosterlee mode) has log-forward 0 in its interior exactly when Y > 0; for Y in (0, 1.97] the price is the discounted payoff integral of the N-term cosine series over [-L Y, L Y], the same interval at every maturity, so a call struck at F exp(L Y) or above is worth exactly 0. (Refuted for the accepted parameters Y < 0: every call is worth exactly 0, however deep in the money, and with pricing_formula='lefloch' calls struck between F and F exp(-L Y) are negative.)", "quantifier": "every C, G, M, Y accepted by the constructor, L > 0, strike, spot, maturity, N, characteristic function", "why_tests_cant": "quantifies over all parameters, strikes, maturities and transforms", "anchors": ["pyfeng/sv_cos.py:CgmyCos._truncation_range", "pyfeng/sv_cos.py:CosABC.price", "pyfeng/params.py:CgmyParams.__post_init__"]}
{"id": "C99", "title": "American put (QD+)", "statement": "For any positive boundary the QD+ price of AmerLi2010QdPlus is the exercise value K - S at and below it and continuous across it, and it is differentiable across it exactly when the boundary is a root of zero_func (spot model). On the continuation side it is Li's formula with lambda(h) the negative root of its quadratic. The early-exercise integrand is the expected discounted carry r K - q S while the spot is below the boundary. The long-maturity level of the initial guess is the exercise boundary of the perpetual put and lies in (0, K); the guess starts at K min(1, r/q) and stays between the two while (r-q) sqrt(T) <= 2 sigma. (Refuted: with is_fwd=True the price has a kink at every root; the guess exceeds the strike once (r-q) sqrt(T) > 2 sigma.)", "quantifier": "every strike, maturity, sigma, rates, boundary", "why_tests_cant": "quantifies over all parameters and boundaries; differentiability is not testable", "anchors": ["pyfeng/american.py:AmerLi2010QdPlus.price", "pyfeng/american.py:AmerLi2010QdPlus.zero_func", "pyfeng/american.py:AmerLi2010QdPlus.exer_bdd_ig", "pyfeng/american.py:AmerLi2010QdPlus.integrand"]}
