# A Rocq (Coq 8.16.1) model of PyFE/PyFENG

## 1. Approach

The library is numerical Python: pure functions of real numbers, a few stateful
objects (attribute mutation, per-instance caches, RNG configuration) and loops over
arrays.  The model is a *shallow embedding*, function by function:

* a Python float is a real number of Coq's `Reals` library, so arithmetic is exact.
  Rounding, NaN, infinities and overflow are **not** modelled; where the code guards
  against them (e.g. `np.maximum(sigma*sqrt(T), eps)`) the guard itself is modelled.
* a numpy array argument is a scalar (the code is element-wise) unless the array is
  itself the subject (paths, nodes, matrices); then it is a `list R` or a function
  `nat -> R` with an explicit length, and theorems hold for every length.
* `scipy.stats.norm._pdf/_cdf` are *defined* (Gauss.v): `npdf x = exp(-x^2/2)/sqrt(2 pi)` and
  `Phi x = 1/2 + RInt npdf 0 x`; `0 < Phi < 1`, limits and monotonicity are proved
  (Gaussian integral included), not assumed.
* other special functions (non-central chi-square, gamma cdf, Bessel functions,
  root finders, Hermite nodes, random streams) are universally quantified function
  arguments; a theorem lists whatever it needs of them as hypotheses, and an Example
  shows an instance meeting them.
* exceptions are values (`option` / `sum`), mutation is a function returning the new
  object, caches are association lists inside an explicit state.

Every definition carries a comment with the file and lines it models.  The property
theorems are in `Props_*.v`, each closed by `exact` with `Print Assumptions` under it;
non-vacuity Examples sit beside them.  If the code violates the property as stated, the
theorem is named `..._refuted` and exhibits a witness, and the restricted positive form
that does hold is proved next to it.

### File map

* *Specification files* (`Spec_*.v`): small vocabularies that the theorem statements use and that do not
  mention the code. `Spec_Opt` (payoff, forward, discount), `Spec_Expect` (`gauss_expect`: improper integral
  against the standard normal density; `normals_expect n`: the iterated expectation over n independent normals;
  variance/skewness/kurtosis from raw moments), `Spec_Params`, `Spec_Cos` (cosine series), `Spec_Sde`/`Spec_Ou`
  (generators and backward equations of CIR and OU processes), `Spec_Fd`, `Spec_Fd2` (finite differences, Douglas ADI step, model generators), `Spec_Sabr`,
  `Spec_Misc`, `Spec_Dist` (densities and Gauss rules), `Spec_Moment`, `Spec_Multi`/`Spec_Multi2` (correlated
  assets, covariance factors, baskets), `Spec_Alloc` (risk shares, capped simplex),
  `Spec_Svi` (convexity, large-maturity Heston smile), `Spec_Cev` (gamma function, non-central chi-square, CEV pricing equation),
  `Spec_Asian` (moments of the continuously averaged lognormal price, second moment implied by a call-price curve),
  `Spec_Rough` (Riemann-Liouville integrals, grid interpolants, the Adams recursion, the Riccati power series), `Spec_Garch`
  (generator of the GARCH diffusion), `Spec_Fwd` (honouring the is_fwd flag), `Spec_Recip` (scipy's gamma and inverse Gaussian routines),
  `Spec_CevMc` (Poisson probabilities), `Spec_Ellipe` (elliptic integral E, improper integrals from a point, exact Laguerre rule), `Spec_Barrier` (pricing equation, live side, value at expiry),
  `Spec_HestonMc` (cumulant generating functions of gamma and compound Poisson draws, Poisson and gamma expectations, Bessel function and distribution),
  `Spec_Sv32` (generator and backward equation of the 3/2 model, digamma and trigamma, published conditional transforms),
  `Spec_RoughMc` (Volterra cells, sums of exponentials, quadrature errors, adapted schemes), `Spec_HestonMc2` (expectation over all Poisson and gamma draws
  of a path), `Spec_NsvhQuad` (expectations over normals in polar coordinates, change of measure, hyperbolic distance and density),
  `Spec_SabrCai` (forward equation of the volatility and the inverse integrated variance).
* `M_SabrVol` (Choi-Wu H/P with base beta, Lorig, masses at zero of mixtures and simulations), `P_Small` (small-o calculus),
  `P_SabrVol`...`P_SabrVol6`, `P_SabrMass`, `Props_SabrVol`, `Props_SabrVol2` (C89-C91).
* `Spec_SabrVol`, `M_SabrMix` (nodes of SabrUncorrChoiWu2021 and SabrMixtureChoi), `P_SabrMix`...`P_SabrMix4`, `P_SabrTight`, `Props_SabrMix` (C92).
* `M_VolPath`, `Spec_VolPath` (grids, iterated steps, Gaussian families), `P_VolPath`, `P_VolPath2`, `P_VolPath3`, `Props_VolPath` (C93).
* `M_Sz` (complex Schobel-Zhu transforms and pricer, calibrate3), `Spec_Sz`, `P_Sz`, `P_Sz2`, `Props_Sz` (C94, C95).
* `P_SabrMix5` (skewness match of the inner lognormal, C92).
* `M_Ratio`, `P_Ratio` (KL unexplained variance ratio), `M_HPath`, `P_HPath`, `Spec_HPath`, `P_HPath2` (Heston variance paths), `Props_Paths` (C96, C97).
* `M_CgmyRange`, `P_CgmyRange`, `Props_CgmyRange` (truncation interval of CgmyCos, C98).
* `M_Amer`, `P_Amer`, `P_Amer2`, `P_Amer3`, `Props_Amer` (american.py QD+, C99).
* *Model files* (`M_*.v`): the code, one definition per function, citing file and lines.
* *Proof files* (`P_*.v`): lemmas. *Property files* (`Props_*.v`): the theorems listed in MANIFEST.json.


## 2. Plan per property

For each property: what is modelled, how it is proved, and (once written) the theorem file.

* **C01 BSM put-call parity.** Model `Bsm.price_formula` (M_Opt.v) over the reals with the volatility floor; parity is an algebraic identity plus Phi(x)+Phi(-x)=1 (Gauss.v), no hypotheses. Theorems: Props_Opt.v.
* **C02 BSM no-arbitrage bounds.** Strict lower/upper bounds from positivity of the Black function, proved by monotonicity of the Mills ratio. Theorems: Props_Opt.v.
* **C03 BSM monotone and convex.** Signs of exact derivatives (vega, strike and spot derivatives) turned into monotonicity by the mean value theorem; convexity from monotone strike derivative. Theorems: Props_Opt.v.
* **C04 BSM greeks are the derivatives of the price.** Coquelicot `is_derive` / `is_derive_n` of the modelled price; vega2 turns out to be off by sqrt(texp): exact factor and counterexample. Theorems: Props_Opt.v.
* **C05 BSM cdf is the strike derivative of the undiscounted price.** Strike derivative of the modelled price. Theorems: Props_Opt.v.
* **C06 BSM variance derivatives.** Third-order chain rule in variance; the coded value lacks the factor fwd/spot: exact factor and counterexamples. Theorems: Props_Opt.v.
* **C07 BSM implied volatility is the inverse of the price.** Newton loop over arrays as structural recursion on the iteration count; existence (IVT) and uniqueness (strict monotonicity) of the implied volatility; log-concavity of the price in volatility (Sampford / Mills bounds), error of the Taylor branch by repeated integration, starting point below the root, invariant and progress of the Newton step => convergence; post-condition and round trip of a converged run. Theorems: Props_Newton.v, Props_Opt.v.
* **C08 Barrier knock-in plus knock-out equals vanilla.** Shared `price_barrier` with the two method arguments; in+out algebraic; knock-out at the barrier from parity of the sub-optimal price; the boundary value problem (pricing equation, value 0 at the barrier, payoff at expiry) by writing the sub-optimal and reflected prices as exp(a ln S + bT) Phi(.) blocks; refutations for strikes beyond the barrier and for the Bachelier drift. Theorems: Props_Barrier.v, Props_Opt.v.
* **C09 Bachelier parity, bounds and greeks.** Same treatment for `Norm`; theta, expiry limit and asset-or-nothing put are refuted with witnesses. Theorems: Props_Opt.v, Props_Tight.v.
* **C10 Displaced BSM reduces to BSM and keeps parity.** BsmDisp with its asymmetric sigma property; reduction at beta=1, parity, greeks; theta and price_vsk refuted. Theorems: Props_Opt.v, Props_Tight.v.
* **C11 Forward / discount consistency and homogeneity.** Both forward routines modelled separately and proved equal; homogeneity / translation. Theorems: Props_Opt.v.
* **C12 Numeric greeks do not disturb the model.** Heap model with object identity (copy.copy, attribute assignment); frame property for an arbitrary price method; exactness on quadratics. Theorems: Props_Opt.v.
* **C13 pdf_numeric / cdf_numeric / impvol_brentq rate handling.** Exact limit of the finite differences as h->0 (characterises what is computed), then witnesses; Brent root finder is an arbitrary sound oracle. Theorems: Props_Opt.v.
* **C14 Parameter copy round trip.** Dataclass fields as lists of (name, metadata, value); `_params_kw` and `from_model` as list functions. Theorems: Props_Params.v.
* **C15 Constructor validation.** Each `__post_init__` as a partial function; soundness and completeness of acceptance. Theorems: Props_Params.v.
* **C16 Parameter hash / FFT cache coherence.** State machine: attribute writes, price calls, shallow copies, hash over frozenset of values; invariant for distinct hashes and a refuting history. Theorems: Props_Params.v.
* **C17 Multi-asset covariance canonicalisation.** `MaParams` canonicalisation on functional matrices for any dimension. Theorems: Props_Params.v.
* **C18 Martingale normalisation of the log-price MGF.** Real-argument MGFs of each model; evaluation at 0 and 1. Theorems: Props_Mgf.v, Props_Tight.v.
* **C19 Stale martingale correction after mutation.** Construct, mutate sigma, evaluate: the cached correction is stale. Theorems: Props_Mgf.v.
* **C20 Cumulants match the MGF.** Four derivatives at 0 of the log-MGF. Theorems: Props_Mgf.v.
* **C21 COS payoff coefficients are exact integrals.** Exact antiderivatives via Coquelicot RInt. Theorems: Props_Cos.v.
* **C22 COS put-call parity.** Algebra on finite sums for arbitrary characteristic coefficients. Theorems: Props_Cos.v.
* **C23 Heston COS interval covers the mean.** Interval endpoints as coded, witness strike. Theorems: Props_Cos.v.
* **C24 Monte-Carlo observation times.** `tobs` as a list over any n; ceil via up/IZR. Theorems: Props_Mc.v.
* **C25 Antithetic sampling.** List model of antithetic concatenation for arbitrary streams. Theorems: Props_Mc.v.
* **C26 Conditional MC / mixture parity.** Finite averages of Black prices over arbitrary conditional (forward, vol) samples. Theorems: Props_Mc.v.
* **C27 QE step moment matching.** Both QE branches; moments of the quadratic branch via E[(b+Z)^2] identities, exponential branch via its cdf. Theorems: Props_Heston.v.
* **C28 Glasserman-Kim draw distribution.** The eta-count loop as list recursion, invariant over any eta vector. Theorems: Props_Heston.v, Props_Tight.v.
* **C29 CIR and Heston moments.** Spec_Sde.v characterises conditional expectations by the Kolmogorov backward equation; the coded formulas are shown to solve it with the right initial value. Theorems: Props_Cir.v.
* **C30 OU volatility moments.** Exact integrals of OU moments. Theorems: Props_Ou.v.
* **C31 KL sine-series state equals path averages.** Finite sine series for any number of terms; exact integrals with orthogonality of sines. Theorems: Props_Ou.v.
* **C32 Tridiagonal solve correctness.** Forward/backward sweep over lists; solution equation by induction, pivots by diagonal dominance. Theorems: Props_Fd.v.
* **C33 Finite-difference put-call parity.** Scheme as linear operators on grids; X-K is a fixed point. Theorems: Props_Fd.v.
* **C34 Bilinear interpolation.** Locate-and-interpolate function; exactness and range. Theorems: Props_Fd.v.
* **C35 SABR average-variance moments.** Field identities in ww=exp(vov^2 T). Theorems: Props_Sabr.v, Props_Sabr2.v.
* **C36 SABR conditional Monte-Carlo and mixtures: discounting, parity, martingale.** Price functions with and without df; witness. Theorems: Props_Sabr.v.
* **C37 Hyperbolic-normal SV model: law, parity and moments.** Algebra over sinh/cosh; parity. Theorems: Props_Nsvh.v.
* **C38 SABR volatility approximations.** Two code paths, witness with r<>q. Theorems: Props_Sabr.v.
* **C39 Distribution quadratures: exactness, cdf, quantiles and cached nodes.** Nodes as images of a base Gauss rule (Spec_Dist.hermite_rule / laguerre_rule: textbook exactness up to degree 2n-1); half-line integrals against the true densities by substitution; cache as a state machine over setter calls. Theorems: Props_Dist.v.
* **C40 Distribution moments and moment fitting.** True moments of each density by integration, then algebra of fit; witnesses for negative skew. Theorems: Props_Dist2.v, Props_Dist3.v.
* **C41 N-dimensional quadrature indexing.** Mixed radix digits by induction over dimensions. Theorems: Props_Moment.v.
* **C42 Moments from a generating function.** Discrete Fourier orthogonality on the circle of sample points; convergent power series; Gram-Charlier recursion against the exponential of a power series. Theorems: Props_Moment.v.
* **C43 Spread and two-asset options.** Change of measure for two independent normals (iterated Gaussian integrals), half-plane probabilities, bivariate cdf by its defining property. Theorems: Props_Multi.v.
* **C44 Basket approximations: parity and moments.** Exponential-moment formula for n independent normals, finite sums over any number of assets. Theorems: Props_Asian.v, Props_Multi.v, Props_Multi3.v.
* **C45 Factor rotation of the Choi (2018) basket pricer.** Finite-dimensional vectors as functions with finite sums; half-space expectation for n normals. Theorems: Props_Multi.v, Props_Multi3.v.
* **C46 Risk parity updates.** Quadratic root, descent of the convex objective (hence convergence), loop post-condition, uniqueness by monotonicity. Theorems: Props_Alloc.v.
* **C47 Simplex-box projection.** Bisection loop invariant, KKT conditions. Theorems: Props_Alloc.v.
* **C48 Asian moments and fitted prices.** Closed-form moments; parity. Theorems: Props_Asian.v.
* **C49 CEV: parity, Greeks, pricing equation, law and mass at zero.** Gamma function and non-central chi-square laws built from their densities (power series, differentiation under the sum, exchange and recurrence identities); total derivative of the price; law by integrating the survival function; gamma tail bounds. Theorems: Props_Cev.v.
* **C50 SVI surface.** Convexity and minimum by Cauchy-Schwarz on the square root; wings by explicit error; Heston limit by Legendre duality of the two limiting cumulant generating functions. Theorems: Props_Svi.v.
* **C51 Fractional Adams solver of the rough Heston transform.** Telescoping sums. Theorems: Props_Rough.v, Props_Rough2.v.
* **C52 Fast hybrid solver of the rough Heston transform.** Imperative loop with shadowed index on array state. Theorems: Props_Rough.v, Props_Rough2.v.
* **C53 Forward-flag propagation.** Unfolding of each pricer through its forward; homogeneity for conditional Monte-Carlo; parity contradiction for the refuted ones. Theorems: Props_Fwd.v.
* **C54 Closed-form prices are discounted expected payoffs.** Improper integral as limit over symmetric intervals; Gaussian antiderivatives; Phi limits at infinity. Theorems: Props_Opt.v.
* **C55 Fourier prices satisfy put-call parity.** Price formula for an arbitrary interpolator (M_Cache.v). Theorems: Props_Params.v.
* **C56 Stochastic-volatility transforms solve the model's equations.** Explicit coefficient functions; derivative in texp computed and compared with the Riccati right-hand side. Theorems: Props_Mgf.v.
* **C57 Two published forms of the OUSV transform agree.** hyperbolic functions rewritten through exp(-dd texp/2), then a field identity. Theorems: Props_Mgf.v.
* **C58 Refined GARCH transform equals the line-by-line one.** exact difference as a field identity; it vanishes only at texp=1. Theorems: Props_Mgf.v.
* **C59 Chernoff truncation bound (junike mode).** loop invariant plus Markov/Chernoff inequality on Riemann integrals. Theorems: Props_Cos.v.
* **C60 Conditional pricing matches path simulation (Heston MC).** Induction over the time grid for an arbitrary step function. Theorems: Props_Mc.v.
* **C61 Simulated price paths are martingales.** Gaussian integral of one step. Theorems: Props_Mc.v.
* **C62 Variance-swap strike.** Sum over n periods of expectations characterised as in C29; geometric sums. Theorems: Props_Cir.v.
* **C63 OUSV variance-swap strike.** Backward-equation moments of the OU process (Spec_Ou.v) integrated in closed form. Theorems: Props_Ou.v.
* **C64 KL closed-form sums and truncation independence.** Cosine series summed by a Fejer-kernel argument; iterated Gaussian expectation over n normals (Spec_Expect.v). Theorems: Props_Ou.v.
* **C65 Conditional pricing matches path simulation (OUSV MC).** Induction over the time grid for an arbitrary step routine; generator of the OU process applied to the conditional spot. Theorems: Props_Ou.v.
* **C66 Baskets driven by one Brownian motion.** Monotone one-factor basket; monotone convergence of Newton on a log-convex sum with an explicit geometric rate; tail bounds. Theorems: Props_Multi2.v.
* **C67 Multi-asset Monte-Carlo.** Iterated expectation over all normals of all paths; block structure of the draw vector. Theorems: Props_Multi2.v.
* **C68 Constrained risk parity (SCA).** Projected step bounds, descent count for termination, derivative of the objective. Theorems: Props_Alloc.v.
* **C69 GARCH diffusion: average variance, simulation steps, conditional spot.** Backward equation solved explicitly for the first two moments of the integral; Gaussian expectations of the steps; Ito functional verified by its generator; induction over the path. Theorems: Props_Garch.v.
* **C70 Uncorrelated stochastic-volatility expansions.** Third-order derivatives of the Black-Scholes price in the variance; parity by cancellation of the put/call-independent terms. Theorems: Props_Garch.v.
* **C71 Inverse gamma and inverse Gaussian models.** Antiderivatives of payoff times density through the distribution functions and the reciprocal symmetry of the densities. Theorems: Props_Recip.v.
* **C72 Finite differences solve the model's pricing equation.** The two implicit sweeps solve their tridiagonal systems (C32); the boundary operator fixes the edges of every stage; induction over the steps. Theorems: Props_Fd2.v.
* **C73 CEV Monte-Carlo samples the exact CEV law.** Poisson duality (truncation with explicit tails), integer Beta integrals by explicit antiderivatives, squeeze at the improper end. Theorems: Props_CevMc.v.
* **C74 Normal SABR by elliptic integrals.** Antiderivatives of Mills-ratio weights, Fourier mean of the square root, substitution u^2 = u0^2 + 2v in the improper integral, dominated convergence. Theorems: Props_Ellipe.v.
* **C75 Volatility and price from the mass at zero.** Expand -d2 and the Mills ratio of d1 in u = 1/sqrt(2 log(F/K)) with explicit remainders; the coefficients of 1, u and u^2 cancel. Theorems: Props_Mass.v.
* **C76 Gamma expansion of the Heston average variance: remainders.** Partial-fraction expansions of coth (Fejer/Mittag-Leffler) give the full sums; zeta(2..8) and termwise comparison give the Taylor error; tails by subtracting partial sums; Stolz-type comparison with telescoping series for the asymptotics. Theorems: Props_HestonMc.v.
* **C77 Bessel index and Poisson conditioning of the Heston variance.** Bayes with the Poisson-gamma joint density, recurrences of the Bessel series for the moments; Poisson and gamma quadratic expectations for the tower. Theorems: Props_HestonMc.v.
* **C78 Transforms of the conditional average variance.** Log-derivatives of the closed forms are the partial fractions; gamma and Poisson generating functions summed in closed form and matched with the CIR transform. Theorems: Props_HestonMc.v.
* **C79 Simulation of the 3/2 model.** Ito generators under v -> 1/v; polynomial Gaussian expectations; discriminant of the Milstein quadratic. Theorems: Props_Sv32.v.
* **C80 Conditional average variance of the 3/2 model.** Termwise differentiation of the truncated Bessel series; digamma and trigamma built as derivatives of ln Gamma from the Gauss product; implicit differentiation of the order in the Laplace argument. Theorems: Props_Sv32.v.
* **C81 Moment generating function of the 3/2 model.** Kummer series and its ODE by coefficient comparison; chain rule for the backward equation; Kummer transformation (Chu-Vandermonde and Cauchy product), Poisson mixture and gamma-ratio inequalities for the limit at expiry. Theorems: Props_Kummer.v.
* **C82 Rough Heston variance simulation.** Induction on the step for each scheme; improper cell integrals of powers and exponentials; Cauchy-Schwarz/Minkowski for the noise of Fast; gamma distribution function for the truncated Laplace integral; mean value theorem for the factor rates. Theorems: Props_RoughMc.v.
* **C83 Rough Heston Monte-Carlo prices.** Martingale induction over independent normals (two per step), telescoping trapezium sum, Black-Scholes parity. Theorems: Props_RoughMc2.v.
* **C84 Heston variance-swap strike by simulation.** Quadratic gamma / Poisson expectations of one step give the exact conditional second moment (isometry and covariance identities), then induction over the steps with the semigroup property of the first two moments; sum identified with the analytic strike (C62). Theorems: Props_HestonRv.v.
* **C85 NSVh Gaussian quadrature.** Angular integral of the payoff by explicit antiderivatives, radial integral by an improper-integral shift (the payoff is degenerate below the threshold v0), Girsanov shift of the outer integral, existence by domination; parity by cancellation and the normalisation of the rule. Theorems: Props_NsvhQuad.v.
* **C86 NSVh exact simulation.** Explicit Jacobian of the polar map and hyperbolic trigonometry; the density is a function of cosh of the distance times a power of the volatility, so the forward equation reduces to an ordinary differential equation checked by field; Gaussian integrals on the whole line for the martingale property. Theorems: Props_NsvhQuad.v.
* **C87 Chi-square routine and terminal-price draw of the exact SABR simulation.** The loop state is characterised by induction (terms, partial Poisson sums); the terms give the non-central chi-square distribution function as one series, whose remainder is bounded by a geometric series exactly as in the stopping test; the terms tend to zero, so the test is eventually met. The stopping index does not depend on the non-centrality, which gives monotonicity. The draw is then compared with the CEV law of C49. Theorems: Props_SabrCai.v.
* **C88 Conditional transform of the SABR average variance.** The joint transform is written as one exponential of the hyperbolic distance; first and second derivatives by the chain rule, and the forward equation is a field identity. Euler transformation by the binomial theorem on geometric sequences, extended linearly. Theorems: Props_SabrCai.v.
* **C89 Equivalent CEV volatilities of SABR.** Small-o calculus (P_Small.v) in y = ln(K/F): expansions of powrel, of the hyperbolic distance and of the correction; the G term by differentiating its closed form in each branch and the mean value theorem; strike 0 by filter limits of powers; short-time mass from the gamma tail asymptotics of C49. Theorems: Props_SabrVol.v.
* **C90 Lorig expansion of SABR.** The same small-o calculus to third order; algebra at the money; automatic differentiation in T. Theorems: Props_SabrVol2.v.
* **C91 Mass at zero of SABR mixtures and simulations.** Log-sum-exp identity by induction over the list; strict monotonicity of the gamma distribution function; C49 log-mass bound summed over nodes. Theorems: Props_SabrVol2.v.
* **C92 Conditioning nodes of the SABR mixtures.** M_SabrMix: uncorr_nodes, mixchoi_nodes and the prices averaged over them; Gauss-Hermite rules as arbitrary positive symmetric lists. Positivity of the conditional variance from the lognormal moment formulas, then sums over product rules by induction. Theorems: Props_SabrMix.v.
* **C93 Volatility paths on a time grid.** M_VolPath: bm path, ou_vol_paths, scipy simps (even='avg'), ou_full, sabr_vol_paths, sabr_volpath_cond on one path with lists of times and normals. Induction over the grid; covariance of the cumulated increments; Simpson as a linear, positive, normalised functional. Theorems: Props_VolPath.v.
* **C94 Schobel-Zhu inversion pricer.** M_Sz over Coquelicot's complex numbers with sqrt/exp/log/sinh/cosh as parameters; equality with the transform by complex ring identities (i*i=-1), restriction to the reals via the Schobel-Zhu = Lord-Kahl identity of C57; Simpson rule on h..nh. Theorems: Props_Sz.v.
* **C95 Three-strike SABR calibration.** M_Sz.calibrate3: root finder and implied volatility as parameters; exp/exp/tanh parametrisation onto the admissible set. Theorems: Props_Sz.v.
* **C96 Unexplained variance ratio of the KL scheme.** M_Ratio on top of M_Ou's closed-form sums: tail of the series by C64, telescoping comparison with 1/n^4 for the rate. Theorems: Props_Paths.v.
* **C97 Heston variance paths.** M_HPath: iterated step per scheme; moments by induction over dates with an affine-quadratic test function and the tower property of the CIR moments (C27, C29). Theorems: Props_Paths.v.
* **C98 CgmyCos truncation interval.** M_CgmyRange on M_Cos: sign analysis of the interval; the clipped payoff coefficients vanish identically when the log-strike is clipped to the upper end; C21 for the rest. Theorems: Props_CgmyRange.v.
* **C99 American put (QD+).** M_Amer: derivative of the continuation formula at the boundary from the BSM delta (C04), gluing lemma for piecewise functions; perpetual put from the quadratic for q_inf. Theorems: Props_Amer.v.

## 3. Trusted base

* Coq 8.16.1's kernel (and the `coqc` front end that feeds it).
* The axioms reported by `Print Assumptions` under every theorem (build log).  They are all
  from the standard library's classical reals:
  - `ClassicalDedekindReals.sig_forall_dec`, `ClassicalDedekindReals.sig_not_dec` (stdlib Reals),
  - `FunctionalExtensionality.functional_extensionality_dep` (used by Reals and Coquelicot),
  - `Classical_Prop.classic` (used by the stdlib's real analysis) where listed.
  Theorems about pure data structures (lists, indices, state machines) are closed under the
  global context or use a subset of these.  No axiom is added by this development; libraries
  used: the standard library and Coquelicot (itself axiom-free on top of stdlib Reals).
* The faithfulness of the model to the Python text: each definition cites file and lines.
  Floating point is replaced by exact real arithmetic (see section 1); array broadcasting is
  element-wise; NumPy/SciPy special functions are either defined exactly (normal pdf/cdf,
  exp, log, sqrt, powers) or quantified over with the needed laws as hypotheses.

## 4. Simplifications that matter

* Division by zero, logs of non-positive numbers and square roots of negatives are totalised in
  Coq (`/0 = 0`, `ln` of a non-positive is 0, `sqrt` of a negative is 0).  Theorems whose truth would depend on this carry the
  positivity hypotheses under which the Python code is meaningful.
* `np.finfo(float).eps` is the exact rational 2^-52.
* `mills_ratio` (erfcx based) is its mathematical meaning.
* Complex arguments: where the code evaluates an MGF at complex u only real u is modelled,
  unless stated.

## 5. Not modelled

Floating-point rounding; NaN/inf propagation; NumPy dtype promotion and broadcasting errors;
plotting/IO; SciPy internals (quad, brentq, ncx2, Bessel, FFT); wall-clock and memory; packaging.

Functions of /repo/pyfeng with no counterpart in the model (everything else that prices, simulates,
allocates or converts parameters has one, cited in the `M_*.v` files):

* `american.py`: the Newton iteration of `exer_bdd` (the rest is M_Amer; the class's own constructor raises TypeError, so it runs only combined with BsmParams).
* `heston_mc.py`: the tabulated inverse distribution functions (`x2_cdf_points_aw`, `x2_icdf_interp`);
  `sv32_mc.py`: `cond_states_step_invlap`.
* `asian.py`: the zeros of Linetsky's expansion; `RiskParity.init_random`.
* `__init__`/`configure`/`__post_init__` bookkeeping apart from what the cited definitions state, example data (`ex.py`), `vol_smile` wrappers.
