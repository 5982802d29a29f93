(** sabr_int.py: SabrNormEllipeInt and the quadrature correction of SabrNormAnalytic.  The elliptic integral scipy.special.ellipe,
    the Gauss-Laguerre rule and scipy.integrate.quad are parameters. *)
From Coq Require Import Reals List.
From Verif Require Import Gauss Sums M_Opt M_Fd M_Sabr.
Import ListNotations.
Open Scope R_scope.

(** sabr_int.py:204-210, 323-329: xi, k, V and u0 *)
Definition nsi_xi (p : sabrp) (texp : R) : R := / 2 * b_vov p * sqrt texp.
Definition nsi_k (p : sabrp) (strike fwd : R) : R := b_vov p / b_sigma p * (strike - fwd) + b_rho p.
Definition nsi_u0 (rho k xi : R) : R :=
  let rhoc2 := 1 - rho ^ 2 in let V := sqrt (k ^ 2 + rhoc2) in
  arcsinh_np (Rabs ((rho * V - k) / rhoc2)) / (2 * xi).
(** sabr_int.py:273-293 SabrNormEllipeInt.hh_xi *)
Definition hh_xi (ellipe : R -> R) (uu k xi rho : R) : R :=
  let rhoc2 := 1 - rho ^ 2 in
  let ch := cosh (2 * xi * uu) in
  let diff := sqrt (Rmax (rhoc2 * (ch ^ 2 - 1 - (k - rho * ch) ^ 2)) 0) in
  let v_p := Rmax (rho * k + rhoc2 * ch + diff) 0 in
  sqrt v_p * ellipe (Rmin (2 * diff / v_p) 1).
(** sabr_int.py:295-320 SabrNormEllipeInt.hh_xi_approx *)
Definition hh_xi_approx (uu k xi rho : R) : R :=
  let rhoc2 := 1 - rho ^ 2 in
  let V := sqrt (k ^ 2 + rhoc2) in
  let u0 := arcsinh_np (Rabs ((rho * V - k) / rhoc2)) / (2 * xi) in
  let tmp1 := Rabs (rho - k / V) in
  let tmp2 := 1 - rho * k / V in
  let A := 3 / 4 * tmp1 in
  let B := 3 / 4 * (tmp2 - 5 / 16 * tmp1 ^ 2) in
  sqrt V * PI / 2 * (1 + xi * (uu - u0) * (A + B * xi * (uu - u0))).
(** sabr_int.py:331-334 the integrand: hh times the weight *)
Definition nsi_weight (uu xi : R) : R := npdf uu * (mills (uu + xi) + mills (uu - xi)).
(** sabr_int.py:322-345 SabrNormEllipeInt.price; quad f a b = scipy's value of the integral of f over [a, b] *)
Definition norm_ellipe_tv (ellipe : R -> R) (quad : (R -> R) -> R -> R -> R) (p : sabrp) (strike fwd texp : R) : R :=
  let xi := nsi_xi p texp in let k := nsi_k p strike fwd in let u0 := nsi_u0 (b_rho p) k xi in
  quad (fun uu => hh_xi ellipe uu k xi (b_rho p) * nsi_weight uu xi) u0 (sqrt (u0 ^ 2 + 73))
  * (b_sigma p * sqrt texp / PI * exp (- (/ 2) * xi ^ 2)).
Definition norm_ellipe_price (ellipe : R -> R) (quad : (R -> R) -> R -> R -> R) (mo : opt) (p : sabrp) (strike spot texp cp : R) : R :=
  let '(fwd, df, _) := fwd_df_divf mo spot texp in
  (norm_ellipe_tv ellipe quad p strike fwd texp + Rmax (cp * (fwd - strike)) 0) * df.
(** sabr_int.py:220-236 SabrNormAnalytic.price with quad_correction = True: what is added, for the rule (v_value, v_weight) of
    roots_genlaguerre(n_quad, 1.5); the factor 0.5 sigma sqrt(texp V) exp(-xi^2/2) n(u0) of line 238 is included *)
Definition norm_analytic_correction (ellipe : R -> R) (rule : list (R * R)) (p : sabrp) (strike fwd texp : R) : R :=
  let rho := b_rho p in
  let rhoc2 := 1 - rho ^ 2 in let xi := b_vov p * sqrt texp / 2 in
  let k := nsi_k p strike fwd in
  let V := sqrt (k ^ 2 + rhoc2) in
  let u0 := arcsinh_np (Rabs ((rho * V - k) / rhoc2)) / (2 * xi) in
  let tmp1 := Rabs (rho - k / V) in let tmp2 := 1 - rho * k / V in
  let A := 3 / 4 * tmp1 in let B := 3 / 4 * (tmp2 - 5 / 16 * tmp1 ^ 2) in
  let term (v w : R) :=
    let uu := sqrt (u0 ^ 2 + 2 * v) in
    let w := w / (v * sqrt v) / uu in
    let ch := cosh (2 * xi * uu) in
    let diff := sqrt (Rmax (rhoc2 * (ch ^ 2 - 1 - (k - rho * ch) ^ 2)) 0) in
    let v_p := rho * k + rhoc2 * ch + diff in
    let fn := 2 / PI * sqrt (v_p / V) * ellipe (Rmin (2 * diff / v_p) 1) - 1 - xi * (uu - u0) * (A + B * xi * (uu - u0)) in
    let base := mills (uu + xi) + mills (uu - xi) in
    fn * base * w in
  lsum (map (fun vw => term (fst vw) (snd vw)) rule) * (/ 2 * b_sigma p * sqrt (texp * V) * exp (- (/ 2) * xi ^ 2) * npdf u0).
Definition norm_analytic_price_corr (ellipe : R -> R) (rule : list (R * R)) (mo : opt) (p : sabrp) (strike spot texp cp : R) : R :=
  let '(fwd, df, _) := fwd_df_divf mo spot texp in
  (norm_analytic_tv p strike fwd texp + norm_analytic_correction ellipe rule p strike fwd texp + Rmax (cp * (fwd - strike)) 0) * df.
