(** nsvh.py NsvhMc and NsvhGaussQuad: simulation and quadrature for the hyperbolic normal stochastic-volatility model with
    general lambda.  The parameters (sigma, vov, rho) are those of [sabrp]; scipy's Gauss rules and the normals are parameters. *)
From Coq Require Import Reals List.
From Verif Require Import Sums M_Opt M_Fd M_Sabr M_Dist.
Import ListNotations.
Open Scope R_scope.

(** ** NsvhMc, one path.  nsvh.py:289-299: the shifted third normal, r2, exp_plus, phi_r1 *)
Definition nmc_std (p : sabrp) (texp : R) : R := sqrt (b_vov p ^ 2 * texp).
Definition nmc_z (lam s z2 : R) : R := z2 + / 2 * (lam - 1) * s.
Definition nmc_phi (s z0 z1 z : R) : R :=
  let r2 := z0 ^ 2 + z1 ^ 2 in sqrt (2 / r2) * sqrt (cosh (sqrt (r2 + z ^ 2) * s) - cosh (z * s)).
(** nsvh.py:301-303 df_z and df_w (two components) *)
Definition nmc_dfz (s z : R) : R := exp (/ 2 * s * z) ^ 2.
Definition nmc_dfw (s z0 z1 z : R) : R * R :=
  let f := nmc_phi s z0 z1 z in (exp (/ 2 * s * z) * z0 * f, exp (/ 2 * s * z) * z1 * f).
(** nsvh.py:305-309 mc_vol_price: the pair of price increments of one path, from raw normals *)
Definition nmc_prices (p : sabrp) (lam texp z0 z1 z2 : R) : R * R :=
  let s := nmc_std p texp in let z := nmc_z lam s z2 in
  let rhoc := sqrt (1 - b_rho p ^ 2) in
  let base := b_rho p * (nmc_dfz s z - exp (/ 2 * lam * (b_vov p ^ 2 * texp))) in
  let '(w0, w1) := nmc_dfw s z0 z1 z in
  (b_sigma p / b_vov p * (base + rhoc * w0), b_sigma p / b_vov p * (base + rhoc * w1)).
(** nsvh.py:286-287: each row of normals followed by its negative (whatever the antithetic flag) *)
Definition nmc_rows (z : list (R * R * R)) : list (R * R * R) :=
  flat_map (fun '(a, b, c) => [(a, b, c); (- a, - b, - c)]) z.
(** nsvh.py:314-336 price for an array of strikes: mean over both components of all rows.  A scalar strike raises TypeError
    at len(strike_std): None *)
Definition nmc_price (mo : opt) (p : sabrp) (lam : R) (z : list (R * R * R)) (strikes : option (list R)) (spot texp cp : R) : option (list R) :=
  let '(fwd, df, _) := fwd_df_divf mo spot texp in
  match strikes with
  | None => None
  | Some ks => Some (map (fun k => let v := flat_map (fun '(a, b, c) => let '(x, y) := nmc_prices p lam texp a b c in
                                       [Rmax (cp * (x - (k - fwd))) 0; Rmax (cp * (y - (k - fwd))) 0]) (nmc_rows z) in
                                  df * (lsum v / INR (length v))) ks)
  end.

(** ** NsvhGaussQuad.  nsvh.py:381 vovn, np.finfo(float).eps = 2^-52; cdf uses the floor 1e-64 (nsvh.py:434) *)
Definition nq_vovn (fl vov texp : R) : R := vov * sqrt (Rmax texp fl).
(** nsvh.py:384-385 the z weights, normalised so that the rule integrates exp(vovn z/2) exactly *)
Definition nq_zw (s : R) (zr : list (R * R)) : list (R * R) :=
  let tot := lsum (map (fun zw => exp (s / 2 * fst zw) * snd zw) zr) / exp (s ^ 2 / 8) in map (fun zw => (fst zw, snd zw / tot)) zr.
(** nsvh.py:388-392 nodes and weights in v from the rule of roots_genlaguerre(n, 0.5) *)
Definition nq_vw (vr : list (R * R)) : list (R * R) := map (fun vw => (2 * fst vw, snd vw / (PI * sqrt (fst vw)))) vr.
(** nsvh.py:406-415 u_hat, g_vec, v_0 *)
Definition nq_u (lam s z : R) : R := z + / 2 * lam * s.
Definition nq_g (rho lam s k u : R) : R := let ep := exp (s * u / 2) in rho * ep - (rho * exp (/ 2 * lam * s ^ 2) + k) / ep.
Definition nq_v0 (rho lam s k u : R) : R :=
  let ep := exp (s * u / 2) in let zc := (ep ^ 2 + 1 / ep ^ 2) / 2 in
  (arccosh (zc + / 2 * nq_g rho lam s k u ^ 2 / (1 - rho ^ 2)) / s) ^ 2 - u ^ 2.
(** nsvh.py:417-418 h_mat and theta_mat at the node v *)
Definition nq_h (rho s u v0 v : R) : R := sqrt (1 - rho ^ 2) * sqrt (2 * cosh (s * sqrt (u ^ 2 + v0 + v)) - 2 * cosh (s * u)).
Definition nq_theta (g h : R) : R := acos (Rabs g / h).
(** nsvh.py:420-422 int_z *)
Definition nq_zv (g h : R) : R := sqrt (h ^ 2 - g ^ 2) - Rabs g * nq_theta g h.
Definition nq_intz (rho lam s k : R) (vr : list (R * R)) (cp z : R) : R :=
  let u := nq_u lam s z in let g := nq_g rho lam s k u in let v0 := nq_v0 rho lam s k u in
  lsum (map (fun vw => nq_zv g (nq_h rho s u v0 (fst vw)) * snd vw) (nq_vw vr)) * exp (- v0 / 2) + Rmax (cp * g) 0.
(** nsvh.py:376-430 price for an array of strikes; a scalar strike raises IndexError at price[i]: None *)
Definition nq_price1 (mo : opt) (p : sabrp) (lam : R) (zr vr : list (R * R)) (strike spot texp cp : R) : R :=
  let '(fwd, df, _) := fwd_df_divf mo spot texp in
  let s := nq_vovn (/ 2 ^ 52) (b_vov p) texp in
  let k := b_vov p / b_sigma p * (strike - fwd) in
  lsum (map (fun zw => nq_intz (b_rho p) lam s k vr cp (fst zw) * snd zw) (nq_zw s zr))
  * (exp ((2 * lam - 1) / 8 * s ^ 2) * (b_sigma p / b_vov p) * df).
Definition nq_price (mo : opt) (p : sabrp) (lam : R) (zr vr : list (R * R)) (strikes : option (list R)) (spot texp cp : R) : option (list R) :=
  match strikes with None => None | Some ks => Some (map (fun k => nq_price1 mo p lam zr vr k spot texp cp) ks) end.
(** nsvh.py:430-482 cdf (array strikes): v rule roots_genlaguerre(n, 0) divided by pi *)
Definition nq_vw0 (vr : list (R * R)) : list (R * R) := map (fun vw => (2 * fst vw, snd vw / PI)) vr.
Definition nq_cdf_intz (rho lam s k : R) (vr : list (R * R)) (cp z : R) : R :=
  let u := nq_u lam s z in let g := nq_g rho lam s k u in let v0 := nq_v0 rho lam s k u in
  let i := lsum (map (fun vw => nq_theta g (nq_h rho s u v0 (fst vw)) * exp (- v0 / 2) * snd vw) (nq_vw0 vr)) in
  (if Rlt_dec 0 (cp * g) then 1 - i else i) * exp (- z * s / 2 - s ^ 2 / 8).
Definition nq_cdf1 (mo : opt) (p : sabrp) (lam : R) (zr vr : list (R * R)) (strike spot texp cp : R) : R :=
  let s := nq_vovn (/ 10 ^ 64) (b_vov p) texp in
  let k := b_vov p / b_sigma p * (strike - forward mo spot texp) in
  lsum (map (fun zw => nq_cdf_intz (b_rho p) lam s k vr cp (fst zw) * snd zw)
            (nq_zw s (map (fun zw => (fst zw, snd zw / sqrt (2 * PI))) zr))).
