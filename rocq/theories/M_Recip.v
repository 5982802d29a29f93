(** gamma.py: option prices under the inverse gamma and the inverse Gaussian law.  scipy's distribution functions are
    parameters: [gc a x] the gamma cdf of shape a (sf = 1 - cdf), [igc mu scale x] / [igs mu scale x] the cdf / sf of
    spst.invgauss(mu=mu, scale=scale). *)
From Coq Require Import Reals.
From Verif Require Import M_Opt M_Multi.
Open Scope R_scope.

(** np.expm1 *)
Definition expm1 (x : R) : R := exp x - 1.
(** gamma.py:42-60 InvGam.alpha_beta *)
Definition invgam_alpha_beta (m : opt) (spot texp : R) : R * R :=
  let fwd := forward m spot texp in
  let alpha := 1 / expm1 (sigma m ^ 2 * texp) + 2 in
  (alpha, (alpha - 1) * fwd).
(** gamma.py:62-66 InvGam.price; is_fwd is not passed on, so price_formula uses its default False *)
Definition invgam_price (gc : R -> R -> R) (m : opt) (strike spot texp cp : R) : R :=
  let '(alpha, beta) := invgam_alpha_beta m spot texp in
  invgam_formula gc strike spot texp alpha beta cp (intr m) (divr m) false.
(** gamma.py:68-74 InvGam.cdf *)
Definition invgam_cdf (gc : R -> R -> R) (m : opt) (strike spot texp cp : R) : R :=
  let '(alpha, beta) := invgam_alpha_beta m spot texp in
  let x := strike / beta in
  if Rlt_dec 0 cp then gc alpha (1 / x) else 1 - gc alpha (1 / x).
(** gamma.py:95-106 InvGauss.price *)
Definition invgauss_price (igc igs : R -> R -> R -> R) (m : opt) (strike spot texp cp : R) : R :=
  let '(fwd, df, _) := fwd_df_divf m spot texp in
  let sig2_inv := expm1 (sigma m ^ 2 * texp) in
  let cdf := igc sig2_inv (1 / sig2_inv) in
  let sf := igs sig2_inv (1 / sig2_inv) in
  let kk := strike / fwd in
  df * fwd * (if Rlt_dec 0 cp then cdf (1 / kk) - kk * sf kk else kk * cdf kk - sf (1 / kk)).
(** gamma.py:108-114 InvGauss.cdf *)
Definition invgauss_cdf (igc igs : R -> R -> R -> R) (m : opt) (strike spot texp cp : R) : R :=
  let '(fwd, _, _) := fwd_df_divf m spot texp in
  let sig2_inv := expm1 (sigma m ^ 2 * texp) in
  let x := strike / fwd in
  if Rlt_dec 0 cp then igs sig2_inv (1 / sig2_inv) x else igc sig2_inv (1 / sig2_inv) x.
