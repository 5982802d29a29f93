(** Model of /repo/pyfeng/cev.py.  The scipy.stats routines ncx2._cdf, ncx2._sf, ncx2._pdf (x, degrees of freedom, non-centrality)
    and gamma._sf (x, shape) are parameters.  np.power is [Rpower] (positive bases only). *)
From Coq Require Import Reals ZArith List.
From Coquelicot Require Import Coquelicot.
From Verif Require Import Gauss Sums M_Opt M_Heston.
Import ListNotations.
Open Scope R_scope.

Section Routines.
Variables ncx2_cdf ncx2_sf ncx2_pdf : R -> R -> R -> R.

(** cev.py:26-32 _variables: (alpha, betac, z0, zK); the object is (beta, opt record) *)
Definition cev_variables (beta : R) (m : opt) (fwd strike texp : R) : R * R * R * R :=
  let betac := 1 - beta in
  let alpha := sigma m / Rpower fwd betac in
  let var := (betac * alpha) ^ 2 * texp * exprel (2 * (intr m - divr m) * betac * texp) in
  let z0 := 1 / var in
  let zK := Rpower (strike / fwd) (2 * betac) * z0 in
  (alpha, betac, z0, zK).

(** cev.py:74-124 price_formula *)
Definition cev_price_formula (strike spot texp sig cp beta r q : R) (isf : bool) : R :=
  let df := exp (- texp * r) in
  let fwd := spot * (if isf then 1 else exp (- texp * q) / df) in
  let betac := 1 - beta in
  let betac_inv := 1 / betac in
  let alpha := sig / Rpower fwd betac in
  let var := Rmax (alpha ^ 2 * texp) eps * betac ^ 2 * exprel (2 * (r - q) * betac * texp) in
  let z0 := 1 / var in
  let zK := Rpower (strike / fwd) (2 * betac) * z0 in
  let price := if Rlt_dec beta 1 then
      (if Rlt_dec 0 cp then fwd * ncx2_sf zK (2 + betac_inv) z0 - strike * ncx2_cdf z0 betac_inv zK
       else strike * ncx2_sf z0 betac_inv zK - fwd * ncx2_cdf zK (2 + betac_inv) z0)
    else
      (if Rlt_dec 0 cp then fwd * ncx2_sf z0 (- betac_inv) zK - strike * ncx2_cdf zK (2 - betac_inv) z0
       else strike * ncx2_sf zK (2 - betac_inv) z0 - fwd * ncx2_cdf z0 (- betac_inv) zK) in
  df * price.
(** opt_abc.py:465-471 price with params_kw() expanded *)
Definition cev_price (beta : R) (m : opt) (strike spot texp cp : R) : R :=
  cev_price_formula strike spot texp (sigma m) cp beta (intr m) (divr m) (is_fwd m).

(** cev.py:126-185 price_std; typ is the [type] argument *)
Definition cev_price_std (sig k beta sign : R) (typ : Z) : R :=
  let betac := 1 - beta in
  let betac_inv := 1 / betac in
  let var := betac ^ 2 * sig ^ 2 in
  let z0 := 1 / var in
  let zK := Rpower k (2 * betac) * z0 in
  if Rlt_dec beta 1 then
    let f1 := ncx2_pdf zK (2 + betac_inv) z0 in
    if Z.eqb typ (-1) then 2 / (sig * betac) * f1 else
    let rv := if Rlt_dec 0 sign then ncx2_sf zK (2 + betac_inv) z0 - k * ncx2_cdf z0 betac_inv zK
              else ncx2_cdf zK (2 + betac_inv) z0 + k * ncx2_cdf z0 betac_inv zK in
    let coeff := sig * betac / 2 in
    if Z.eqb typ 0 then rv else rv * coeff / f1
  else
    let f1 := ncx2_pdf z0 (2 - betac_inv) zK in
    if Z.eqb typ (-1) then - 2 / (sig * betac) * f1 else
    let rv := if Rlt_dec 0 sign then ncx2_sf z0 (- betac_inv) zK - k * ncx2_cdf zK (2 - betac_inv) z0
              else ncx2_cdf z0 (- betac_inv) zK + k * ncx2_cdf zK (2 - betac_inv) z0 in
    let coeff := - sig * betac / 2 in
    if Z.eqb typ 0 then rv else rv * coeff / f1.

(** cev.py:187-208 delta *)
Definition cev_delta (beta : R) (m : opt) (strike spot texp cp : R) : R :=
  let '(fwd, df, divf) := fwd_df_divf m spot texp in
  let '(alpha, betac, z0, zK) := cev_variables beta m fwd strike texp in
  let betac_inv := 1 / betac in
  let delta := if Rlt_dec beta 1 then / 2 * (cp - 1) + ncx2_sf zK betac_inv z0 else / 2 * (cp - 1) + ncx2_sf z0 (2 - betac_inv) zK in
  delta * (if is_fwd m then df else divf).
(** cev.py:210-216 cdf *)
Definition cev_cdf (beta : R) (m : opt) (strike spot texp cp : R) : R :=
  let fwd := forward m spot texp in
  let '(alpha, betac, z0, zK) := cev_variables beta m fwd strike texp in
  let betac_inv := 1 / betac in
  if Rlt_dec 0 cp then ncx2_cdf z0 betac_inv zK else ncx2_sf z0 betac_inv zK.
(** cev.py:218-244 gamma *)
Definition cev_gamma (beta : R) (m : opt) (strike spot texp cp : R) : R :=
  let '(fwd, df, divf) := fwd_df_divf m spot texp in
  let '(alpha, betac, z0, zK) := cev_variables beta m fwd strike texp in
  let betac_inv := 1 / betac in
  let g := if Rlt_dec beta 1 then 2 * betac * z0 * ncx2_pdf zK (2 + betac_inv) z0 else - 2 * betac * z0 * ncx2_pdf z0 (2 - betac_inv) zK in
  let g := g * (divf ^ 2 / (df * fwd)) in
  if is_fwd m then g * (df / divf) ^ 2 else g.
(** cev.py:246-268 vega *)
Definition cev_vega (beta : R) (m : opt) (strike spot texp cp : R) : R :=
  let '(fwd, df, divf) := fwd_df_divf m spot texp in
  let '(alpha, betac, z0, zK) := cev_variables beta m fwd strike texp in
  let betac_inv := 1 / betac in
  let v := if Rlt_dec beta 1 then 2 * Rpower fwd beta / (alpha * betac) * ncx2_pdf zK (2 + betac_inv) z0
           else - 2 * Rpower fwd beta / (alpha * betac) * ncx2_pdf z0 (2 - betac_inv) zK in
  df * v.
(** cev.py:270-307 theta *)
Definition cev_theta (beta : R) (m : opt) (strike spot texp cp : R) : R :=
  let betac := 1 - beta in
  let rho_T := 2 * betac * (intr m - divr m) * texp in
  let sigma_coeff := sigma m * exp rho_T / (2 * texp * exprel rho_T) in
  let price := cev_price beta m strike spot texp cp in
  let vega := cev_vega beta m strike spot texp cp in
  let drift := if is_fwd m then 0 else (intr m - divr m) * spot * cev_delta beta m strike spot texp cp in
  - (drift + sigma_coeff * vega - intr m * price).
End Routines.

(** cev.py:34-53 mass_zero, log=False *)
Definition cev_mass_zero (gamma_sf : R -> R -> R) (beta : R) (m : opt) (spot texp : R) : R :=
  let fwd := forward m spot texp in
  let betac := 1 - beta in
  let a := / 2 / betac in
  let alpha := sigma m / Rpower fwd betac in
  let var := (betac * alpha) ^ 2 * texp * exprel (2 * (intr m - divr m) * betac * texp) in
  let x := / 2 / var in
  gamma_sf x a.
(** cev.py:44-48 mass_zero, log=True: loggamma is a parameter, log1p y = ln (1 + y) *)
Definition cev_log_mass_zero (gamma_sf : R -> R -> R) (loggamma : R -> R) (beta : R) (m : opt) (spot texp : R) : R :=
  let fwd := forward m spot texp in
  let betac := 1 - beta in
  let a := / 2 / betac in
  let alpha := sigma m / Rpower fwd betac in
  let var := (betac * alpha) ^ 2 * texp * exprel (2 * (intr m - divr m) * betac * texp) in
  let x := / 2 / var in
  let lm := (a - 1) * ln x - x - loggamma a in
  let lm := lm + ln (1 + (a - 1) / x * (1 + (a - 2) / x * (1 + (a - 3) / x * (1 + (a - 4) / x)))) in
  if Rlt_dec 100 x then lm else ln (gamma_sf x a).
(** cev.py:55-72 mass_zero_t0 *)
Definition cev_mass_zero_t0 (beta : R) (m : opt) (spot texp : R) : R :=
  let fwd := forward m spot texp in
  let betac := 1 - beta in
  let alpha := sigma m / Rpower fwd betac in
  let var_t0 := (betac * alpha) ^ 2 * exprel (2 * (intr m - divr m) * betac * texp) in
  / 2 / var_t0.
(** opt_abc.py:577-616 vol_from_mass_zero (mass given), price_from_mass_zero *)
Definition vol_from_mass_zero (ppf : R -> R) (m : opt) (strike spot texp mass : R) : R :=
  let fwd := forward m spot texp in
  let kk := strike / fwd in
  let tmp := sqrt (2 * Rabs (ln kk)) in
  let leading := tmp / sqrt texp in
  let qq := ppf mass in
  (1 + (qq + / 2 * ((2 + qq ^ 2) + qq / tmp) / tmp) / tmp) * leading.
(** Bsm(vol) has intr = divr = 0 and is_fwd = False *)
Definition price_from_mass_zero (ppf : R -> R) (m : opt) (strike spot texp cp mass : R) : R :=
  bsm_price (mkOpt (vol_from_mass_zero ppf m strike spot texp mass) 0 0 false) strike spot texp cp.

(** CevMc, cev.py:365-399 price_step for one path.  gam : the standard_gamma(1/(2 betac)) draw, pg : the draw
    standard_gamma(poisson(pois_lam) + 1) as a function of pois_lam. *)
(** cev.py:369-373 the variance scale *)
Definition cevmc_var (beta : R) (m : opt) (dt : R) : R :=
  let betac := 1 - beta in (betac * sigma m) ^ 2 * dt * exprel (2 * (intr m - divr m) * betac * dt).
(** cev.py:374-376 the Poisson intensity pois_lam *)
Definition cevmc_lam (beta : R) (m : opt) (gam spot dt : R) : R :=
  let s_t := exp ((intr m - divr m) * dt) * spot in
  let betac := 1 - beta in
  let z0 := Rpower s_t (2 * betac) / cevmc_var beta m dt in
  (z0 - 2 * gam) / 2.
Definition cevmc_step (beta : R) (m : opt) (gam : R) (pg : R -> R) (spot dt : R) : R :=
  if Rlt_dec 0 spot then
    let pois_lam := cevmc_lam beta m gam spot dt in
    if Rle_dec pois_lam 0 then 0 else Rpower (cevmc_var beta m dt * (2 * pg pois_lam)) (1 / (2 * (1 - beta)))
  else exp ((intr m - divr m) * dt) * spot.
(** cev.py:408-411, 424-427 the loop over the time steps: for each step (dt, first gamma draw, second draw) *)
Fixpoint cevmc_path (beta : R) (m : opt) (steps : list (R * R * (R -> R))) (spot : R) : R :=
  match steps with
  | [] => spot
  | (dt, gam, pg) :: rest => cevmc_path beta m rest (cevmc_step beta m gam pg spot dt)
  end.
(** cev.py:401-415 mass_zero, log=False: the fraction of simulated terminal prices that are <= 0 *)
Definition cevmc_mass_zero (terminal : list R) : R :=
  lsum (map (fun s => if Rle_dec s 0 then 1 else 0) terminal) / INR (length terminal).
(** cev.py:417-433 price for one strike: mean of discounted payoffs of the simulated terminal prices *)
Definition cevmc_price (m : opt) (terminal : list R) (strike texp cp : R) : R :=
  exp (- intr m * texp) * (lsum (map (fun s => Rmax (cp * (s - strike)) 0) terminal) / INR (length terminal)).
