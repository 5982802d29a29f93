(** Model of /repo/pyfeng/opt_abc.py, bsm.py, norm.py (closed-form pricers).

    Conventions (also in DESIGN.md): floats are exact reals; scalars stand for array
    entries of the elementwise NumPy code; [cp] is the +1/-1 flag as a real;
    [np.finfo(float).eps] is its exact value 2^-52. *)
From Coq Require Import Reals List ZArith.
From Verif Require Import Gauss.
Import ListNotations.
Open Scope R_scope.

(** np.finfo(float).eps *)
Definition eps : R := / 2 ^ 52.

(** params.py:20-60 BaseParams (sigma, intr, divr, is_fwd): the state of a Bsm / Norm object. *)
Record opt := mkOpt { sigma : R; intr : R; divr : R; is_fwd : bool }.

Definition set_sigma (m : opt) (s : R) : opt := mkOpt s (intr m) (divr m) (is_fwd m).

(** opt_abc.py:30-44 OptABC.forward *)
Definition forward (m : opt) (spot texp : R) : R :=
  if is_fwd m then spot else spot * exp ((intr m - divr m) * texp).

(** opt_abc.py:46-64 OptABC._fwd_df_divf: (forward, discount factor, dividend factor) *)
Definition fwd_df_divf (m : opt) (spot texp : R) : R * R * R :=
  let df := exp (- intr m * texp) in
  if is_fwd m then (spot, df, 1)
  else let divf := exp (- divr m * texp) in (spot * divf / df, df, divf).

(** np.maximum(sigma*np.sqrt(texp), np.finfo(float).eps), e.g. bsm.py:52 *)
Definition sigma_std (sig texp : R) : R := Rmax (sig * sqrt texp) eps.

(** ** Bsm (bsm.py) *)

(** bsm.py:31-62 Bsm.price_formula *)
Definition bsm_price_formula (strike spot sig texp cp r q : R) (isf : bool) : R :=
  let disc_fac := exp (- texp * r) in
  let fwd := spot * (if isf then 1 else exp (- texp * q) / disc_fac) in
  let s := sigma_std sig texp in
  let d := ln (fwd / strike) / s in
  let d2 := d - / 2 * s in
  let d1 := d + / 2 * s in
  (fwd * Phi (cp * d1) - strike * Phi (cp * d2)) * (cp * disc_fac).

(** opt_abc.py:432-438 OptAnalyticABC.price with params_kw() expanded (params.py) *)
Definition bsm_price (m : opt) (strike spot texp cp : R) : R :=
  bsm_price_formula strike spot (sigma m) texp cp (intr m) (divr m) (is_fwd m).

(** bsm.py:64-68 Bsm.d1sigma *)
Definition d1sigma (d1 logk : R) : R :=
  let sig := sqrt (d1 ^ 2 + 2 * logk) + Rabs d1 in
  if Rlt_dec d1 0 then 2 * logk / sig else sig.

(** util.py:36-47 MathFuncs.mills_ratio, by its documented meaning N(-x)/n(x)
    (scipy's erfcx is external). *)
Definition mills (x : R) : R := Phi (- x) / npdf x.

(** bsm.py:106-109: d0 = -logk/sigma, left at 0 when logk = 0 *)
Definition std_d0 (sig logk : R) : R :=
  if Req_EM_T (- logk) 0 then - logk else - logk / sig.

(** bsm.py:70-143 Bsm.price_std; [typ] is the [type] argument, [sign] is +1/-1. *)
Definition price_std (sig logk sign : R) (typ : Z) : R :=
  let d0 := std_d0 sig logk in
  if Z.eqb typ (-1) then npdf (d0 + sig / 2)
  else
    let r_left := mills (- sign * (d0 + / 2 * sig)) in
    let rv0 := r_left - sign * mills (- d0 + / 2 * sig) in
    let taylor := if Rlt_dec 0 sig then
                    if Rlt_dec (sig / Rmax 1 (- d0)) (/ 1000) then
                      if Rlt_dec 0 sign then true else false else false else false in
    let rv := if (taylor : bool)
              then let r_d1 := 1 + d0 * mills (- d0) in
                   let r_d3 := (d0 ^ 2 + 3) * r_d1 - 1 in
                   (r_d1 + sig ^ 2 / 24 * r_d3) * sig
              else rv0 in
    if Z.eqb typ 0 then rv * npdf (d0 + sig / 2)
    else if Z.eqb typ 2 then rv / r_left
    else rv.

(** d1 as computed (identically) in vega, vega2, delta, cdf: bsm.py:149-151 *)
Definition bsm_d1 (m : opt) (strike fwd texp : R) : R :=
  ln (fwd / strike) / sigma_std (sigma m) texp + / 2 * sigma_std (sigma m) texp.
Definition bsm_d2 (m : opt) (strike fwd texp : R) : R :=
  ln (fwd / strike) / sigma_std (sigma m) texp - / 2 * sigma_std (sigma m) texp.

(** bsm.py:145-155 Bsm.vega *)
Definition bsm_vega (m : opt) (strike spot texp cp : R) : R :=
  let '(fwd, df, _) := fwd_df_divf m spot texp in
  df * fwd * npdf (bsm_d1 m strike fwd texp) * sqrt texp.

(** bsm.py:157-179 Bsm.vega2 *)
Definition bsm_vega2 (m : opt) (strike spot texp cp : R) : R :=
  let '(fwd, df, _) := fwd_df_divf m spot texp in
  let d1 := bsm_d1 m strike fwd texp in
  let d2 := bsm_d2 m strike fwd texp in
  df * fwd * npdf d1 * sqrt texp * d1 * d2 / sigma_std (sigma m) texp.

(** bsm.py:182-206 Bsm.d2_var  (note: multiplies by [spot], not the forward) *)
Definition bsm_d2_var (m : opt) (strike spot texp cp : R) : R :=
  let '(fwd, df, _) := fwd_df_divf m spot texp in
  let d1 := bsm_d1 m strike fwd texp in
  let d2 := bsm_d2 m strike fwd texp in
  df * spot * sqrt texp * npdf d1 * (d1 * d2 - 1) / (4 * sigma m ^ 3).

(** bsm.py:208-232 Bsm.d3_var *)
Definition bsm_d3_var (m : opt) (strike spot texp cp : R) : R :=
  let '(fwd, df, _) := fwd_df_divf m spot texp in
  let d1 := bsm_d1 m strike fwd texp in
  let d2 := bsm_d2 m strike fwd texp in
  df * spot * sqrt texp * npdf d1 * ((d1 * d2 - 1) * (d1 * d2 - 3) - (d1 ^ 2 + d2 ^ 2))
    / (8 * sigma m ^ 5).

(** bsm.py:234-244 Bsm.delta *)
Definition bsm_delta (m : opt) (strike spot texp cp : R) : R :=
  let '(fwd, df, divf) := fwd_df_divf m spot texp in
  cp * Phi (cp * bsm_d1 m strike fwd texp) * (if is_fwd m then df else divf).

(** bsm.py:246-254 Bsm.cdf *)
Definition bsm_cdf (m : opt) (strike spot texp cp : R) : R :=
  let '(fwd, df, divf) := fwd_df_divf m spot texp in
  Phi (cp * bsm_d2 m strike fwd texp).

(** bsm.py:256-267 Bsm.gamma (its floor is 100*eps) *)
Definition bsm_gamma (m : opt) (strike spot texp cp : R) : R :=
  let '(fwd, df, divf) := fwd_df_divf m spot texp in
  let s := Rmax (sigma m * sqrt texp) (100 * eps) in
  let d1 := ln (fwd / strike) / s + / 2 * s in
  let g := df * npdf d1 / fwd / s in
  if is_fwd m then g else g * (divf / df) ^ 2.

(** bsm.py:269-282 Bsm.theta *)
Definition bsm_theta (m : opt) (strike spot texp cp : R) : R :=
  let drift := if is_fwd m then 0
               else (intr m - divr m) * spot * bsm_delta m strike spot texp cp in
  intr m * bsm_price m strike spot texp cp - drift
  - sigma m / (2 * texp) * bsm_vega m strike spot texp cp.

(** *** Bsm.impvol, bsm.py:284-344 *)

(** opt_abc.py:27 IMPVOL_TOL = 1e-10 *)
Definition IMPVOL_TOL : R := / 10 ^ 10.

(** bsm.py:309-314: standardised strike max(K/F, F/K) and standardised time value *)
Definition iv_kk (strike fwd : R) : R :=
  let kk := strike / fwd in if Rlt_dec kk 1 then / kk else kk.
Definition iv_p (m : opt) (price strike spot texp cp : R) : R :=
  let '(fwd, df, _) := fwd_df_divf m spot texp in
  (price / df - Rmax (cp * (fwd - strike)) 0) / Rmin fwd strike.

(** bsm.py:320-324: starting point; [ppf] stands for scipy.stats.norm._ppf *)
Definition iv_init (ppf : R -> R) (kk p : R) : R :=
  let logk := ln kk in
  if Req_EM_T logk 0 then
    if Rlt_dec p (/ 10000) then sqrt (2 * PI) * p * (1 + PI * p ^ 2 / 12)
    else d1sigma (ppf (p * (kk + p) / (2 * p + (kk - 1)))) logk
  else d1sigma (ppf (p * (kk + p) / (2 * p + (kk - 1)))) logk.

(** bsm.py:329-331: one evaluation of the log-price error.  M_LN2PI_2 = log(2 pi)/2. *)
Definition iv_err (sig logk p : R) : R :=
  let pv := price_std sig logk 1 1 in
  let d1 := (if Req_EM_T logk 0 then 0 else - logk / sig) + / 2 * sig in
  - / 2 * d1 ^ 2 + ln pv - (ln p + ln (2 * PI) / 2).

(** bsm.py:334 Newton update *)
Definition iv_step (sig logk p : R) : R := sig - iv_err sig logk p * price_std sig logk 1 1.

(** bsm.py:328-334.  The loop runs on the whole array and stops when the largest absolute
    error is below the tolerance; an entry is (sigma, logk, p).  Result: final sigmas and
    whether the break was taken ([false] = the "did not converge" warning). *)
Definition iv_maxerr (l : list (R * R * R)) : R :=
  fold_right Rmax 0 (map (fun '(s, lk, p) => Rabs (iv_err s lk p)) l).
Fixpoint iv_loop (n : nat) (l : list (R * R * R)) : list R * bool :=
  match n with
  | O => (map (fun '(s, _, _) => s) l, false)
  | S n' => if Rlt_dec (iv_maxerr l) IMPVOL_TOL
            then (map (fun '(s, _, _) => s) l, true)
            else iv_loop n' (map (fun '(s, lk, p) => (iv_step s lk p, lk, p)) l)
  end.

(** bsm.py:284-344 Bsm.impvol on an array of (price, strike, cp) quotes sharing spot, texp.
    [n_iter = 0] leaves [p_log_err_max] unbound in Python (NameError): [None].
    Returns (implied vols, converged?, model afterwards); with [setval] Python stores the
    array in [self.sigma], represented here by one model per entry. *)
Definition bsm_impvol (ppf : R -> R) (m : opt) (quotes : list (R * R * R)) (spot texp : R)
    (setval : bool) (n_iter : nat) : option (list R * bool * list opt) :=
  match n_iter with
  | O => None
  | _ =>
    let '(fwd, df, _) := fwd_df_divf m spot texp in
    let start := map (fun '(price, strike, cp) =>
        let kk := iv_kk strike fwd in
        let p := iv_p m price strike spot texp cp in
        (iv_init ppf kk p, ln kk, p)) quotes in
    let '(sig, ok) := iv_loop n_iter start in
    let vols := map (fun s => s / sqrt texp) sig in
    Some (vols, ok, if setval then map (set_sigma m) vols else map (fun _ => m) vols)
  end.

(** *** Barrier options, bsm.py:379-461 *)

(** bsm.py:379-391 Bsm._price_suboptimal; strike2=None is strike2=strike *)
Definition bsm_price_suboptimal (m : opt) (strike spot texp cp strike2 : R) : R :=
  let '(fwd, df, _) := fwd_df_divf m spot texp in
  let d1 := bsm_d1 m strike2 fwd texp in
  let d2 := bsm_d2 m strike2 fwd texp in
  (fwd * Phi (cp * d1) - strike * Phi (cp * d2)) * (cp * df).

(** bsm.py:393-408 Bsm._barrier_params (np.power on positive base = Rpower) *)
Definition bsm_barrier_params (m : opt) (barrier spot : R) : R * R :=
  (Rpower (barrier / spot) (2 * (intr m - divr m) / sigma m ^ 2 - 1), barrier ^ 2 / spot).

(** bsm.py:410-461 Bsm.price_barrier; shared with Norm (norm.py:307), hence the two
    method arguments. *)
Definition price_barrier (suboptimal : R -> R -> R -> R -> R -> R) (params : R -> R -> R * R)
    (strike barrier spot texp cp io : R) : R :=
  let '(psi, spot_reflected) := params barrier spot in
  let mirror_sign := (if Rlt_dec barrier spot then 1 else -1) * cp in
  let barrier' := if Rlt_dec 0 mirror_sign then barrier
                  else cp * Rmax (cp * strike) (cp * barrier) in
  let p_euro1 := if Rlt_dec 0 mirror_sign then 0
                 else suboptimal strike spot texp cp barrier' in
  let p_euro2 := suboptimal strike spot_reflected texp (mirror_sign * cp) strike
                 - (if Rlt_dec 0 mirror_sign then 0
                    else suboptimal strike spot_reflected texp (mirror_sign * cp) barrier') in
  let p := p_euro1 + psi * p_euro2 in
  if Rlt_dec 0 io then p else suboptimal strike spot texp cp strike - p.

Definition bsm_price_barrier (m : opt) := price_barrier (bsm_price_suboptimal m) (bsm_barrier_params m).

(** bsm.py:463-476 Bsm.logp_mgf (real argument) *)
Definition bsm_logp_mgf (m : opt) (uu texp : R) : R :=
  exp (- / 2 * sigma m ^ 2 * texp * uu * (1 - uu)).

(** disthelper.py:41-52 DistLognormal.mvsk with lam=1, mu=1, as used by bsm.py:478-489 price_vsk *)
Definition bsm_price_vsk (sig texp : R) : R * R * R :=
  let ww := exp ((sig * sqrt texp) ^ 2) - 1 in
  (ww, sqrt ww * (ww + 3), ww * (16 + ww * (15 + ww * (6 + ww)))).

(** ** BsmDisp, bsm.py:492-663 *)

(** bsm.py:519-548: attributes sigma_disp (the user's sigma), beta, pivot; the [sigma]
    property that the inherited Bsm methods read returns sigma_disp*beta. *)
Record dispo := mkDisp { d_sigma : R; d_beta : R; d_pivot : R; d_intr : R; d_divr : R; d_isf : bool }.
Definition disp_base (m : dispo) : opt :=
  mkOpt (d_sigma m * d_beta m) (d_intr m) (d_divr m) (d_isf m).
(** bsm.py:550-560 disp_spot *)
Definition disp_spot (m : dispo) (spot : R) : R := d_beta m * spot + (1 - d_beta m) * d_pivot m.
(** bsm.py:562-573 disp_strike *)
Definition disp_strike (m : dispo) (strike texp : R) : R :=
  d_beta m * strike + (1 - d_beta m) * forward (disp_base m) (d_pivot m) texp.
(** bsm.py:575-578 price *)
Definition disp_price (m : dispo) (strike spot texp cp : R) : R :=
  1 / d_beta m * bsm_price (disp_base m) (disp_strike m strike texp) (disp_spot m spot) texp cp.
(** bsm.py:580-583 delta *)
Definition disp_delta (m : dispo) (strike spot texp cp : R) : R :=
  bsm_delta (disp_base m) (disp_strike m strike texp) (disp_spot m spot) texp cp.
(** bsm.py:585-588 cdf *)
Definition disp_cdf (m : dispo) (strike spot texp cp : R) : R :=
  bsm_cdf (disp_base m) (disp_strike m strike texp) (disp_spot m spot) texp cp.
(** bsm.py:590-593 vega *)
Definition disp_vega (m : dispo) (strike spot texp cp : R) : R :=
  bsm_vega (disp_base m) (disp_strike m strike texp) (disp_spot m spot) texp cp.
(** bsm.py:595-599 gamma *)
Definition disp_gamma (m : dispo) (strike spot texp cp : R) : R :=
  d_beta m * bsm_gamma (disp_base m) (disp_strike m strike texp) (disp_spot m spot) texp cp.
(** bsm.py:601-604 theta.  super().theta (bsm.py:279-282) calls self.price, self.delta and
    self.vega, which dispatch back to the BsmDisp overrides and displace a second time. *)
Definition disp_theta (m : dispo) (strike spot texp cp : R) : R :=
  let sp := disp_spot m spot in
  let k := disp_strike m strike texp in
  let drift := if d_isf m then 0
               else (d_intr m - d_divr m) * sp * disp_delta m k sp texp cp in
  1 / d_beta m * (d_intr m * disp_price m k sp texp cp - drift
                  - d_sigma m * d_beta m / (2 * texp) * disp_vega m k sp texp cp).
(** bsm.py:661-663 price_vsk *)
Definition disp_price_vsk (m : dispo) (texp : R) : R * R * R :=
  let '(v, s, k) := bsm_price_vsk (d_sigma m * d_beta m) texp in
  (v / d_beta m, s / d_beta m ^ 3, k / d_beta m ^ 4).

(** ** Norm (norm.py) *)

(** norm.py:65-92 Norm.price_formula *)
Definition norm_price_formula (strike spot sig texp cp r q : R) (isf : bool) : R :=
  let df := exp (- texp * r) in
  let fwd := spot * (if isf then 1 else exp (- texp * q) / df) in
  let s := sig * sqrt texp in
  let d := (fwd - strike) / Rmax s eps in
  df * s * (cp * d * Phi (cp * d) + npdf d).
Definition norm_price (m : opt) (strike spot texp cp : R) : R :=
  norm_price_formula strike spot (sigma m) texp cp (intr m) (divr m) (is_fwd m).

Definition norm_d (m : opt) (strike fwd texp : R) : R := (fwd - strike) / sigma_std (sigma m) texp.

(** norm.py:94-119 Norm.price_vega_std *)
Definition norm_price_vega_std (sig k : R) (price : bool) : R :=
  let m_d := k / sig in
  let p := sig * (1 - m_d * mills m_d) in
  if price then p * npdf m_d else p.

(** norm.py:187-196 Norm.vega *)
Definition norm_vega (m : opt) (strike spot texp cp : R) : R :=
  let '(fwd, df, _) := fwd_df_divf m spot texp in
  df * npdf (norm_d m strike fwd texp) * sqrt texp.
(** norm.py:198-207 Norm.delta *)
Definition norm_delta (m : opt) (strike spot texp cp : R) : R :=
  let '(fwd, df, divf) := fwd_df_divf m spot texp in
  cp * Phi (cp * norm_d m strike fwd texp) * (if is_fwd m then df else divf).
(** norm.py:209-215 Norm.cdf *)
Definition norm_cdf (m : opt) (strike spot texp cp : R) : R :=
  Phi (cp * norm_d m strike (forward m spot texp) texp).
(** norm.py:217-228 Norm.gamma *)
Definition norm_gamma (m : opt) (strike spot texp cp : R) : R :=
  let '(fwd, df, divf) := fwd_df_divf m spot texp in
  let g := df * npdf (norm_d m strike fwd texp) / sigma_std (sigma m) texp in
  if is_fwd m then g else g * (divf / df) ^ 2.
(** norm.py:230-240 Norm.theta *)
Definition norm_theta (m : opt) (strike spot texp cp : R) : R :=
  let '(fwd, df, divf) := fwd_df_divf m spot texp in
  let s := sigma_std (sigma m) texp in
  let d := norm_d m strike fwd texp in
  let th := s * npdf d in
  df * (- / 2 * th / texp + intr m * (th - cp * strike * Phi (cp * d))).
(** norm.py:242-253 Norm.price_binary *)
Definition norm_price_binary (m : opt) (strike spot texp cp : R) (asset : bool) : R :=
  let '(fwd, df, divf) := fwd_df_divf m spot texp in
  let s := sigma m * sqrt texp in
  let d := (fwd - strike) / Rmax s eps in
  if asset then df * (cp * fwd * Phi (cp * d) + s * npdf d) else df * Phi (cp * d).
(** norm.py:277-287 Norm._price_suboptimal *)
Definition norm_price_suboptimal (m : opt) (strike spot texp cp strike2 : R) : R :=
  let '(fwd, df, _) := fwd_df_divf m spot texp in
  let s := sigma_std (sigma m) texp in
  let d2 := (fwd - strike2) / s in
  (cp * (fwd - strike) * Phi (cp * d2) + s * npdf d2) * df.
(** norm.py:289-302 Norm._barrier_params *)
Definition norm_barrier_params (barrier spot : R) : R * R := (1, 2 * barrier - spot).
(** norm.py:307 price_barrier = bsm.Bsm.price_barrier *)
Definition norm_price_barrier (m : opt) := price_barrier (norm_price_suboptimal m) norm_barrier_params.

(** bsm.py:541-548: BsmDisp's [sigma] property: the getter returns sigma_disp*beta but the
    setter stores its argument in sigma_disp. *)
Definition disp_get (m : dispo) : R := d_sigma m * d_beta m.
Definition disp_set (m : dispo) (s : R) : dispo :=
  mkDisp s (d_beta m) (d_pivot m) (d_intr m) (d_divr m) (d_isf m).

(** opt_abc.py:320-340 pdf_numeric for a Bsm-like model with price method [pr] *)
Definition pdf_numeric (pr : opt -> R -> R -> R -> R -> R) (m : opt) (strike spot texp cp h : R) : R :=
  let fwd := forward m spot texp in
  let kk := strike / fwd in
  let p k := pr m k 1 texp cp in
  (p (kk + h) + p (kk - h) - 2 * p kk) / (h * h).
(** opt_abc.py:342-362 cdf_numeric *)
Definition cdf_numeric (pr : opt -> R -> R -> R -> R -> R) (m : opt) (strike spot texp cp h : R) : R :=
  let fwd := forward m spot texp in
  (if Rlt_dec 0 cp then 1 else -1) * (pr m (strike - h) fwd texp cp - pr m (strike + h) fwd texp cp) / (2 * h).
