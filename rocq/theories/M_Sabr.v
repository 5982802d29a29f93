(** SABR and hyperbolic-normal SV models: sabr.py, sabr_mc.py, sabr_int.py, nsvh.py, util.py powrel/logrel. *)
From Coq Require Import Reals List Arith.
From Verif Require Import Gauss Sums M_Opt M_Mgf M_Heston M_Fd.
Import ListNotations.
Open Scope R_scope.

(** numpy.isclose(a, b), default tolerances *)
Definition isclose (a b : R) : bool := if Rle_dec (Rabs (a - b)) (/ 10 ^ 8 + / 10 ^ 5 * Rabs b) then true else false.
(** numpy.polyval: highest degree first, Horner *)
Definition polyval (c : list R) (x : R) : R := fold_left (fun acc a => acc * x + a) c 0.

(** ** util.py:48-83 MathFuncs.logrel, util.py:85-126 MathFuncs.powrel (x > -1) *)
Definition logrel (x : R) : R := if Req_EM_T x 0 then 1 else ln (1 + x) / x.
Definition powrel (x a : R) : R :=
  if Req_EM_T x 0 then 1 else if Req_EM_T a 0 then ln (1 + x) / x else (exp (a * ln (1 + x)) - 1) / (a * x).

(** ** sabr.py:173-211 SabrABC.avgvar_mnc4 *)
Definition avgvar_m1 (vovn : R) : R :=
  let v2 := vovn ^ 2 in let ww := exp v2 in
  if Rlt_dec (/ 10 ^ 6) v2 then (ww - 1) / v2 else 1 + v2 / 2 * (1 + v2 / 3).
Definition avgvar_m2 (vovn : R) : R :=
  let v2 := vovn ^ 2 in let ww := exp v2 in (ww ^ 6 - 6 * ww + 5) / 15 / v2 ^ 2.
Definition avgvar_m3 (vovn : R) : R :=
  let v2 := vovn ^ 2 in let ww := exp v2 in (ww ^ 15 - 7 * ww ^ 6 + 27 * ww - 21) / 315 / v2 ^ 3.
Definition avgvar_m4 (vovn : R) : R :=
  let v2 := vovn ^ 2 in let ww := exp v2 in (5 * ww ^ 28 - 44 * ww ^ 15 + 182 * ww ^ 6 - 572 * ww + 429) / 45045 / v2 ^ 4.
(** ** sabr.py:214-263 SabrABC.avgvar_mvsk *)
Definition mvsk_m2 (ww : R) : R := (10 + ww * (6 + ww * (3 + ww))) / 15.
Definition mvsk_c3 : list R := map (fun a => a / 315) [1; 5; 15; 35; 70; 126; 210; 330; 432; 456; 336].
Definition mvsk_c4 : list R :=
  map (fun a => a / 225225)
    [25; 175; 700; 2100; 5250; 11550; 23100; 42900; 75075; 125125; 200200; 309400; 461240; 660920; 907400; 1190280;
     1483482; 1735734; 1857856; 1706848; 1246960; 583440].
Definition avgvar_mvsk (vovn : R) : R * R * R * R :=
  let v2 := vovn ^ 2 in let m := exprel v2 in let ww := m * v2 + 1 in
  let m2 := mvsk_m2 ww in
  (m, v2 * m2 * m, vovn * sqrt m * polyval mvsk_c3 ww / (m2 * sqrt m2), v2 * m * polyval mvsk_c4 ww / m2 ^ 2).

(** ** sabr.py:95-111 SabrABC.cond_avgvar_mfn; hermeval with coefficients v^k/(k+1)!, odd ones zeroed, degree <= 6 *)
Definition herme2 (z : R) : R := z ^ 2 - 1.
Definition herme4 (z : R) : R := z ^ 4 - 6 * z ^ 2 + 3.
Definition herme6 (z : R) : R := z ^ 6 - 15 * z ^ 4 + 45 * z ^ 2 - 15.
Definition mfn_exact (z v : R) : R :=
  sqrt (PI / 2) / v * (Phi (- Rabs z + v) - Phi (- Rabs z - v)) * exp ((z ^ 2 + v ^ 2) / 2).
Definition mfn_herm (z v : R) : R :=
  (1 + v ^ 2 / 6 * herme2 z + v ^ 4 / 120 * herme4 z + v ^ 6 / 5040 * herme6 z) * exp (v ^ 2 / 2).
Definition cond_avgvar_mfn (z v : R) : R := if Rlt_dec (/ 100) (Rabs v) then mfn_exact z v else mfn_herm z v.
(** sabr.py:113-170 SabrABC.cond_avgvar_mvsk: the raw moments (mnc=True), and the four statistics (mnc=False) *)
Definition cosh_z (vovn zhat : R) : R := let e := exp (vovn * zhat) in (e + 1 / e) / 2.
Definition cond_mnc (mfn : R -> R -> R) (vovn zhat : R) : R * R * R * R :=
  let ch := cosh_z vovn zhat in
  let m1 := mfn zhat vovn in let m2 := mfn zhat (2 * vovn) in let m3 := mfn zhat (3 * vovn) in let m4 := mfn zhat (4 * vovn) in
  (m1, (m2 - m1 * ch) / vovn ^ 2, (3 * m3 - 8 * m2 * ch + m1 * (4 * ch ^ 2 + 1)) / (8 * vovn ^ 4),
   (2 * m4 - 9 * m3 * ch + m2 * (12 * ch ^ 2 + 2) - m1 * ch * (4 * ch ^ 2 + 3)) / (24 * vovn ^ 6)).
Definition cond_avgvar_mnc (vovn zhat : R) : R * R * R * R :=
  let e := exp (vovn * zhat) in
  let '(m1, n2, n3, n4) := cond_mnc cond_avgvar_mfn vovn zhat in (m1 * e, n2 * e ^ 2, n3 * e ^ 3, n4 * e ^ 4).
Definition cond_avgvar_mvsk (vovn zhat : R) : R * R * R * R :=
  let e := exp (vovn * zhat) in
  let '(m1, n2, n3, n4) := cond_mnc cond_avgvar_mfn vovn zhat in
  let mc2 := n2 - m1 ^ 2 in
  let mc3 := n3 - (3 * m1 * mc2 + m1 ^ 3) in
  let mc4 := n4 - (4 * m1 * mc3 + 6 * m1 ^ 2 * mc2 + m1 ^ 4) in
  let v2 := vovn ^ 2 in
  if Rlt_dec v2 (/ 100) then
    (m1 * e, v2 * (/ 3 - (6 - zhat ^ 2) / 45 * v2),
     sqrt (v2 * (108 / 25 - 4 / 875 * (51 * zhat ^ 2 - 716) * v2)),
     v2 * (276 / 35 - 8 / 175 * (9 * zhat ^ 2 - 158) * v2))
  else (m1 * e, mc2 / m1 ^ 2, mc3 / (mc2 * sqrt mc2), mc4 / mc2 ^ 2 - 3).

(** ** Volatility approximations *)
(** sabr.py:33-39 _variables: alpha is [sabr_alpha] of M_Fd.v; vovn *)
Definition sabr_vovn (p : sabrp) (texp : R) : R := b_vov p * sqrt (Rmax texp (/ 10 ^ 64)).
(** sabr.py:60-62 _vv, sabr.py:64-93 _hh *)
Definition vv (zz rho : R) : R := sqrt (1 + zz * (zz + 2 * rho)).
Definition hh_log (zz rho : R) : R :=
  if Rlt_dec 0 (zz + rho) then zz / ln ((vv zz rho + zz + rho) / (1 + rho)) else zz / ln ((1 - rho) / (vv zz rho - zz - rho)).
Definition hh_taylor (zz rho : R) : R :=
  1 + zz * (rho / 2 + zz * (/ 6 - rho ^ 2 / 4 + rho * (6 * rho ^ 2 - 5) / 24 * zz)).
Definition hh (zz rho : R) : R := if Rlt_dec (Rabs zz) (/ 10 ^ 3) then hh_taylor zz rho else hh_log zz rho.

(** sabr.py:348-376 SabrHagan2002.vol_for_price; [order] = approx_order; fwd, strike > 0.
    [s_alpha] is the price alpha is computed from: the code passes the spot *)
Definition hagan_vol_at (p : sabrp) (order : nat) (s_alpha strike fwd texp : R) : R :=
  if Rle_dec texp 0 then 0 else
  let betac := 1 - b_beta p in
  let alpha := sabr_alpha p s_alpha in let rho2 := b_rho p ^ 2 in
  let betac2 := betac ^ 2 in
  let log_kk := ln (fwd / strike) in let log_kk2 := log_kk * log_kk in
  let pow_kk := npow (strike / fwd) (betac / 2) in
  let pre1 := pow_kk * (1 + betac2 / 24 * log_kk2 * (1 + betac2 / 80 * log_kk2)) in
  let term02 := (2 - 3 * rho2) / 24 * b_vov p ^ 2 in
  let term11 := alpha * b_vov p * b_rho p * b_beta p / 4 / pow_kk in
  let term20 := (betac * alpha / pow_kk) ^ 2 / 24 in
  let vol := match order with O => 1 | _ => 1 + texp * (term02 + term11 + term20) end in
  let zz := pow_kk * log_kk * b_vov p / Rmax alpha eps in
  vol * (alpha * hh (- zz) (b_rho p) / pre1).
Definition hagan_vol (mo : opt) (p : sabrp) (order : nat) (strike spot texp : R) : R :=
  let '(fwd, _, _) := fwd_df_divf mo spot texp in hagan_vol_at p order spot strike fwd texp.
(** sabr.py:293-297 SabrVolApproxABC.price with base_model = Bsm (sabr.py:41-58, _base_beta = 1) *)
Definition hagan_price (mo : opt) (p : sabrp) (order : nat) (strike spot texp cp : R) : R :=
  bsm_price (set_sigma mo (hagan_vol mo p order strike spot texp)) strike spot texp cp.
(** sabr.py:477-489 SabrNormVolApprox.vol_for_price; price with base_model = Norm *)
Definition norm_sabr_vol (mo : opt) (p : sabrp) (order : nat) (is_atmvol : bool) (strike spot texp : R) : R :=
  let fwd := forward mo spot texp in
  let vol := match order with O => 1 | _ => if is_atmvol then 1 else 1 + texp * (2 - 3 * b_rho p ^ 2) / 24 * b_vov p ^ 2 end in
  let zz := b_vov p / b_sigma p * (strike - fwd) in
  vol * (b_sigma p * hh zz (b_rho p)).
Definition norm_sabr_price (mo : opt) (p : sabrp) (order : nat) (is_atmvol : bool) (strike spot texp cp : R) : R :=
  norm_price (set_sigma mo (norm_sabr_vol mo p order is_atmvol strike spot texp)) strike spot texp cp.
(** sabr.py:453-475 SabrNormVolApprox.price_vsk *)
Definition norm_sabr_vsk (p : sabrp) (texp : R) : R * R * R :=
  let vovn := b_vov p * sqrt texp in let wwm1 := exp (vovn ^ 2) - 1 in let ww := 1 + wwm1 in let rho2 := b_rho p ^ 2 in
  (wwm1 * (b_sigma p / b_vov p) ^ 2, b_rho p * sqrt wwm1 * (ww + 2),
   wwm1 * ((4 * rho2 + 1) / 5 * (ww * (ww * (ww + 3) + 6) + 5) + 1)).

(** ** Conditional Monte-Carlo and mixtures *)
(** sabr.py:41-58 base_model(vol).price; [cevp beta m strike spot texp cp] stands for Cev(m).price *)
Definition sabr_base_price (cevp : R -> opt -> R -> R -> R -> R -> R) (base_beta : R) (m : opt) : R -> R -> R -> R -> R :=
  if isclose base_beta 1 then bsm_price m else if isclose base_beta 0 then norm_price m else cevp base_beta m.
(** sabr_mc.py:23-40 SabrMcABC.vol_step, [z] the normal draw *)
Definition sabr_vol_step (p : sabrp) (dt z : R) : R := let vovn := b_vov p * sqrt dt in exp (vovn * (z - vovn / 2)).
(** sabr_mc.py:150-154 cond_states_step_trapez: (sigma_t, avgvar) *)
Definition sabr_step_trapez (p : sabrp) (dt sigma_0 z z2 : R) : R * R :=
  let sigma_t := sigma_0 * sabr_vol_step p dt z in (sigma_t, (sigma_0 ^ 2 + sigma_t ^ 2) / 2).
(** sabr_mc.py:156-166 cond_states_step_chen_2012 *)
Definition sabr_step_chen (p : sabrp) (dt sigma_0 z z2 : R) : R * R :=
  let vovn := b_vov p * sqrt dt in let zhat := z - vovn / 2 in
  let sigma_t := sigma_0 * exp (vovn * zhat) in
  let '(m1, vs, _, _) := cond_avgvar_mvsk vovn zhat in
  let sig := sqrt (ln (1 + vs)) in
  (sigma_t, sigma_0 ^ 2 * m1 * exp (sig * (z2 - sig / 2))).
(** sabr_mc.py:168-178 cond_states_step: None = UnboundLocalError (the ValueError is built but not raised) *)
Definition sabr_cond_step (scheme : nat) (p : sabrp) (dt sigma_0 z z2 : R) : option (R * R) :=
  match scheme with
  | 0%nat => Some (sabr_step_trapez p dt sigma_0 z z2)
  | 1%nat => Some (sabr_step_chen p dt sigma_0 z z2)
  | _ => None
  end.
(** sabr_mc.py:57-75 draw_log_return (beta = 1) *)
Definition sabr_log_return (mo : opt) (p : sabrp) (dt sigma_0 sigma_t avgvar zn : R) : R :=
  (intr mo - divr mo) * dt + b_rho p / b_vov p * (sigma_t - sigma_0) - / 2 * avgvar * dt
  + sqrt ((1 - b_rho p ^ 2) * dt * avgvar) * zn.
(** sabr_mc.py:89-98: loop over time steps; [steps] lists (dt, z, z2) of one path; returns (sigma_t, integrated variance) *)
Definition sabr_path (step : R -> R -> R -> R -> R * R) (steps : list (R * R * R)) : R * R :=
  fold_left (fun s x => let '(sg, acc) := s in let '(dt, z, z2) := x in
                        let '(sg', av) := step dt sg z z2 in (sg', acc + av * dt)) steps (1, 0).
(** sabr_mc.py:98-113 cond_spot_sigma, end of the routine *)
Definition sabr_cond_spot_sigma (p : sabrp) (texp fwd sigma_t int_var : R) : R * R :=
  let avgvar := int_var / texp in
  let alpha := sabr_alpha p fwd in let rhoc := sqrt (1 - b_rho p ^ 2) in
  let rho_alpha := b_rho p * alpha in
  (if isclose (b_beta p) 0 then 1 + rho_alpha / b_vov p * (sigma_t - 1)
   else exp (rho_alpha * (1 / b_vov p * (sigma_t - 1) - / 2 * rho_alpha * avgvar * texp)),
   rhoc * sqrt avgvar).
(** sabr_mc.py:115-140 SabrMcABC.price; [paths] = cond_spot_sigma(texp, fwd), one (fwd_ratio, vol_ratio) per path *)
Definition set_fwd (m : opt) : opt := mkOpt (sigma m) (intr m) (divr m) true.
Definition sabr_mc_price (cevp : R -> opt -> R -> R -> R -> R -> R) (mo : opt) (p : sabrp) (correct_fwd : bool)
    (paths : R -> list (R * R)) (strike spot texp cp : R) : R :=
  let fwd := forward mo spot texp in
  let alpha := sabr_alpha p fwd in
  let kk := strike / fwd in
  let ps0 := paths fwd in
  let n_path := INR (length ps0) in
  let ps := if correct_fwd then map (fun x => (fst x / (lsum (map fst ps0) / n_path), snd x)) ps0 else ps0 in
  let thr := if Rlt_dec 0 (b_beta p) then / 10 ^ 16 else - 999 in
  let ps1 := filter (fun x => if Rlt_dec thr (fst x) then true else false) ps in
  let pr := map (fun x => sabr_base_price cevp (b_beta p) (set_fwd (set_sigma mo (alpha * snd x))) kk (fst x) texp cp) ps1 in
  fwd * lsum pr / n_path.
(** sabr_int.py:22-53 SabrMixtureABC.price; [nodes] = cond_spot_sigma, (fwd_ratio, vol_ratio, weight); None = AssertionError *)
Definition sabr_mix_price (cevp : R -> opt -> R -> R -> R -> R -> R) (mo : opt) (p : sabrp) (correct_fwd : bool)
    (nodes : R -> list (R * R * R)) (strike spot texp cp : R) : option R :=
  let fwd := forward mo spot texp in
  let alpha := sabr_alpha p fwd in
  let kk := strike / fwd in
  let ns0 := nodes fwd in
  let fsum := lsum (map (fun x => fst (fst x) * snd x) ns0) in
  let ns := if correct_fwd then map (fun x => (fst (fst x) / fsum, snd (fst x), snd x)) ns0 else ns0 in
  if isclose (lsum (map snd ns)) 1 then
    Some (fwd * lsum (map (fun x => sabr_base_price cevp (b_beta p) (set_fwd (set_sigma mo (alpha * snd (fst x)))) kk (fst (fst x)) texp cp * snd x) ns))
  else None.
(** sabr_int.py:201-241 SabrNormAnalytic.price, quad_correction = False *)
Definition arcsinh_np (x : R) : R := ln (x + sqrt (x ^ 2 + 1)).
Definition norm_analytic_tv (p : sabrp) (strike fwd texp : R) : R :=
  let rhoc2 := 1 - b_rho p ^ 2 in let xi := b_vov p * sqrt texp / 2 in
  let k := b_vov p / b_sigma p * (strike - fwd) + b_rho p in
  let V := sqrt (k ^ 2 + rhoc2) in
  let u0 := arcsinh_np (Rabs ((b_rho p * V - k) / rhoc2)) / (2 * xi) in
  let tmp1 := Rabs (b_rho p - k / V) in let tmp2 := 1 - b_rho p * k / V in
  let A := 3 / 4 * tmp1 in let B := 3 / 4 * (tmp2 - 5 / 16 * tmp1 ^ 2) in
  let R0 := mills (u0 - xi) in let R1 := mills u0 in let R2 := mills (u0 + xi) in
  ((R0 - R2) + A * (R0 + R2 - 2 * R1) + 2 * B * (R0 - R2 - 2 * xi * (1 - u0 * R1))) / xi
  * (/ 2 * b_sigma p * sqrt (texp * V) * exp (- (/ 2) * xi ^ 2) * npdf u0).
Definition norm_analytic_price (mo : opt) (p : sabrp) (strike spot texp cp : R) : R :=
  let '(fwd, df, _) := fwd_df_divf mo spot texp in
  (norm_analytic_tv p strike fwd texp + Rmax (cp * (fwd - strike)) 0) * df.

(** ** Hyperbolic normal SV, nsvh.py; the parameters (sigma, vov, rho) are those of [sabrp] *)
(** nsvh.py:15-53 NsvhABC.price_vsk *)
Definition nsvh_vsk (p : sabrp) (lam texp : R) : R * R * R :=
  let vovn := b_vov p * sqrt texp in let wwm1 := exp (vovn ^ 2) - 1 in let ww := 1 + wwm1 in
  let wlam := exp (lam * vovn ^ 2) in let rho2 := b_rho p ^ 2 in let rhoc2 := 1 - rho2 in
  let wf_1 := powrel wwm1 (1 + lam) in let wf_3 := powrel wwm1 (3 + lam) in let wf_5 := powrel wwm1 (5 + lam) in
  let m2base := rho2 * wlam + rhoc2 * wf_1 in
  let m2 := wwm1 * m2base in
  let m4 := (rho2 * wlam * wwm1) ^ 2 * (ww ^ 2 * (ww ^ 2 + 2 * ww + 3) - 3)
            + 6 * rho2 * rhoc2 * wlam * wwm1 * (ww * wf_5 - 2 * wf_3 + wf_1)
            + 3 / 2 * rhoc2 ^ 2 * wwm1 * (- wlam * ww * wf_5 + (wlam * ww ^ 3 + 1) * wf_3 - wf_1) in
  (m2 * (b_sigma p / b_vov p) ^ 2,
   b_rho p * sqrt wlam * (rho2 * wlam * wwm1 * (ww + 2) + 3 * rhoc2 * (wf_3 - wf_1)) / (sqrt wwm1 * (m2base * sqrt m2base)),
   m4 / (wwm1 * m2base) ^ 2 - 3).
(** numpy arctanh *)
Definition arctanh_np (x : R) : R := / 2 * ln ((1 + x) / (1 - x)).
(** nsvh.py:73-85 Nsvh1._sig0_from_atmvol *)
Definition nsvh1_sig0 (p : sabrp) (texp : R) : R :=
  let vovn := b_vov p * sqrt texp in let vov_var := exp (/ 2 * vovn ^ 2) in let rhoc := sqrt (1 - b_rho p ^ 2) in
  let d := (arctanh_np (b_rho p) - arcsinh_np (b_rho p * vov_var / rhoc)) / vovn in
  let price := / 2 / b_vov p * vov_var * ((1 + b_rho p) * Phi (d + vovn) - (1 - b_rho p) * Phi (d - vovn) - 2 * b_rho p * Phi d) in
  b_sigma p * sqrt (texp / 2 / PI) / price.
(** nsvh.py:102-121 Nsvh1.price *)
Definition nsvh1_d (rho vovn sig_sqrt x : R) : R :=
  let vov_var := exp (/ 2 * vovn ^ 2) in let rhoc := sqrt (1 - rho ^ 2) in
  (arctanh_np rho + arcsinh_np ((x * vovn / sig_sqrt - rho * vov_var) / rhoc)) / vovn.
Definition nsvh1_price (mo : opt) (p : sabrp) (is_atmvol : bool) (strike spot texp cp : R) : R :=
  let '(fwd, df, _) := fwd_df_divf mo spot texp in
  let vovn := b_vov p * sqrt texp in
  let sig0 := if is_atmvol then nsvh1_sig0 p texp else b_sigma p in
  let sig_sqrt := sig0 * sqrt texp in
  let vov_var := exp (/ 2 * vovn ^ 2) in
  let rho := b_rho p in
  let d := nsvh1_d rho vovn sig_sqrt (fwd - strike) in
  (/ 2 * sig_sqrt / vovn * vov_var * ((1 + rho) * Phi (cp * (d + vovn)) - (1 - rho) * Phi (cp * (d - vovn)) - 2 * rho * Phi (cp * d))
   + (fwd - strike) * Phi (cp * d)) * (cp * df).
(** nsvh.py:123-132 Nsvh1.cdf *)
Definition nsvh1_cdf (mo : opt) (p : sabrp) (strike spot texp cp : R) : R :=
  let fwd := forward mo spot texp in
  Phi (cp * nsvh1_d (b_rho p) (b_vov p * sqrt texp) (b_sigma p * sqrt texp) (fwd - strike)).
(** nsvh.py:134-163 Nsvh1.price_vsk *)
Definition nsvh1_vsk (p : sabrp) (texp : R) : R * R * R :=
  let vovn := b_vov p * sqrt texp in let wwm1 := exp (vovn ^ 2) - 1 in let ww := 1 + wwm1 in let rho2 := b_rho p ^ 2 in
  let m2base := ww + 1 + rho2 * wwm1 in
  let m2 := wwm1 / 2 * m2base in
  let c31 := 3 * (ww + 1) ^ 2 in let c33 := wwm1 * (ww + 3) in
  let k0 := (ww + 1) ^ 3 * (ww ^ 2 + 3) in
  let k2 := 2 * c31 * (ww * (ww * (ww + 1) + 3) - 1) in
  let k4 := wwm1 * (ww * (ww * (ww * (ww + 4) + 10) + 12) - 3) in
  (m2 * (b_sigma p / b_vov p) ^ 2,
   b_rho p * sqrt (wwm1 * ww / 2) * (c31 + rho2 * c33) / sqrt (m2base ^ 3),
   wwm1 / 2 * (k0 + rho2 * (k2 + rho2 * k4)) / m2base ^ 2).
(** nsvh.py:184-228 Nsvh1.fit, after the root search: [ww] = ww_root; result (sigma, vov, rho) *)
Definition fit_beta1 (beta2 ww : R) : R :=
  let term1 := sqrt (4 + 2 * (ww * ww - (beta2 + 3) / (ww * ww + 2 * ww + 3))) in
  (ww + 1 - term1) * (ww + 1 + / 2 * term1) ^ 2.
Definition sgn (x : R) : R := if Rlt_dec 0 x then 1 else if Rlt_dec x 0 then - (1) else 0.
Definition nsvh1_fit_at (var skew exkurt texp ww : R) : sabrp :=
  let beta2 := exkurt + 3 in
  let x := 2 * (ww ^ 2 - (beta2 + 3) / (ww ^ 2 + 2 * ww + 3)) in
  let m := x / (2 + sqrt (4 + x)) in
  let rho2 := (ww + 1) * (ww - 1 - m) / ((ww - 1) * (ww + 1 + m)) in
  let rho := sgn skew * sqrt (Rmax rho2 0) in
  let vov := sqrt (ln ww / texp) in
  let m2base := (ww + 1) + rho ^ 2 * (ww - 1) in
  mkSabr (sqrt (2 * var / ((ww - 1) * m2base)) * vov) vov rho 0.

(** ** sabr.py:508-556 SabrChoiWu2021H.vol_for_price with _base_beta = None (so qq_ratio = 1, term20 = 0); fwd, strike > 0 *)
Definition choiwu_h_vol (mo : opt) (p : sabrp) (order : nat) (strike spot texp : R) : R :=
  let '(fwd, _, _) := fwd_df_divf mo spot texp in
  let alpha := sabr_alpha p fwd in let betac := 1 - b_beta p in let rho2 := b_rho p ^ 2 in
  let kk := strike / fwd in
  let qq := powrel (kk - 1) betac * (kk - 1) in
  let zz := b_vov p / Rmax alpha eps * qq in
  let h := hh zz (b_rho p) in
  let term02 := (2 - 3 * rho2) / 24 * b_vov p ^ 2 in
  let term11 := b_rho p * b_beta p / 4 * b_vov p * alpha * powrel (kk - 1) (b_beta p) in
  let vol := match order with O => 1 | _ => 1 + texp * (0 + term11 + term02) end in
  vol * (alpha * npow fwd betac * 1 * h).
