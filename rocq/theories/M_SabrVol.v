(** SABR volatility approximations of Choi & Wu (H with a base beta, P) and of Lorig et al., and masses at zero:
    sabr.py:508-853, sabr_int.py:55-77, sabr_mc.py:233-265, util.py:85-126. *)
From Coq Require Import Reals List Arith.
From Verif Require Import Gauss Sums M_Opt M_Mgf M_Heston M_Fd M_Sabr M_Cev.
Import ListNotations.
Open Scope R_scope.

(** util.py:120-126 MathFuncs.powrel: ValueError (None) unless x > -1 *)
Definition powrel_chk (x a : R) : option R := if Rlt_dec (- (1)) x then Some (powrel x a) else None.
Definition obind {A B : Type} (x : option A) (f : A -> option B) : option B := match x with Some a => f a | None => None end.

(** sabr.py:512-513, 586-587: vol_beta; [base] = _base_beta *)
Definition vol_beta (p : sabrp) (base : option R) : R := match base with None => b_beta p | Some b => b end.
(** sabr.py:524, 621: qq_ratio *)
Definition qq_ratio (p : sabrp) (base : option R) (kk : R) : R :=
  match base with None => 1 | Some b => powrel (kk - 1) (1 - b) / powrel (kk - 1) (1 - b_beta p) end.

(** ** sabr.py:536-546 SabrChoiWu2021H: term20 with a base beta, off and at the money *)
Definition h_term20_off (p : sabrp) (b alpha kk qq qr : R) : R :=
  (/ 2 * (b_beta p - b) * ln kk - ln qr) * alpha ^ 2 / qq.
Definition h_term20_atm (p : sabrp) (b alpha : R) : R := ((1 - b_beta p) ^ 2 - (1 - b) ^ 2) / 24 * alpha ^ 2.
Definition h_term20 (p : sabrp) (base : option R) (alpha kk qq qr : R) : R :=
  match base with
  | None => 0
  | Some b => if isclose (b_beta p) b then 0
              else if Rlt_dec (Rabs qq) (/ 10 ^ 6) then h_term20_atm p b alpha else h_term20_off p b alpha kk qq qr
  end.
(** sabr.py:508-556 SabrChoiWu2021H.vol_for_price, any _base_beta; [order] = approx_order.
    fwd > 0; ValueError (None) when the strike is not positive, from powrel.
    np.power(fwd, 1 - vol_beta) is [npow_s], as in sabr_alpha. *)
Definition h_vol (mo : opt) (p : sabrp) (base : option R) (order : nat) (strike spot texp : R) : option R :=
  let '(fwd, _, _) := fwd_df_divf mo spot texp in
  let alpha := sabr_alpha p fwd in let betac := 1 - b_beta p in let rho2 := b_rho p ^ 2 in
  let kk := strike / fwd in
  obind (powrel_chk (kk - 1) betac) (fun tmp =>
  let qr := qq_ratio p base kk in
  let qq := tmp * (kk - 1) in
  let zz := b_vov p / Rmax alpha eps * qq in
  let term02 := (2 - 3 * rho2) / 24 * b_vov p ^ 2 in
  let term11 := b_rho p * b_beta p / 4 * b_vov p * alpha * powrel (kk - 1) (b_beta p) in
  let term20 := h_term20 p base alpha kk qq qr in
  let vol := match order with O => 1 | _ => 1 + texp * (term20 + term11 + term02) end in
  Some (vol * (alpha * npow_s fwd (1 - vol_beta p base) * qr * hh zz (b_rho p)))).

(** sabr.py:558-563 SabrChoiWu2021H.mass_zero (log=False): Cev(sigma = vol_for_price(0), beta) without the rates *)
Definition h_mass_zero (gamma_sf : R -> R -> R) (mo : opt) (p : sabrp) (order : nat) (spot texp : R) : option R :=
  obind (h_vol mo p None order 0 spot texp) (fun v => Some (cev_mass_zero gamma_sf (b_beta p) (mkOpt v 0 0 false) spot texp)).
(** sabr.py:565-580 SabrChoiWu2021H.mass_zero_t0 *)
Definition h_mass_zero_t0 (mo : opt) (p : sabrp) (spot texp : R) : R :=
  let fwd := forward mo spot texp in
  let alpha := sabr_alpha p fwd in let betac := 1 - b_beta p in
  let h := hh (- b_vov p / (alpha * betac)) (b_rho p) in
  / 2 / (betac * alpha * h) ^ 2.

(** ** SabrChoiWu2021P *)
(** numpy.arctan2(y, x) for y > 0 *)
Definition arctan2_pos (y x : R) : R := PI / 2 - atan (x / y).
(** sabr.py:643-697: gg1 (at t1) and gg2 (at t2) for one strike; [num t] = rho + (eta - rhoc) t; [skip] is the extra test
    "eta > eps" that only gg2 has in the second branch *)
Definition p_gg (rho rhoc eta t : R) (skip : bool) : R :=
  let e := eta * eta - 1 in
  let s := sqrt (Rabs e) in
  let num := rho + (eta - rhoc) * t in
  atan t +
  (if Rlt_dec (/ 10 ^ 6) e then eta / s * arctan2_pos s num
   else if Rlt_dec e (- / 10 ^ 6) then if skip then 0 else eta / s * (/ 2) * ln (Rabs ((num + s) / (num - s)))
   else eta / num * (1 - e / num ^ 2 / 3)).
Definition p_t1 (rho zz : R) : R := (vv zz rho + rho + zz) / sqrt (1 - rho ^ 2).
Definition p_t2 (rho : R) : R := (1 + rho) / sqrt (1 - rho ^ 2).
(** sabr.py:638 eta *)
Definition p_eta (p : sabrp) (alpha kk zz : R) : R :=
  b_vov p / ((1 - b_beta p) * alpha) * npow_s kk (1 - b_beta p) * (sqrt (1 - b_rho p ^ 2) / vv zz (b_rho p)).
(** sabr.py:631-699 gg_diff *)
Definition p_gg_diff (p : sabrp) (alpha kk zz : R) : R :=
  let rho := b_rho p in let rhoc := sqrt (1 - rho ^ 2) in let betac := 1 - b_beta p in
  if Rlt_dec (Rabs betac) (/ 10 ^ 3) then / 2 * b_beta p * rho / (1 - rho ^ 2) * (vv zz rho - 1 - rho * zz)
  else
    let eta := p_eta p alpha kk zz in
    let skip := if Rlt_dec (/ 10 ^ 6) eta then false else true in
    rho * b_beta p / (rhoc * betac) * (p_gg rho rhoc eta (p_t2 rho) skip - p_gg rho rhoc eta (p_t1 rho zz) false).
(** sabr.py:703-706: the base-beta term *)
Definition p_base_term (p : sabrp) (base : option R) (kk qr : R) : R :=
  match base with
  | None => 0
  | Some b => if isclose (b_beta p) b then 0 else / 2 * (b_beta p - b) * ln kk - ln qr
  end.
(** sabr.py:701, 717-722: order1 off the money, its at-the-money value, and the override *)
Definition p_order1_den (p : sabrp) (base : option R) (alpha kk zz den : R) : R :=
  let h := hh zz (b_rho p) in
  (b_vov p * h) ^ 2 / den * (p_base_term p base kk (qq_ratio p base kk) + / 2 * ln (vv zz (b_rho p) / h ^ 2) + p_gg_diff p alpha kk zz).
Definition p_order1_off (p : sabrp) (base : option R) (alpha kk zz : R) : R := p_order1_den p base alpha kk zz (Rmax (zz ^ 2) eps).
Definition p_order1_atm (p : sabrp) (base : option R) (alpha : R) : R :=
  ((1 - b_beta p) ^ 2 - (1 - vol_beta p base) ^ 2) / 24 * alpha ^ 2
  + (b_rho p * b_beta p / 4 * alpha + (2 - 3 * b_rho p ^ 2) / 24 * b_vov p) * b_vov p.
Definition p_order1 (p : sabrp) (base : option R) (alpha kk zz : R) : R :=
  if Rlt_dec (Rabs zz) (/ 10 ^ 6) then p_order1_atm p base alpha else p_order1_off p base alpha kk zz.
(** sabr.py:600-732 SabrChoiWu2021P.vol_for_price, one strike *)
Definition p_vol (mo : opt) (p : sabrp) (base : option R) (order : nat) (strike spot texp : R) : option R :=
  let '(fwd, _, _) := fwd_df_divf mo spot texp in
  let alpha := sabr_alpha p fwd in let betac := 1 - b_beta p in
  let kk := strike / fwd in
  obind (powrel_chk (kk - 1) betac) (fun tmp =>
  let zz := b_vov p / Rmax alpha eps * tmp * (kk - 1) in
  let vol := match order with O => 1 | _ => 1 + p_order1 p base alpha kk zz * texp end in
  Some (vol * (alpha * npow_s fwd (1 - vol_beta p base) * qq_ratio p base kk * hh zz (b_rho p)))).

(** ** sabr.py:747-853 SabrLorig2017.vol_for_price; [order] = approx_order, [lv] = lv_factor; fwd, strike > 0 *)
Definition lorig_vol_at (bc rho vov s0 kmx texp : R) (order : nat) (lv : R) : R :=
  let t_2 := match order with O | 1%nat => 0 | _ => texp * texp end in
  let t_3 := match order with O | 1%nat | 2%nat => 0 | _ => texp * t_2 end in
  let rho2 := rho ^ 2 in
  let s10 := s0 / 2 * (- bc) * kmx in
  let s01 := vov / 4 * (2 * kmx * rho + texp * s0 * (- vov + rho * s0)) in
  let s20 := s0 * bc ^ 2 * (texp / 24 * s0 ^ 2 - t_2 / 96 * s0 ^ 4 + kmx ^ 2 / 12) * lv in
  let s11 := - bc * vov * (texp / 4 * rho * s0 ^ 2 - t_2 / 48 * rho * s0 ^ 4 - texp / 24 * s0 * (3 * vov - 5 * rho * s0) * kmx) in
  let s02 := vov ^ 2 * (texp / 24 * (8 - 3 * rho2) * s0
             + t_2 / 96 * s0 * (5 * vov ^ 2 + 2 * s0 * ((6 * rho2 - 2) * s0 - 7 * vov * rho))
             - texp / 24 * rho * (vov - 3 * rho * s0) * kmx
             + (2 - 3 * rho2) / (12 * s0) * kmx ^ 2) in
  let s30 := - bc ^ 3 * s0 ^ 3 * kmx * (texp / 16 - 5 / 192 * t_2 * s0 ^ 2) in
  let s21 := bc ^ 2 * vov * (t_2 / 96 * s0 ^ 3 * (7 * rho * s0 - 3 * vov)
             + t_3 / 384 * s0 ^ 5 * (5 * vov - 7 * rho * s0)
             + 13 / 48 * texp * rho * s0 ^ 2 * kmx
             - 13 / 192 * t_2 * rho * s0 ^ 4 * kmx
             - texp / 48 * s0 * (vov - 3 * rho * s0) * kmx ^ 2) in
  let s12 := - bc * vov ^ 2 * (t_2 / 48 * rho * s0 ^ 2 * (13 * rho * s0 - 7 * vov)
             + t_3 / 192 * rho * s0 ^ 4 * (5 * vov - 7 * rho * s0)
             + texp / 48 * (3 * rho2 + 8) * s0 * kmx
             + t_2 / 192 * s0 * (5 * vov ^ 2 - 22 * vov * rho * s0 + 4 * (5 * rho2 - 3) * s0 ^ 2) * kmx
             + texp / 24 * rho2 * s0 * kmx ^ 2
             + (3 * rho2 - 2) / (24 * s0) * kmx ^ 3) in
  let s03 := vov ^ 3 * (t_2 / 96 * s0 * (3 * vov * (rho2 - 4) + rho * (26 - 9 * rho2) * s0)
             + t_3 / 384 * s0 * (s0 * (19 * vov ^ 2 * rho + 2 * s0 * (vov * (8 - 21 * rho2) + rho * (15 * rho2 - 11) * s0)) - 3 * vov ^ 3)
             + texp / 48 * rho * (3 * rho2 - 2) * kmx
             + t_2 / 192 * rho * (vov ^ 2 + 6 * s0 * (vov * rho + (1 - 2 * rho2) * s0)) * kmx
             - texp / 16 * rho * (rho2 - 1) * kmx ^ 2
             + rho * (6 * rho2 - 5) / (24 * s0 ^ 2) * kmx ^ 3) in
  s0 + (s10 + s01) + (s20 + s11 + s02) + (s30 + s21 + s12 + s03).
Definition lorig_vol (mo : opt) (p : sabrp) (order : nat) (lv strike spot texp : R) : R :=
  let '(fwd, _, _) := fwd_df_divf mo spot texp in
  lorig_vol_at (1 - b_beta p) (b_rho p) (b_vov p) (sabr_alpha p fwd) (ln (strike / fwd)) texp order lv.

(** sabr.py:293-297 SabrVolApproxABC.price: base_model(vol_for_price).price; [cevp] as in sabr_base_price *)
Definition approx_price (cevp : R -> opt -> R -> R -> R -> R -> R) (base_beta : R) (mo : opt) (vol strike spot texp cp : R) : R :=
  sabr_base_price cevp base_beta (set_sigma mo vol) strike spot texp cp.

(** ** Mass at zero of mixtures *)
(** numpy.amax *)
Definition lmax (l : list R) : R := match l with [] => 0 | x :: r => fold_left Rmax r x end.
(** log of a sum of exponentials after removing the maximum: sabr_int.py:68-71, sabr_mc.py:257-260 *)
Definition log_sum_exp (lm : list R) : R := let mx := lmax lm in mx + ln (lsum (map (fun x => exp (x - mx)) lm)).
(** sabr_int.py:55-77 SabrMixtureABC.mass_zero; [l] lists (fwd_ratio, vol_ratio, weight) as returned by cond_spot_sigma;
    the base model is Cev (0 < beta < 1) with the rates of the model and is_fwd = True. *)
Definition mix_rescale (correct_fwd : bool) (l : list (R * R * R)) : list (R * R * R) :=
  if correct_fwd then let s := lsum (map (fun '(f, v, w) => f * w) l) in map (fun '(f, v, w) => (f / s, v, w)) l else l.
Definition mix_mass_zero (gamma_sf : R -> R -> R) (mo : opt) (p : sabrp) (correct_fwd : bool) (l : list (R * R * R)) (spot texp : R) : R :=
  let alpha := sabr_alpha p (forward mo spot texp) in
  lsum (map (fun '(f, v, w) => cev_mass_zero gamma_sf (b_beta p) (mkOpt (alpha * v) (intr mo) (divr mo) true) f texp * w) (mix_rescale correct_fwd l)).
Definition mix_log_mass_zero (gamma_sf : R -> R -> R) (loggamma : R -> R) (mo : opt) (p : sabrp) (correct_fwd : bool) (l : list (R * R * R)) (spot texp : R) : R :=
  let alpha := sabr_alpha p (forward mo spot texp) in
  log_sum_exp (map (fun '(f, v, w) => ln w + cev_log_mass_zero gamma_sf loggamma (b_beta p) (mkOpt (alpha * v) (intr mo) (divr mo) true) f texp) (mix_rescale correct_fwd l)).
(** sabr_mc.py:233-265 SabrMcTimeDisc.mass_zero; rho = 0 asserted, so fwd_ratio = 1; [vs] the simulated vol_ratio values *)
Definition mc_mass_zero (gamma_sf : R -> R -> R) (mo : opt) (p : sabrp) (vs : list R) (spot texp : R) : R :=
  let alpha := sabr_alpha p (forward mo spot texp) in
  lsum (map (fun v => cev_mass_zero gamma_sf (b_beta p) (mkOpt (alpha * v) (intr mo) (divr mo) true) 1 texp) vs) / INR (length vs).
Definition mc_log_mass_zero (gamma_sf : R -> R -> R) (loggamma : R -> R) (mo : opt) (p : sabrp) (vs : list R) (spot texp : R) : R :=
  let alpha := sabr_alpha p (forward mo spot texp) in
  let g := map (fun v => cev_log_mass_zero gamma_sf loggamma (b_beta p) (mkOpt (alpha * v) (intr mo) (divr mo) true) 1 texp) vs in
  let mx := lmax g in mx + ln (lsum (map (fun x => exp (x - mx)) g) / INR (length g)).
