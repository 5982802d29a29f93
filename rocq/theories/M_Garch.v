(** garch.py: GARCH diffusion  dV = mr (theta - V) dt + vov V dZ.  Also the second-order uncorrelated pricers of
    heston.py and ousv.py, which share their shape.  [svp] is the parameter record (v_sigma = initial variance);
    [opt] carries the rates and the is_fwd flag (its sigma field is not used). *)
From Coq Require Import Reals List Arith.
From Verif Require Import M_Opt M_Mgf M_Heston M_Ou.
Import ListNotations.
Open Scope R_scope.

(** garch.py:27-65 GarchUncorrBaroneAdesi2004.avgvar_mv *)
Definition garch_avgvar_mv (p : svp) (texp var0 : R) : R * R :=
  let mr := v_mr p in let vov := v_vov p in let theta := v_theta p in
  let mr2 := mr * mr in let vov2 := vov * vov in let theta2 := theta * theta in
  let mr_t := mr * texp in
  let e_mr := exp (- mr_t) in
  let M1 := theta + (var0 - theta) * exprel (- mr_t) in
  let term1 := vov2 - mr in
  let term2 := vov2 - 2 * mr in
  let M2c_1 := - (e_mr * (var0 - theta)) ^ 2 in
  let M2c_2 := 2 * exp (term2 * texp) * (2 * mr * theta * (mr * theta + term2 * var0) + term1 * term2 * var0 ^ 2) in
  let M2c_3 := - vov2 * (theta2 * (4 * mr * (3 - mr_t) + (2 * mr_t - 5) * vov2) + term2 * var0 * (2 * theta + var0)) in
  let M2c_4 := 2 * e_mr * vov2
     * (2 * theta2 * (mr_t * mr - (1 + mr_t) * vov2) + var0 * (2 * mr * theta * (1 + texp * term1) + term1 * var0)) in
  let M2c := M2c_1 / mr2 + M2c_2 / (term1 * term2) ^ 2 + M2c_3 / mr2 / term2 ^ 2 + M2c_4 / mr2 / term1 ^ 2 in
  (M1, M2c / texp ^ 2).

(** garch.py:67-83 GarchUncorrBaroneAdesi2004.price; None = ValueError.  The rho warning is not modelled. *)
Definition garch_uncorr_price (m : opt) (p : svp) (order : nat) (strike spot texp cp : R) : option R :=
  let '(avgvar, var) := garch_avgvar_mv p texp (v_sigma p) in
  let m_bs := mkOpt (sqrt avgvar) (intr m) (divr m) false in
  let price := bsm_price m_bs strike spot texp cp in
  if Nat.eqb order 2 then Some (price + / 2 * var * bsm_d2_var m_bs strike spot texp cp)
  else if Nat.ltb 2 order then None
  else Some price.

(** heston.py:424-455 HestonUncorrBallRoma1994.price (avgvar_mv is CirModel.avg_mv at the initial variance);
    order above 3 only warns *)
Definition heston_uncorr_price (m : opt) (p : svp) (order : nat) (strike spot texp cp : R) : R :=
  let c := heston_cir p in
  let m_bs := mkOpt (sqrt (cir_avg_mean c texp (v_sigma p))) (intr m) (divr m) false in
  let price := bsm_price m_bs strike spot texp cp in
  let price := if Nat.leb 2 order then price + / 2 * cir_avg_var c texp (v_sigma p) * bsm_d2_var m_bs strike spot texp cp else price in
  if Nat.leb 3 order then price + / 6 * cir_avg_c3 c texp (v_sigma p) * bsm_d3_var m_bs strike spot texp cp else price.

(** ousv.py:347-370 OusvUncorrBallRoma1994.price; None = ValueError *)
Definition ousv_uncorr_price (m : opt) (p : svp) (order : nat) (strike spot texp cp : R) : option R :=
  let m_bs := mkOpt (sqrt (ou_avgvar p true texp (v_sigma p))) (intr m) (divr m) false in
  if Nat.ltb 0 order then None else Some (bsm_price m_bs strike spot texp cp).

(** garch.py:111-134 GarchMcTimeDisc.vol_step_euler for one path, [z] the normal: before and after the floor *)
Definition garch_euler_raw (p : svp) (milstein : bool) (dt var_0 z : R) : R :=
  let var_t := var_0 + v_mr p * (v_theta p - var_0) * dt + v_vov p * var_0 * sqrt dt * z in
  if milstein then var_t + (v_vov p ^ 2 / 2) * var_0 * dt * (z ^ 2 - 1) else var_t.
Definition garch_euler (p : svp) (milstein : bool) (dt var_0 z : R) : R :=
  let var_t := garch_euler_raw p milstein dt var_0 z in if Rlt_dec var_t 0 then 0 else var_t.
(** garch.py:136-153 var_step_log: next log variance *)
Definition garch_log_step (p : svp) (dt log_var_0 z : R) : R :=
  log_var_0 + (v_mr p * v_theta p * exp (- log_var_0) - v_mr p - v_vov p ^ 2 / 2) * dt + v_vov p * sqrt dt * z.

(** 1 / x in numpy floats: None stands for the infinity of a division by zero *)
Definition np_inv (x : R) : option R := if Req_EM_T x 0 then None else Some (/ x).
Definition omap2 (f : R -> R -> R) (a b : option R) : option R :=
  match a, b with Some x, Some y => Some (f x y) | _, _ => None end.
(** garch.py:155-183 cond_states_step: (var_t, mean_var, mean_vol, mean_inv_vol), outer None = ValueError;
    the inner None of mean_inv_vol = infinity *)
Definition garch_step (p : svp) (scheme : nat) (z dt var_0 : R) : option (R * R * R * option R) :=
  if Nat.ltb scheme 2 then
    let var_t := garch_euler p (Nat.eqb scheme 1) dt var_0 z in
    let vol_0 := sqrt var_0 in let vol_t := sqrt var_t in
    Some (var_t, (var_0 + var_t) / 2, (vol_0 + vol_t) / 2, omap2 (fun a b => (a + b) / 2) (np_inv vol_0) (np_inv vol_t))
  else if Nat.eqb scheme 2 then
    let log_var_t := garch_log_step p dt (ln var_0) z in
    let vol_0 := sqrt var_0 in let vol_t := exp (log_var_t / 2) in let var_t := vol_t ^ 2 in
    Some (var_t, (var_0 + var_t) / 2, (vol_0 + vol_t) / 2, omap2 (fun a b => (a + b) / 2) (np_inv vol_0) (np_inv vol_t))
  else None.

(** garch.py:185-215 cond_spot_sigma for one path: accumulated integrals of variance, volatility and inverse volatility;
    [z i] the normal of step i.  outer None = ValueError; inner None = not finite *)
Fixpoint garch_loop (p : svp) (scheme : nat) (z : nat -> R) (i : nat) (dts : list R) (var j u : R) (w : option R)
  : option (R * R * R * option R) :=
  match dts with
  | [] => Some (var, j, u, w)
  | d :: t => match garch_step p scheme (z i) d var with
              | None => None
              | Some (v, a, b, c) =>
                garch_loop p scheme z (S i) t v (j + a * d) (u + b * d) (omap2 (fun x y => x + y * d) w c)
              end
  end.
Definition garch_cond_spot_sigma (p : svp) (scheme : nat) (z : nat -> R) (dts : list R) (texp var_0 : R) : option (option R * R) :=
  match garch_loop p scheme z 0 dts var_0 0 0 (Some 0) with
  | None => None
  | Some (var_t, j, u, w) =>
    let avgvar := j / texp in let avgvol := u / texp in
    let spot_cond := match w with
      | None => None
      | Some w => let avgivol := w / texp in
        Some (exp (v_rho p * (2 * (sqrt var_t - sqrt var_0) / v_vov p
          + (- v_mr p * v_theta p * avgivol / v_vov p + (v_mr p / v_vov p + v_vov p / 4) * avgvol - v_rho p * avgvar / 2) * texp)))
      end in
    Some (spot_cond, sqrt ((1 - v_rho p ^ 2) / var_0 * avgvar))
  end.
