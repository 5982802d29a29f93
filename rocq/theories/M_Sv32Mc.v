(** Simulation of the 3/2 model (sv32_mc.py), one path at a time.  [p]: Sv32Params (v_sigma: initial variance).
    scipy functions enter as parameters: [iv] Bessel I (order, argument), [gamma], [digamma], [trigamma] = polygamma(1, .). *)
From Coq Require Import Reals List Arith.
From Verif Require Import Base Sums M_Mgf M_Heston.
Import ListNotations.
Open Scope R_scope.

(** sv32_mc.py:15-22, sv32.py:17-25 cir: the CIR model of the reciprocal 1/V *)
Definition sv32_cir (p : svp) : cir :=
  let mr_new := v_mr p * v_theta p in mkCir (v_vov p) mr_new ((v_mr p + v_vov p ^ 2) / mr_new).

(** sv32_mc.py:159-182 var_step_euler: before and after the floor at zero *)
Definition sv32_euler_raw (p : svp) (milstein : bool) (dt var_0 z : R) : R :=
  let var_t := 1 + v_mr p * (v_theta p - var_0) * dt + v_vov p * sqrt (var_0 * dt) * z in
  let var_t := if milstein then var_t + 3 / 4 * v_vov p ^ 2 * var_0 * (z ^ 2 - 1) * dt else var_t in
  var_t * var_0.
Definition sv32_euler (p : svp) (milstein : bool) (dt var_0 z : R) : R :=
  let v := sv32_euler_raw p milstein dt var_0 z in if Rlt_dec v 0 then 0 else v.
(** sv32_mc.py:184-204 Sv32McTimeStep.cond_states_step: [z] the normal of schemes 0 and 1, [x] the non-central chi-square
    draw of scheme 2, [g] the standard gamma draw of scheme 3; None: ValueError.  Returns (var_t, avgvar) *)
Definition sv32_step (p : svp) (scheme : nat) (dt var_0 z x g : R) : option (R * R) :=
  let trap var_t := Some (var_t, (var_0 + var_t) / 2) in
  match scheme with
  | 0%nat => trap (sv32_euler p false dt var_0 z)
  | 1%nat => trap (sv32_euler p true dt var_0 z)
  | 2%nat => let '(scale, _, _) := cir_ncx2_args (sv32_cir p) dt (1 / var_0) in trap (1 / (scale * x))
  | 3%nat => let '(scale, _, _) := cir_pois_gamma_args (sv32_cir p) dt (1 / var_0) in trap (1 / (scale * g))
  | _ => None
  end.

(** sv32_mc.py:128-147 cond_spot_sigma: the loop over time steps for any step scheme, then the conditional spot and
    volatility.  The spot is None when the final variance is not positive (np.log gives -inf or nan) *)
Fixpoint sv32_loop (step : nat -> R -> R -> R * R) (i : nat) (dts : list R) (var avg : R) : R * R :=
  match dts with
  | [] => (var, avg)
  | d :: ds => let '(vt, a) := step i d var in sv32_loop step (S i) ds vt (avg + a * d)
  end.
Definition sv32_cond_spot_sigma (p : svp) (step : nat -> R -> R -> R * R) (dts : list R) (texp var_0 : R) : option R * R :=
  let '(var_t, sum) := sv32_loop step 0 dts var_0 0 in
  let avgvar := sum / texp in
  let spot_cond := (ln (var_t / var_0) - texp * (v_mr p * v_theta p - (v_mr p + v_vov p ^ 2 / 2) * avgvar)) / v_vov p
                   - v_rho p * avgvar * texp / 2 in
  ((if Rlt_dec 0 var_t then Some (exp (v_rho p * spot_cond)) else None),
   sqrt ((1 - v_rho p ^ 2) * avgvar / var_0)).

(** sv32_mc.py:39-57 iv_complex, real argument, [n] = 63 loop iterations *)
Fixpoint ivc_loop (nu zzh2 : R) (kk : R) (p0 iv : R) (n : nat) : R :=
  match n with
  | O => iv
  | S n' => let p0 := p0 * (zzh2 / (kk * (kk + nu))) in ivc_loop nu zzh2 (kk + 1) p0 (iv + p0) n'
  end.
Definition iv_complex (gamma : R -> R) (n : nat) (nu zz : R) : R :=
  let p0 := Rpower (/ 2 * zz) nu / gamma (nu + 1) in ivc_loop nu ((zz / 2) ^ 2) 1 p0 p0 n.
(** sv32_mc.py:59-90 iv_d12, [n] = kk_max - 1 loop iterations *)
Fixpoint ivd_loop (nu zzh2 : R) (kk : R) (p0 lmp psi1 iv1 iv2 : R) (n : nat) : R * R :=
  match n with
  | O => (iv1, iv2)
  | S n' =>
      let p0 := p0 * (zzh2 / (kk * (kk + nu))) in
      let lmp := lmp - 1 / (nu + kk) in
      let psi1 := psi1 - 1 / (nu + kk) ^ 2 in
      ivd_loop nu zzh2 (kk + 1) p0 lmp psi1 (iv1 + lmp * p0) (iv2 + (lmp ^ 2 - psi1) * p0) n'
  end.
Definition iv_d12 (gamma digamma trigamma : R -> R) (n : nat) (nu zz : R) : R * R :=
  let p0 := Rpower (zz / 2) nu / gamma (nu + 1) in
  let psi1 := trigamma (nu + 1) in
  let lmp := ln (zz / 2) - digamma (nu + 1) in
  ivd_loop nu ((zz / 2) ^ 2) 1 p0 lmp psi1 (lmp * p0) ((lmp ^ 2 - psi1) * p0) n.

(** sv32_mc.py:106-113 the Bessel order, its derivatives in the transform variable, and the Bessel argument *)
Definition sv32_nu (p : svp) : R := chi_dim (sv32_cir p) / 2 - 1.
Definition sv32_zz (p : svp) (dt var_0 var_t : R) : R := cir_phi (sv32_cir p) dt / sqrt (var_0 * var_t).
Definition sv32_d1 (p : svp) (dt : R) : R := 4 / (v_vov p ^ 2 * dt) / sv32_nu p.
Definition sv32_d2 (p : svp) (dt : R) : R := - (4 / (v_vov p ^ 2 * dt)) ^ 2 / sv32_nu p ^ 3.
(** sv32_mc.py:92-126 cond_avgvar_mv; [ivd] = iv_d12 order argument.  Returns (mean, var_scaled) *)
Definition sv32_floor (vs : R) : R := if Rlt_dec vs 0 then / 10 ^ 64 else vs.
Definition sv32_avgvar_mv (iv : R -> R -> R) (ivd : R -> R -> R * R) (p : svp) (dt var_0 var_t : R) : R * R :=
  let nu := sv32_nu p in let zz := sv32_zz p dt var_0 var_t in
  let '(iv_d1, iv_d2) := ivd nu zz in
  let d1 := - (iv_d1 * sv32_d1 p dt) / iv nu zz in
  let var := (iv_d1 * sv32_d2 p dt + iv_d2 * sv32_d1 p dt ^ 2) / iv nu zz - d1 ^ 2 in
  (d1, sv32_floor (var / d1 ^ 2)).
Definition sv32_avgvar_mv_eta (digamma trigamma : R -> R) (p : svp) (dt var_0 var_t eta : R) : R * R :=
  let nu := sv32_nu p in let zz := sv32_zz p dt var_0 var_t in
  let d1 := - digamma (eta + nu + 1) + ln (zz / 2) in
  let var := sv32_d2 p dt * d1 - sv32_d1 p dt ^ 2 * trigamma (eta + nu + 1) in
  let d1 := d1 * - sv32_d1 p dt in
  (d1, sv32_floor (var / d1 ^ 2)).

(** sv32_mc.py:222-235 cond_avgvar_laplace for a real argument, without and with the Poisson index *)
Definition sv32_nu_bb (p : svp) (bb dt : R) : R := sqrt (sv32_nu p ^ 2 + 8 * bb / (v_vov p ^ 2 * dt)).
Definition sv32_laplace (ivc iv : R -> R -> R) (p : svp) (bb dt var_0 var_t : R) : R :=
  let zz := sv32_zz p dt var_0 var_t in ivc (sv32_nu_bb p bb dt) zz / iv (sv32_nu p) zz.
Definition sv32_laplace_eta (gamma : R -> R) (p : svp) (bb dt var_0 var_t eta : R) : R :=
  let nu := sv32_nu p in let nu_bb := sv32_nu_bb p bb dt in let zz := sv32_zz p dt var_0 var_t in
  let nu_diff := 8 * bb / v_vov p ^ 2 / (nu_bb + nu) in
  gamma (eta + nu + 1) / gamma (eta + nu_bb + 1) * Rpower (zz / 2) nu_diff.

(** sv32_mc.py:301-327 Sv32McChoiKwok2023Ig.draw_from_mv: [eps] = np.finfo(float).eps; a mean not above it gives 0.
    [w mean scale]: the wald draw, [g shape]: the standard gamma draw, [z]: the normal *)
Definition sv32_draw_ig (eps mean vs : R) (w : R -> R -> R) : R := if Rlt_dec eps mean then w mean (mean / vs) else 0.
Definition sv32_draw_ga (eps mean vs : R) (g : R -> R) : R := if Rlt_dec eps mean then vs * mean * g (1 / vs) else 0.
Definition sv32_draw_ln (eps mean vs z : R) : R :=
  if Rlt_dec eps mean then let scale := sqrt (ln (1 + vs)) in mean * exp (scale * (z - scale / 2)) else 0.
