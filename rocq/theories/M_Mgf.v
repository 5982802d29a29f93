(** Log-price moment generating functions of the Fourier pricers, for a real argument [uu]
    (the code is also called with complex arguments, which are not modelled). *)
From Coq Require Import Reals List.
From Verif Require Import M_Params.
Import ListNotations.
Open Scope R_scope.

(** An instance of a subordinated model: fields plus the precomputed _mgf1_correction. *)
Record subo := mkSub { s_sigma : R; s_nu : R; s_theta : R; s_corr : R }.
(** constructors, params.py:412-422 and 508-517 ([vg_post]/[nig_post] give the correction) *)
Definition vg_new (sigma nu theta : R) : option subo :=
  match vg_post sigma nu theta with Some c => Some (mkSub sigma nu theta c) | None => None end.
Definition nig_new (sigma nu theta : R) : option subo :=
  match nig_post sigma nu theta with Some c => Some (mkSub sigma nu theta c) | None => None end.
(** attribute assignment obj.sigma = s: the dataclass does not recompute _mgf1_correction *)
Definition sub_set_sigma (o : subo) (s : R) : subo := mkSub s (s_nu o) (s_theta o) (s_corr o).

(** subord_bm.py:24-54 VarGammaABC.logp_mgf *)
Definition vg_mgf (o : subo) (uu texp : R) : R :=
  let volvar := s_nu o * s_sigma o ^ 2 in
  let rv := - s_corr o * uu - ln (1 + (- s_theta o * s_nu o - / 2 * volvar * uu) * uu) in
  exp (texp / s_nu o * rv).
(** subord_bm.py:56-93 VarGammaABC.logp_cum4 *)
Definition vg_cum4 (o : subo) (texp : R) : R * R * R * R :=
  let nu := s_nu o in let sig2 := s_sigma o ^ 2 in let th := s_theta o in
  let nth2 := nu * th ^ 2 in
  let omega := - s_corr o / nu in
  let c2 := texp * (sig2 + nth2) in
  let c3 := texp * nu * th * (3 * sig2 + 2 * nth2) in
  let c4 := 3 * texp * nu * (sig2 ^ 2 + 4 * nth2 * sig2 + 2 * nth2 ^ 2) in
  let c1 := texp * (omega + th) in
  (c1, c2, c3, c4).
(** sv_cos.py:447-469 VarGammaCos.logp_cum4 (recomputes omega from the current fields) *)
Definition vgcos_cum4 (o : subo) (texp : R) : R * R * R * R :=
  let nu := s_nu o in let th := s_theta o in
  let sig2 := s_sigma o ^ 2 in let th2 := th ^ 2 in
  let omega := ln (1 - th * nu - / 2 * sig2 * nu) / nu in
  (texp * (omega + th), texp * (sig2 + nu * th2), texp * nu * th * (3 * sig2 + 2 * nu * th2),
   3 * texp * nu * (sig2 ^ 2 + 2 * th2 ^ 2 * nu ^ 2 + 4 * sig2 * th2 * nu)).
(** sv_cos.py:419-422 BsmCos.logp_cum4 *)
Definition bsmcos_cum4 (sigma texp : R) : R * R * R * R :=
  let s2t := sigma ^ 2 * texp in (- (/ 2) * s2t, s2t, 0, 0).

(** subord_bm.py:109-139 NigABC.logp_mgf *)
Definition nig_mgf (o : subo) (uu texp : R) : R :=
  let volvar := s_nu o * s_sigma o ^ 2 in
  let rv := - s_corr o * uu + 1 - sqrt (1 + (- 2 * s_theta o * s_nu o - volvar * uu) * uu) in
  exp (texp / s_nu o * rv).
(** subord_bm.py:141-173 NigABC.logp_cum4 *)
Definition nig_cum4 (o : subo) (texp : R) : R * R * R * R :=
  let nu := s_nu o in let sig2 := s_sigma o ^ 2 in let th := s_theta o in
  let nth2 := nu * th ^ 2 in
  let omega := - s_corr o / nu in
  let c2 := texp * (sig2 + nth2) in
  let c3 := 3 * nu * th * c2 in
  let c4 := 3 * nu * c2 * (sig2 + 5 * nth2) in
  let c1 := texp * (omega + th) in
  (c1, c2, c3, c4).

(** CGMY: fields and precomputed values, params.py:648-671; [gam] stands for scipy's gamma(-Y) *)
Record cgmyo := mkCgmy { y_C : R; y_G : R; y_M : R; y_Y : R; y_gamYC : R; y_MpowY : R; y_GpowY : R; y_corr : R }.
Definition cgmy_new (gam : R -> R) (C G M Y : R) : option cgmyo :=
  if cgmy_accepts C G M Y then
    let mp := Rpower M Y in let gp := Rpower G Y in
    Some (mkCgmy C G M Y (gam (- Y) * C) mp gp (Rpower (M - 1) Y - mp + Rpower (G + 1) Y - gp))
  else None.
(** obj.M = v: nothing is recomputed *)
Definition cgmy_set_M (o : cgmyo) (v : R) : cgmyo :=
  mkCgmy (y_C o) (y_G o) v (y_Y o) (y_gamYC o) (y_MpowY o) (y_GpowY o) (y_corr o).
(** sv_fft.py:252-293 CgmyABC.logp_mgf (real uu with -G < uu < M) *)
Definition cgmy_mgf (o : cgmyo) (uu texp : R) : R :=
  let rv := Rpower (y_M o - uu) (y_Y o) - y_MpowY o + Rpower (y_G o + uu) (y_Y o) - y_GpowY o in
  exp (y_gamYC o * texp * (- y_corr o * uu + rv)).

(** mean-reverting stochastic-volatility parameters: sigma (var_0 or sigma_0), vov, rho, mr, theta *)
Record svp := mkSv { v_sigma : R; v_vov : R; v_rho : R; v_mr : R; v_theta : R }.
(** heston.py:335-361 HestonABC.logp_mgf *)
Definition heston_beta (p : svp) (uu : R) : R := v_mr p - v_vov p * v_rho p * uu.
Definition heston_dd (p : svp) (uu : R) : R := sqrt (heston_beta p uu ^ 2 + v_vov p ^ 2 * uu * (1 - uu)).
Definition heston_gg (p : svp) (uu : R) : R :=
  (heston_beta p uu - heston_dd p uu) / (heston_beta p uu + heston_dd p uu).
Definition heston_mgf (p : svp) (uu texp : R) : R :=
  let var_0 := v_sigma p in
  let vov2 := v_vov p ^ 2 in
  let beta := heston_beta p uu in
  let dd := heston_dd p uu in
  let gg := heston_gg p uu in
  let ex := exp (- dd * texp) in
  let tmp1 := 1 - gg * ex in
  let mgf := v_mr p * v_theta p * ((beta - dd) * texp - 2 * ln (tmp1 / (1 - gg))) + var_0 * (beta - dd) * (1 - ex) / tmp1 in
  exp (mgf / vov2).

(** ousv.py:166-204 OusvABC.logp_mgf *)
Definition ousv_beta (p : svp) (uu : R) : R := 2 * v_mr p - v_rho p * (2 * v_vov p) * uu.
Definition ousv_dd (p : svp) (uu : R) : R := sqrt (ousv_beta p uu ^ 2 + 4 * v_vov p ^ 2 * uu * (1 - uu)).
Definition ousv_gg (p : svp) (uu : R) : R := (ousv_beta p uu - ousv_dd p uu) / (ousv_beta p uu + ousv_dd p uu).
Definition ousv_logmgf (p : svp) (uu texp : R) : R :=
  let var_0 := v_sigma p ^ 2 in
  let sigma_0 := v_sigma p in
  let mr_h := 2 * v_mr p in
  let theta_h := v_vov p ^ 2 / (2 * v_mr p) in
  let vov2_h := 4 * v_vov p ^ 2 in
  let beta := ousv_beta p uu in
  let dd := ousv_dd p uu in
  let gg := ousv_gg p uu in
  let exp_h := exp (- / 2 * dd * texp) in
  let ex := exp_h ^ 2 in
  let tmp1 := 1 - gg * ex in
  let mgf := (mr_h * theta_h * ((beta - dd) * texp - 2 * ln (tmp1 / (1 - gg))) + var_0 * (beta - dd) * (1 - ex) / tmp1) / vov2_h in
  let bb := (1 - exp_h) ^ 2 / tmp1 in
  let aa := / 2 * v_mr p * v_theta p / dd ^ 2 *
    (beta * (dd * texp - 4) + dd * (dd * texp - 2) + 4 * ((dd ^ 2 - 2 * beta ^ 2) / (beta + dd) * ex + 2 * beta * exp_h) / tmp1) in
  mgf + / 2 * v_theta p / theta_h * (beta - dd) / dd * (aa + bb * sigma_0).
Definition ousv_mgf (p : svp) (uu texp : R) : R := exp (ousv_logmgf p uu texp).

(** ousv.py:206-250 logp_mgf_schobelzhu1998 (exponent) *)
Definition sz_g1 (p : svp) (uu : R) : R :=
  sqrt (2 * v_vov p ^ 2 * (/ 2 * uu * ((1 - 2 * v_mr p * v_rho p / v_vov p) - (1 - v_rho p ^ 2) * uu)) + v_mr p ^ 2).
Definition sz_g2 (p : svp) (uu : R) : R := (v_mr p - 2 * v_vov p ^ 2 * (/ 2 * uu * v_rho p / v_vov p)) / sz_g1 p uu.
Definition sz_logmgf (p : svp) (uu texp : R) : R :=
  let mr := v_mr p in let theta := v_theta p in let vov := v_vov p in let rho := v_rho p in
  let s2 := uu * mr * theta * rho / vov in
  let gamma1 := sz_g1 p uu in
  let gamma2 := sz_g2 p uu in
  let gamma3 := mr ^ 2 * theta - s2 * vov ^ 2 in
  let sh := sinh (gamma1 * texp) in
  let ch := cosh (gamma1 * texp) in
  let sincos := sh + gamma2 * ch in
  let cossin := ch + gamma2 * sh in
  let ktg3 := mr * theta * gamma1 - gamma2 * gamma3 in
  let s2g3 := vov ^ 2 * gamma1 ^ 3 in
  let D := (mr - gamma1 * sincos / cossin) / vov ^ 2 in
  let B := ((ktg3 + gamma3 * sincos) / cossin - mr * theta * gamma1) / (vov ^ 2 * gamma1) in
  let C := - / 2 * ln cossin + / 2 * mr * texp
           + ((mr * theta * gamma1) ^ 2 - gamma3 ^ 2) / (2 * s2g3) * (sh / cossin - gamma1 * texp)
           + ktg3 * gamma3 / s2g3 * ((ch - 1) / cossin) in
  - / 2 * uu * rho * (v_sigma p ^ 2 / vov + vov * texp) + ((D / 2 * v_sigma p + B) * v_sigma p + C).

(** sv32.py:27-49 hyp1f1_complex: the truncated series, [n] loop iterations after the first term *)
Fixpoint hyp_loop (a b x : R) (kk : R) (inc ret : R) (n : nat) : R :=
  match n with
  | O => ret
  | S n' => let inc' := inc * ((a + kk) / (b + kk) / (kk + 1) * x) in
            hyp_loop a b x (kk + 1) inc' (ret + inc') n'
  end.
Definition hyp1f1 (n : nat) (a b x : R) : R := hyp_loop a b x 1 (a / b * x) (1 + a / b * x) n.
(** sv32.py:52-83 Sv32ABC.logp_mgf; [loggam] = scipy loggamma, [n] = 1023 loop iterations,
    [cap] = expo_max, np.clip *)
Definition clip (x lo hi : R) : R := Rmin (Rmax x lo) hi.
Definition sv32_mu (p : svp) (uu : R) : R := / 2 + (v_mr p - uu * v_rho p * v_vov p) / v_vov p ^ 2.
Definition sv32_mgf (loggam : R -> R) (n : nat) (cap : R) (p : svp) (uu texp : R) : R :=
  let vov2 := v_vov p ^ 2 in
  let mu := sv32_mu p uu in
  let c_tilde := uu * (1 - uu) / vov2 in
  let delta := sqrt (mu ^ 2 + c_tilde) in
  let alpha := - mu + delta in
  let beta := 1 + 2 * delta in
  let mr_new := v_mr p * v_theta p in
  let XX := 2 * mr_new / (vov2 * v_sigma p) / (exp (mr_new * texp) - 1) in
  let expo := clip (loggam (beta - alpha) - loggam beta + alpha * ln XX) (- cap) cap in
  exp expo * hyp1f1 n alpha beta (- XX).

(** sv_fft.py:324-365 GarchFftWuMaWang2012.logp_mgf_old (exponent) *)
Definition garch_old (p : svp) (uu texp : R) : R :=
  let th := v_theta p in let vov := v_vov p in
  let zeta := - / 2 * (uu - uu ^ 2) in
  let gg := v_mr p - 3 / 2 * v_rho p * vov * sqrt th * uu in
  let dd := sqrt (gg ^ 2 - 4 * vov ^ 2 * zeta * th) in
  let e := exp (- dd * texp) in
  let term2_num := 2 * dd - (dd - gg) * (1 - e) in
  let term2_den := 2 * dd in
  let term2_log := 2 * ln (term2_num / term2_den) in
  let term2 := - (1 / (2 * th * vov ^ 2)) * (v_mr p * th - 1 / 2 * v_rho p * vov * uu * (th * sqrt th)) * (term2_log + (dd - gg) * texp) in
  let term3_num := (dd ^ 2 - gg ^ 2) * (dd - gg) * texp + (dd - gg) ^ 3 * e * texp - 4 * dd * (dd - gg) * (1 - e) in
  let term3_den := 2 * dd - (dd - gg) * (1 - e) in
  let term3_log := - 4 * gg * ln (term2_num / term2_den) in
  let term3 := - (1 / (8 * vov ^ 2)) * (term3_log + term3_num / term3_den) in
  let C := term2 + term3 in
  let num := 2 * zeta * (1 - e) in
  let den := 2 * dd - (dd - gg) * (1 - e) in
  let D := num / den in
  C + D * v_sigma p.
(** sv_fft.py:368-406 logp_mgf (exponent) *)
Definition garch_gg (p : svp) (uu : R) : R := v_mr p - 3 / 2 * (v_rho p * v_vov p * sqrt (v_theta p) * uu).
Definition garch_dd (p : svp) (uu : R) : R := sqrt (garch_gg p uu ^ 2 + 2 * v_vov p ^ 2 * v_theta p * (uu - uu ^ 2)).
Definition garch_new (p : svp) (uu texp : R) : R :=
  let vov := v_vov p in let th := v_theta p in
  let zeta := uu - uu ^ 2 in
  let uu_etc := v_rho p * vov * sqrt th * uu in
  let gg := garch_gg p uu in
  let dd := garch_dd p uu in
  let dd_m_gg := 2 * vov ^ 2 * th * zeta / (dd + gg) in
  let avgexp := - (exp (- dd * texp) - 1) / dd in
  let tmp := 1 - / 2 * dd_m_gg * avgexp in
  let log_tmp := ln tmp in
  let C0 := - (v_mr p - / 2 * uu_etc) * dd_m_gg * texp - (v_mr p + / 2 * uu_etc) * log_tmp in
  let term3_num := 2 * vov ^ 2 * th * zeta + dd_m_gg ^ 2 * exp (- dd * texp) - 4 * dd ^ 2 * avgexp in
  let C := C0 - (term3_num * dd_m_gg * texp / (2 * dd) / tmp) / 4 in
  let D := / 2 * avgexp / tmp * zeta in
  C * (/ 2 / vov ^ 2) - D * v_sigma p.
