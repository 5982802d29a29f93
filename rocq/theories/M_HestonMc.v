(** Glasserman-Kim gamma expansion and conditional moments of the average variance (heston_mc.py).
    [c]: the square-root process (heston.py:257-260 vov, mr, theta); [ive]: scipy.special.ive, [iv]: scipy.special.iv
    (order, argument); [gammaln]: scipy.special.gammaln.  Arguments are real scalars (one path, one observation). *)
From Coq Require Import Reals List Arith.
From Verif Require Import Base Sums M_Heston.
Import ListNotations.
Open Scope R_scope.

(** heston_mc.py:196-203 gamma_lambda: entry number n (n = 1..kk) of gamma_n and lambda_n *)
Definition ge_vov2dt (c : cir) (dt : R) : R := c_xi c ^ 2 * dt.
Definition ge_gamma (c : cir) (dt : R) (n : nat) : R :=
  ((c_mr c * dt) ^ 2 + (INR n * 2 * PI) ^ 2) / (2 * ge_vov2dt c dt).
Definition ge_lambda (c : cir) (dt : R) (n : nat) : R :=
  4 * (INR n * 2 * PI) ^ 2 / ge_vov2dt c dt / ((c_mr c * dt) ^ 2 + (INR n * 2 * PI) ^ 2).

(** heston_mc.py:222-238 x1star_avgvar_mv before the kk correction: mean and vf (mrt_h = a) *)
Definition x1_mean0 (a : R) : R :=
  let a2 := a ^ 2 in
  if Rlt_dec (Rabs a) (1 / 10) then 1 / 3 + a2 * (- (2 / 45) + a2 * 2 / 315)
  else let csch := 1 / sinh a in let coth := cosh a * csch in (coth / a - csch ^ 2) / 2.
Definition x1_vf0 (a : R) : R :=
  let a2 := a ^ 2 in
  if Rlt_dec (Rabs a) (1 / 10) then 1 / 45 + a2 * (- (2 / 315) + a2 * 2 / 1575)
  else let csch := 1 / sinh a in let coth := cosh a * csch in
       (coth / a ^ 3 + csch ^ 2 / a ^ 2 - 2 * coth * csch ^ 2 / a) / 8.
(** heston_mc.py:238-243 (kk = 0 skips the branch: the sums are then empty).  Returns (mean, var_scaled) *)
Definition x1star (c : cir) (dt : R) (kk : nat) : R * R :=
  let mrt_h := c_mr c * dt / 2 in
  let mean := x1_mean0 mrt_h - rsum kk (fun i => ge_lambda c dt (S i) / ge_gamma c dt (S i)) in
  let vf := x1_vf0 mrt_h - 2 * rsum kk (fun i => ge_lambda c dt (S i) / ge_gamma c dt (S i) ^ 2) / ge_vov2dt c dt in
  (mean, ge_vov2dt c dt * vf / mean ^ 2).

(** heston_mc.py:262-279 x2star_avgvar_mv before the kk correction: mf and vf *)
Definition x2_mf0 (a : R) : R :=
  let a2 := a ^ 2 in
  if Rlt_dec (Rabs a) (1 / 10) then 1 / 12 + a2 * (- (1 / 180) + a2 / 1890)
  else let csch := 1 / sinh a in let coth := cosh a * csch in (a * coth - 1) / (4 * a2).
Definition x2_vf0 (a : R) : R :=
  let a2 := a ^ 2 in
  if Rlt_dec (Rabs a) (1 / 10) then 1 / 360 - a2 / 1890
  else let csch := 1 / sinh a in let coth := cosh a * csch in (a * coth + a2 * csch ^ 2 - 2) / (16 * a2 ^ 2).
(** heston_mc.py:279-284.  Returns (mean, var_scaled) *)
Definition x2star (c : cir) (dt : R) (kk : nat) : R * R :=
  let mrt_h := c_mr c * dt / 2 in
  let mf := x2_mf0 mrt_h - rsum kk (fun i => 1 / ge_gamma c dt (S i)) / ge_vov2dt c dt in
  let vf := x2_vf0 mrt_h - rsum kk (fun i => 1 / ge_gamma c dt (S i) ^ 2) / ge_vov2dt c dt ^ 2 in
  (ge_vov2dt c dt * mf, vf / mf ^ 2).

(** heston_mc.py:299-317 eta_mv.  Returns (mean, var_scaled) *)
Definition eta_zz (c : cir) (dt var_0 var_t : R) : R := sqrt (var_0 * var_t) * cir_phi c dt.
Definition eta_nu (c : cir) : R := / 2 * chi_dim c - 1.
Definition eta_mv (ive : R -> R -> R) (c : cir) (dt var_0 var_t : R) : R * R :=
  let zz := eta_zz c dt var_0 var_t in
  let iv_index := eta_nu c in
  let iv0 := ive iv_index zz in
  let iv1 := ive (iv_index + 1) zz in
  let iv2 := ive (iv_index + 2) zz in
  let r1 := iv1 / iv0 in
  let mean := zz / 2 * r1 in
  (mean, iv2 / iv0 / r1 ^ 2 + 1 / mean - 1).

(** heston_mc.py:319-354 cond_avgvar_mv, [pois] = None for the eta variable.  Returns (mean, var_scaled) *)
Definition cond_avgvar_mv (ive : R -> R -> R) (c : cir) (dt var_0 var_t : R) (pois : option R) (kk : nat) : R * R :=
  let '(m_eta, vs_eta) := match pois with None => eta_mv ive c dt var_0 var_t | Some p => (p, 0) end in
  let '(m_x, vs_x) := x1star c dt kk in
  let fac_x := var_0 + var_t in
  let '(m_z, vs_z) := x2star c dt kk in
  let fac_z := 2 * m_eta + chi_dim c / 2 in
  let m_total := m_x * fac_x + m_z * fac_z in
  let v_total := vs_x * m_x ^ 2 * fac_x + vs_z * m_z ^ 2 * fac_z in
  let v_total := match pois with None => v_total + vs_eta * m_eta ^ 2 * (2 * m_z) ^ 2 | Some _ => v_total end in
  (m_total, v_total / m_total ^ 2).

(** heston_mc.py:417-453 cond_avgvar_mgf for a real argument (the branch-cut factor applies to complex ones only) *)
Definition avgvar_mgf_gamma (c : cir) (dt aa : R) : R := sqrt ((c_mr c * dt) ^ 2 - 2 * ge_vov2dt c dt * aa).
Definition cond_avgvar_mgf (iv : R -> R -> R) (c : cir) (aa dt var_0 var_t : R) : R :=
  let vov2dt := ge_vov2dt c dt in
  let mrt := c_mr c * dt in
  let iv_index := eta_nu c in
  let gamma := avgvar_mgf_gamma c dt aa in
  let var_mean := sqrt (var_0 * var_t) in
  let phi_mr := cir_phi c dt in
  let cosh_mr := cosh (mrt / 2) in
  let exph_gamma := exp (- gamma / 2) in
  let phi_gamma := 4 * gamma / vov2dt * exph_gamma / (1 - exph_gamma ^ 2) in
  let cosh_gamma := (exph_gamma + 1 / exph_gamma) / 2 in
  let part1 := phi_gamma / phi_mr in
  let part2 := exp ((var_0 + var_t) * (cosh_mr * phi_mr - cosh_gamma * phi_gamma) / 2) in
  let part3 := iv iv_index (var_mean * phi_gamma) / iv iv_index (var_mean * phi_mr) in
  part1 * part2 * part3.
(** heston_mc.py:506-539 x2_avgvar_mgf for a real argument *)
Definition x2_avgvar_mgf (c : cir) (aa dt shape : R) : R :=
  let vov2dt := ge_vov2dt c dt in
  let gamma := avgvar_mgf_gamma c dt aa in
  let phi_mr := cir_phi c dt in
  let tmp := 4 * gamma / vov2dt / (1 - exp (- gamma)) in
  exp (shape * (ln (tmp / phi_mr) - gamma / 2)).

(** heston_mc.py:463-504 x1star_avgvar_mv_asymp, x2star_avgvar_mv_asymp *)
Definition x1star_asymp (c : cir) (dt : R) (kk : nat) : R * R := (2 / (PI ^ 2 * INR kk), ge_vov2dt c dt / (6 * INR kk)).
Definition x2star_asymp (c : cir) (dt : R) (kk : nat) : R * R := (ge_vov2dt c dt / (2 * PI ^ 2 * INR kk), 1 / (3 * INR kk)).

(** heston_mc.py:554-575 draw_x1, one path: [g n]: the standard gamma variate of term n, [gt]: the one of the remainder *)
Definition draw_x1 (c : cir) (dt : R) (kk : nat) (g : nat -> R) (gt : R) : R :=
  let '(trunc_m, trunc_vs) := x1star c dt kk in
  rsum kk (fun i => g i / ge_gamma c dt (S i)) + trunc_vs * trunc_m * gt.
(** intensity of the Poisson index of term i and shape of the remainder's gamma *)
Definition draw_x1_lam (c : cir) (dt var_0 var_t : R) (i : nat) : R := (var_0 + var_t) * ge_lambda c dt (S i).
Definition draw_x1_shape (c : cir) (dt var_0 var_t : R) (kk : nat) : R := (var_0 + var_t) / snd (x1star c dt kk).

(** heston_mc.py:651-676 draw_x2, one path: [shape] = delta/2 for X2, 2 for Z; each term is a Gamma(shape) variate *)
Definition draw_x2 (c : cir) (dt : R) (kk : nat) (g : nat -> R) (gt : R) : R :=
  let '(trunc_m, trunc_vs) := x2star c dt kk in
  rsum kk (fun i => g i / ge_gamma c dt (S i)) + trunc_vs * trunc_m * gt.
Definition draw_x2_shape (c : cir) (dt shape : R) (kk : nat) : R := shape / snd (x2star c dt kk).

(** heston_mc.py:622-649 draw_eta: cumulative probabilities and the inversion by counting *)
Definition eta_p0 (ive : R -> R -> R) (gammaln : R -> R) (c : cir) (dt var_0 var_t : R) : R :=
  let zz := eta_zz c dt var_0 var_t in let iv_index := eta_nu c in
  exp (iv_index * ln (zz / 2) - zz - gammaln (iv_index + 1)) / ive iv_index zz.
Definition eta_ratio (c : cir) (dt var_0 var_t : R) (j : nat) : R :=
  let zz := eta_zz c dt var_0 var_t in zz ^ 2 / (4 * INR j * (INR j + eta_nu c)).
(** np.vstack((p0, p)).cumprod(axis=0): row j *)
Fixpoint eta_cumprod (ive : R -> R -> R) (gammaln : R -> R) (c : cir) (dt var_0 var_t : R) (j : nat) : R :=
  match j with
  | O => eta_p0 ive gammaln c dt var_0 var_t
  | S j' => eta_cumprod ive gammaln c dt var_0 var_t j' * eta_ratio c dt var_0 var_t (S j')
  end.
(** .cumsum(axis=0): row j *)
Definition eta_cum (ive : R -> R -> R) (gammaln : R -> R) (c : cir) (dt var_0 var_t : R) (j : nat) : R :=
  rsum (S j) (eta_cumprod ive gammaln c dt var_0 var_t).
(** np.sum(p < rv_uni, axis=0) over the 16 rows *)
Fixpoint count_lt (n : nat) (p : nat -> R) (u : R) : nat :=
  match n with O => O | S n' => (count_lt n' p u + (if Rlt_dec (p n') u then 1 else 0))%nat end.
Definition draw_eta (ive : R -> R -> R) (gammaln : R -> R) (c : cir) (dt var_0 var_t u : R) : nat :=
  count_lt 16 (eta_cum ive gammaln c dt var_0 var_t) u.

(** heston_mc.py:872-878 HestonMcChoiKwok2023PoisTd.cond_states_step, one path: [pois] the Poisson draw, [g] the
    standard gamma variate; returns (var_t, avgvar, pois_avgvar_v) *)
Definition poistd_step (ive : R -> R -> R) (c : cir) (dt var_0 pois g : R) : R * R * R :=
  let '(scale, _, _) := cir_pois_gamma_args c dt var_0 in
  let var_t := scale * g in
  let '(avgvar_m, avgvar_vs) := cond_avgvar_mv ive c dt var_0 var_t (Some pois) 0 in
  (var_t, avgvar_m, avgvar_vs * avgvar_m ^ 2).

(** heston_mc.py:979-1005 draw_x123: the explicit terms, and the mean and var_scaled handed to draw_from_mv *)
Definition x123_terms (c : cir) (dt : R) (kk : nat) (g : nat -> R) : R := rsum kk (fun i => g i / ge_gamma c dt (S i)).
Definition x123_trunc (c : cir) (dt : R) (kk : nat) (var_sum shape_sum : R) : R * R :=
  let '(trunc_m, trunc_vs) := x1star c dt kk in
  let '(x23_m, x23_vs) := x2star c dt kk in
  let m_trunc := trunc_m * var_sum + x23_m * shape_sum in
  let v_trunc := trunc_vs * trunc_m ^ 2 * var_sum + x23_vs * x23_m ^ 2 * shape_sum in
  (m_trunc, v_trunc / m_trunc ^ 2).
