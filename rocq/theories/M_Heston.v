(** Heston / CIR moments (heston.py) and the Heston Monte-Carlo steps (heston_mc.py), one path at a time. *)
From Coq Require Import Reals List ZArith.
From Verif Require Import Gauss M_Opt M_Mgf Sums.
Import ListNotations.
Open Scope R_scope.

(** scipy.special.exprel *)
Definition exprel (x : R) : R := if Req_EM_T x 0 then 1 else (exp x - 1) / x.

(** heston.py:10-37 CirModel *)
Record cir := mkCir { c_xi : R; c_mr : R; c_theta : R }.
(** heston.py:257-260 HestonABC.cir *)
Definition heston_cir (p : svp) : cir := mkCir (v_vov p) (v_mr p) (v_theta p).

(** heston.py:38-67 log_mgf *)
Definition cir_log_mgf (c : cir) (uu texp v0 : R) : R :=
  let gamma := sqrt (c_mr c ^ 2 - 2 * uu * c_xi c ^ 2) in
  let em1 := exp (gamma * texp) - 1 in
  let Delta := 2 * gamma + (c_mr c + gamma) * em1 in
  let B := 2 * uu * em1 / Delta in
  let A := c_mr c * c_theta c / c_xi c ^ 2 * ((c_mr c + gamma) * texp - 2 * ln (1 + (c_mr c + gamma) / (2 * gamma) * em1)) in
  A + B * v0.
(** heston.py:120-148 mv: mean, variance *)
Definition cir_mean (c : cir) (dt v0 : R) : R := c_theta c + (v0 - c_theta c) * exp (- (c_mr c * dt)).
Definition cir_var (c : cir) (dt v0 : R) : R :=
  let mr_t := c_mr c * dt in let e := exp (- mr_t) in let avg := exprel (- mr_t) in
  c_xi c ^ 2 * dt * avg * (v0 * e + c_theta c * mr_t * avg / 2).
(** heston.py:150-152 chi_dim *)
Definition chi_dim (c : cir) : R := 4 * c_theta c * c_mr c / c_xi c ^ 2.
(** heston.py:154-188 avg_mv: mean, variance, third central moment *)
Definition cir_avg_mean (c : cir) (T v0 : R) : R := c_theta c + (v0 - c_theta c) * exprel (- (c_mr c * T)).
Definition cir_avg_var (c : cir) (T v0 : R) : R :=
  let mr_t := c_mr c * T in let e := exp (- mr_t) in let phi := exprel (- mr_t) in let x0 := v0 - c_theta c in
  ((c_theta c - 2 * x0 * e) + (v0 - 5 / 2 * c_theta c + (v0 - c_theta c / 2) * e) * phi) * ((c_xi c / mr_t) ^ 2 * T).
Definition cir_avg_c3_full (c : cir) (T v0 : R) : R :=
  let mr_t := c_mr c * T in let e := exp (- mr_t) in let phi := exprel (- mr_t) in
  let fac := (c_xi c / c_mr c) ^ 4 / c_mr c in
  let b3 := 3 * fac * ((1 + / 2 * e * (1 - e * (2 + e))) - mr_t * e * (1 + mr_t + 2 * e)) in
  let int_b3 := fac * T * ((3 - 11 * phi + e * (9 - 7 / 2 * phi + e * (3 - / 2 * phi))) + 3 * mr_t * e) in
  (c_mr c * c_theta c * int_b3 + b3 * v0) / T ^ 3.
Definition cir_avg_c3_small (c : cir) (T v0 : R) : R :=
  let mr_t := c_mr c * T in
  (c_xi c ^ 2 * T) ^ 2 * (v0 / 5 + mr_t * (c_theta c / 30 - 17 * v0 / 60) + mr_t ^ 2 * (3 * v0 / 14 - 17 * c_theta c / 420)).
Definition cir_avg_c3 (c : cir) (T v0 : R) : R :=
  if Rlt_dec (c_mr c * T) (/ 10) then cir_avg_c3_small c T v0 else cir_avg_c3_full c T v0.
(** heston.py:190-194 phi_exp *)
Definition cir_phi (c : cir) (dt : R) : R :=
  let exp_h := exp (- (c_mr c * dt / 2)) in 4 * c_mr c / c_xi c ^ 2 / (/ exp_h - exp_h).
Definition cir_exp_h (c : cir) (dt : R) : R := exp (- (c_mr c * dt / 2)).
(** heston.py:196-213 draw_euler, [z] the standard normal *)
Definition cir_euler (c : cir) (milstein : bool) (dt v0 z : R) : R :=
  let v := v0 + c_mr c * (c_theta c - v0) * dt + sqrt v0 * c_xi c * z in
  Rmax (if milstein then v + / 4 * c_xi c ^ 2 * (z ^ 2 - dt) else v) 0.
(** heston.py:215-231 draw_ncx2: scale, degrees of freedom and non-centrality handed to the generator *)
Definition cir_ncx2_args (c : cir) (dt v0 : R) : R * R * R :=
  (cir_exp_h c dt / cir_phi c dt, 4 * c_mr c * c_theta c / c_xi c ^ 2, v0 * cir_exp_h c dt * cir_phi c dt).
(** heston.py:233-252 draw_pois_gamma: scale, gamma shape offset (plus the Poisson draw), Poisson intensity *)
Definition cir_pois_gamma_args (c : cir) (dt v0 : R) : R * R * R :=
  (cir_exp_h c dt / cir_phi c dt * 2, 4 * c_mr c * c_theta c / c_xi c ^ 2 / 2, v0 * cir_exp_h c dt * cir_phi c dt / 2).

(** heston.py:363-405 logp_mv: mean and variance of log(S_T/F) *)
Definition heston_logp_mean (p : svp) (T : R) : R := - / 2 * T * cir_avg_mean (heston_cir p) T (v_sigma p).
Definition heston_logp_var (p : svp) (T : R) : R :=
  let mr_t := v_mr p * T in let e := exp (- mr_t) in let phi := exprel (- mr_t) in
  let x0 := v_sigma p - v_theta p in
  let cov := v_vov p ^ 2 / v_mr p * (v_theta p * (1 - phi) + x0 * (phi - e)) in
  T * cir_avg_mean (heston_cir p) T (v_sigma p) + T ^ 2 / 4 * cir_avg_var (heston_cir p) T (v_sigma p) - v_rho p * T / v_vov p * cov.
(** heston.py:297-333 strike_var_swap_analytic (dt not close to 0); [r], [q] = intr, divr *)
Definition heston_var_swap (p : svp) (r q T dt : R) : R :=
  let var0 := v_sigma p in let mr_t := v_mr p * T in let x0 := var0 - v_theta p in
  let mr_h := v_mr p * dt in let eh := exp (- mr_h) in
  let tmp := v_theta p - 2 * (r - q) in
  let tv := v_vov p / v_mr p in
  v_theta p + x0 * exprel (- mr_t)
  + tmp * dt / 4 * (tmp + 2 * x0 * exprel (- mr_t))
  + v_theta p * tv * (tv / 4 - v_rho p) * (1 - exprel (- mr_h))
  + x0 * tv * (tv / 2 - v_rho p) * exprel (- mr_t) * (1 + mr_h / (1 - 1 / eh))
  + (tv ^ 2 * (v_theta p - 2 * var0) + 2 * x0 ^ 2 / v_mr p) * exprel (- 2 * mr_t) / 4 * (1 - eh) / (1 + eh).
(** the same with dt close to 0 (continuous monitoring) *)
Definition heston_var_swap_cont (p : svp) (T : R) : R := v_theta p + (v_sigma p - v_theta p) * exprel (- (v_mr p * T)).

(** heston_mc.py:736-781 var_step_qe, one path: [m], [s2] the conditional mean and variance, [z] the normal *)
Definition psi_c : R := 3 / 2.
Definition qe_b2 (psi : R) : R := let ins := 2 / psi in (ins - 1) + sqrt (ins * (ins - 1)).
Definition qe_var (m s2 z : R) : R :=
  let psi := s2 / m ^ 2 in
  if Rle_dec psi psi_c then m / (1 + qe_b2 psi) * (sqrt (qe_b2 psi) + z) ^ 2
  else let one_m_p := 2 / (psi + 1) in let beta := one_m_p / m in
       if Rle_dec (Phi z) one_m_p then ln (one_m_p / Phi z) / beta else 0.
Definition qe_k (p : svp) (dt : R) : R := dt / 4 * v_rho p * (2 * v_mr p / v_vov p - v_rho p) - v_rho p / v_vov p.
Definition qe_aa (p : svp) (dt : R) : R := qe_k p dt + 2 * v_rho p / v_vov p.
Definition qe_mcorr (p : svp) (m s2 dt var_0 : R) : R :=
  let psi := s2 / m ^ 2 in let aa := qe_aa p dt in
  - qe_k p dt * var_0 + dt * v_rho p * v_mr p * v_theta p / v_vov p +
  (if Rle_dec psi psi_c then
     let b2 := qe_b2 psi in let a := m / (1 + b2) in - aa * b2 * a / (1 - 2 * aa * a) + / 2 * ln (1 - 2 * aa * a)
   else let one_m_p := 2 / (psi + 1) in let beta := one_m_p / m in
     - ln (1 - one_m_p + beta * one_m_p / (beta - aa))).
(** heston_mc.py:814-835 HestonMcAndersen2008.cond_states_step (scheme 4) in the form used by [hmc_loop] *)
Definition qe_step (p : svp) (z : nat -> R) (i : nat) (dt var_0 : R) : R * R * R :=
  let m := cir_mean (heston_cir p) dt var_0 in let s2 := cir_var (heston_cir p) dt var_0 in
  let var_t := qe_var m s2 (z i) in (var_t, (var_0 + var_t) / 2, qe_mcorr p m s2 dt var_0).

(** heston_mc.py:28-52 draw_from_mv: parameters handed to the generators *)
Definition dfm_ig (mean vs : R) : R * R := (mean, mean / vs).            (* wald(mean, scale) *)
Definition dfm_ga (mean vs : R) : R * R := (vs * mean, 1 / vs).          (* factor, shape of standard_gamma *)
Definition dfm_ln (mean vs z : R) : R := let scale := sqrt (ln (1 + vs)) in mean * exp (scale * (z - scale / 2)).

(** heston_mc.py:698-707 the eta loop of HestonMcGlassermanKim2011.cond_states_step: round [i] adds the next
    draws to the paths with eta > i (boolean-mask assignment; None = broadcast error on a short slice) *)
Fixpoint gk_round (i : nat) (eta : list nat) (avg zz : list R) : option (list R * list R) :=
  match eta, avg with
  | e :: eta', a :: avg' =>
      if Nat.ltb i e then
        match zz with
        | [] => None
        | z :: zz' => match gk_round i eta' avg' zz' with Some (r, rest) => Some ((a + z) :: r, rest) | None => None end
        end
      else match gk_round i eta' avg' zz with Some (r, rest) => Some (a :: r, rest) | None => None end
  | _, _ => Some ([], zz)
  end.
Fixpoint gk_rounds (n i : nat) (eta : list nat) (avg zz : list R) : option (list R * list R) :=
  match n with
  | O => Some (avg, zz)
  | S n' => match gk_round i eta avg zz with Some (avg', zz') => gk_rounds n' (S i) eta avg' zz' | None => None end
  end.
Definition gk_loop (eta : list nat) (avg zz : list R) : option (list R * list R) :=
  gk_rounds (list_max eta) 0 eta avg zz.
