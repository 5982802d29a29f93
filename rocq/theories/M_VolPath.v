(** Whole volatility paths on a time grid: OusvMcTimeDisc.vol_paths / cond_states_full (ousv.py), SabrMcTimeDisc.vol_paths /
    cond_spot_sigma_volpath (sabr_mc.py).  One path; [zs] lists the standard normals of the path, one per observation time
    (their layout over paths and the antithetic rows are bm_incr of M_Mc, one row per time). *)
From Coq Require Import Reals List.
From Verif Require Import M_Opt M_Mgf M_Sabr M_Mc M_Fd Sums.
Import ListNotations.
Open Scope R_scope.

(** sv_abc.py:101,110,115-118 _bm_incr(tobs, cum=True), one path: np.cumsum of z * sqrt(np.diff(tobs, prepend=0)) *)
Fixpoint cum_from (b : R) (l : list R) : list R := match l with [] => [] | x :: r => (b + x) :: cum_from (b + x) r end.
Definition map2 {A B C} (f : A -> B -> C) (l : list A) (m : list B) : list C := map (fun ab => f (fst ab) (snd ab)) (combine l m).
Definition bm_path (ts zs : list R) : list R := cum_from 0 (map2 (fun d z => z * sqrt d) (diff_from 0 ts) zs).

(** ousv.py:534-543 OusvMcTimeDisc.vol_paths *)
Definition ou_vol_paths (p : svp) (ts zs : list R) : list R :=
  let exp_tobs := map (fun t => exp (v_mr p * t)) ts in
  let bm := bm_path (map (fun e => e ^ 2 - 1) exp_tobs) zs in
  v_sigma p :: map2 (fun b e => v_theta p + (v_sigma p - v_theta p + v_vov p / sqrt (2 * v_mr p) * b) / e) bm exp_tobs.

(** scipy.integrate.simps(y, dx=1), even='avg' (the default): composite Simpson rule for an odd number of points; otherwise
    the average of the two rules with a trapezoid on the last / the first interval *)
Fixpoint simp13 (l : list R) : R := match l with a :: b :: ((c :: _) as r) => (a + 4 * b + c) / 3 + simp13 r | _ => 0 end.
Definition simps (l : list R) : R :=
  if Nat.even (length l) then
    ((simp13 (removelast l) + (last (removelast l) 0 + last l 0) / 2) + (simp13 (tl l) + (hd 0 l + hd 0 (tl l)) / 2)) / 2
  else simp13 l.

(** ousv.py:545-553 cond_states_full: (s_t, v_t_std, u_t_std); n_dt = len(tobs) *)
Definition ou_full (p : svp) (ts zs : list R) : R * R * R :=
  let path := ou_vol_paths p ts zs in
  (last path 0, simps (map (fun x => x ^ 2) path) / INR (length ts), simps path / INR (length ts)).

(** sabr_mc.py:181-207 SabrMcTimeDisc.vol_paths: (path, log_rn_deriv) *)
Definition sabr_vol_paths (p : sabrp) (mu : R) (ts zs : list R) : list R * R :=
  let texp := last ts 0 in let t01 := map (fun t => t / texp) ts in let vovn := b_vov p * sqrt texp in
  let bm := bm_path t01 zs in
  let log_rn := if Req_EM_T mu 0 then 0 else - mu * (last bm 0 + / 2 * mu) in
  (map exp (0 :: map2 (fun b s => vovn * (b + (mu - / 2 * vovn) * s)) bm t01), log_rn).

(** sabr_mc.py:209-231 cond_spot_sigma_volpath: (spot_cond, vol_cond, log_rn_deriv); [ts] = self.tobs(texp) *)
Definition sabr_volpath_cond (p : sabrp) (mu texp sigma_0 : R) (ts zs : list R) : R * R * R :=
  let rhoc := sqrt (1 - b_rho p ^ 2) in let rho_sigma := b_rho p * sigma_0 in
  let path := fst (sabr_vol_paths p mu ts zs) in let log_rn := snd (sabr_vol_paths p mu ts zs) in
  let sigma_final := last path 0 in
  let int_var := simps (map (fun x => x ^ 2) path) / INR (length ts) in
  (if isclose (b_beta p) 0 then rho_sigma / b_vov p * (sigma_final - 1)
   else exp (rho_sigma * (1 / b_vov p * (sigma_final - 1) - / 2 * rho_sigma * int_var * texp)),
   rhoc * sqrt int_var, log_rn).
