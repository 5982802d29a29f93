(** Monte-Carlo and mixture machinery: sv_abc.py and the quadrature mixtures of subord_bm.py.
    Random number generators are arbitrary streams; one path / one strike at a time where the code is elementwise. *)
From Coq Require Import Reals List ZArith.
From Verif Require Import M_Opt M_Mgf Sums.
Import ListNotations.
Open Scope R_scope.

(** np.ceil *)
Definition ceilZ (x : R) : Z := (- Int_part (- x))%Z.
(** sv_abc.py:56-71 CondMcBsmABC.tobs *)
Definition tobs (dt : option R) (texp : R) : list R :=
  match dt with
  | None => [texp]
  | Some d => if Rle_dec texp d then [texp]
              else let n := Z.to_nat (ceilZ (texp / d)) in map (fun i => INR i / INR n * texp) (seq 1 n)
  end.
(** np.diff(tobs, prepend=0) *)
Fixpoint diff_from (x : R) (l : list R) : list R :=
  match l with [] => [] | y :: t => (y - x) :: diff_from y t end.

(** sv_abc.py:73-79 rv_normal; [z] is the generator's stream of standard normals *)
Definition interleave (f : R -> R) (l : list R) : list R := flat_map (fun z => [z; f z]) l.
Definition draws (z : nat -> R) (n : nat) : list R := map z (seq 0 n).
Definition rv_normal (antithetic : bool) (n_path : nat) (z : nat -> R) : list R :=
  if antithetic then interleave Ropp (draws z (n_path / 2)) else draws z n_path.
(** sv_abc.py:81-87 rv_uniform *)
Definition rv_uniform (antithetic : bool) (n_path : nat) (u : nat -> R) : list R :=
  if antithetic then interleave (fun x => 1 - x) (draws u (n_path / 2)) else draws u n_path.

(** ndarray.reshape((-1, n)): row-major, ValueError (None) unless the size is divisible *)
Fixpoint chunks (fuel n : nat) (l : list R) : list (list R) :=
  match fuel with
  | O => []
  | S f => match l with [] => [] | _ => firstn n l :: chunks f n (skipn n l) end
  end.
Definition reshape (n : nat) (l : list R) : option (list (list R)) :=
  if Nat.eqb n 0 then None
  else if Nat.eqb (length l mod n) 0 then Some (chunks (length l / n) n l) else None.
(** np.cumsum(axis=0) *)
Fixpoint zip_plus (a b : list R) : list R :=
  match a, b with x :: a', y :: b' => (x + y) :: zip_plus a' b' | _, _ => [] end.
Fixpoint cumsum_rows (acc : list R) (rows : list (list R)) : list (list R) :=
  match rows with [] => [] | r :: t => let s := zip_plus acc r in s :: cumsum_rows s t end.
Definition cumsum (rows : list (list R)) : list (list R) :=
  match rows with [] => [] | r :: t => r :: cumsum_rows r t end.
(** sv_abc.py:89-118 _bm_incr; [g i j] = i-th path draw for the j-th step; None = exception
    (standard_normal(n_path, n_dt) passes n_dt as dtype) *)
Definition bm_row (g : nat -> nat -> R) (nh : nat) (j : nat) (dtj : R) : list R :=
  let r := map (fun i => g i j * sqrt dtj) (seq 0 nh) in r ++ map Ropp r.
Fixpoint bm_rows (g : nat -> nat -> R) (nh : nat) (j : nat) (dts : list R) : list (list R) :=
  match dts with [] => [] | d :: t => bm_row g nh j d :: bm_rows g nh (S j) t end.
Definition bm_incr (antithetic : bool) (n_path : nat) (g : nat -> nat -> R) (tobs : list R) (cum : bool) : option (list (list R)) :=
  if antithetic then
    match reshape n_path (concat (bm_rows g (n_path / 2) 0 (diff_from 0 tobs))) with
    | Some rows => Some (if cum then cumsum rows else rows)
    | None => None
    end
  else None.

(** sv_abc.py:137-157 CondMcBsmABC.price for one strike; [samples] = (fwd_cond, sigma_cond) per path,
    [sg] = self.sigma or sqrt(self.sigma) *)
Definition cond_mc_price (m : opt) (correct_fwd : bool) (sg : R) (samples : list (R * R)) (strike spot texp cp : R) : R :=
  let kk := strike / spot in
  let fwd_mean := lmean (map fst samples) in
  let fc f := if correct_fwd then f / fwd_mean else f in
  spot * lmean (map (fun '(f, s) => bsm_price (set_sigma m (sg * s)) kk (fc f) texp cp) samples).
(** sv_abc.py:242-267 SvMixtureABC.price; samples carry a weight *)
Definition mixture_price (m : opt) (correct_fwd : bool) (sg : R) (samples : list (R * R * R)) (strike spot texp cp : R) : R :=
  let kk := strike / spot in
  let spot_mean := lsum (map (fun '(f, _, w) => f * w) samples) in
  let fc f := if correct_fwd then f / spot_mean else f in
  spot * lsum (map (fun '(f, s, w) => bsm_price (set_sigma m (sg * s)) kk (fc f) texp cp * w) samples).
(** subord_bm.py:206-235 VarGammaQuad.price (also ExpNigQuad); nodes = (subordinator value, weight) *)
Definition subo_quad_price (m : opt) (o : subo) (nodes : list (R * R)) (strike spot texp cp : R) : R :=
  let '(fwd, df, _) := fwd_df_divf m spot texp in
  let omega_T := - texp / s_nu o * s_corr o in
  let ratio x := exp (omega_T + (s_theta o + / 2 * s_sigma o ^ 2) * x) in
  let norm := lsum (map (fun '(x, w) => w * ratio x) nodes) in
  df * lsum (map (fun '(x, w) => w * (fwd * bsm_price_formula (strike / fwd) (ratio x / norm)
        (s_sigma o * sqrt (x / texp)) texp cp 0 0 false)) nodes).
(** sv_abc.py:199-214 price_paths: one step of one path, [x] the standard normal *)
Definition path_step (spot sigma dt x : R) : R := spot * exp (sigma * sqrt dt * x).
(** np.sign *)
Definition rsign (x : R) : R := if Rlt_dec 0 x then 1 else if Rlt_dec x 0 then -1 else 0.
(** sv_abc.py:162-183 price_var_opt *)
Definition price_var_opt (intr : R) (vars : list R) (strike texp cp : R) : R :=
  lmean (map (fun v => Rmax (rsign cp * (v - strike)) 0) vars) * exp (- intr * texp).

(** heston_mc.py:69-109 HestonMcABC.cond_spot_sigma for one path; [step dt var] = (var_t, avgvar, m_corr) where
    m_corr is the per-step martingale correction (0 when switched off) *)
Fixpoint hmc_loop (step : nat -> R -> R -> R * R * R) (i : nat) (dts : list R) (var acc corr : R) : R * R * R :=
  match dts with
  | [] => (var, acc, corr)
  | d :: t => let '(v, a, c) := step i d var in hmc_loop step (S i) t v (acc + a * d) (corr + c)
  end.
Definition hmc_cond_spot_sigma (p : svp) (step : nat -> R -> R -> R * R * R) (dts : list R) (texp var_0 : R) : R * R :=
  let '(var_t, acc, corr) := hmc_loop step 0 dts var_0 0 0 in
  let avgvar := acc / texp in
  let sc := ((var_t - var_0) + v_mr p * texp * (avgvar - v_theta p)) / v_vov p - / 2 * v_rho p * texp * avgvar in
  (exp (sc * v_rho p + corr), sqrt ((1 - v_rho p ^ 2) / var_0 * avgvar)).
(** heston_mc.py:124-141 draw_log_return: conditional mean and variance of one step *)
Definition hmc_ln_m (m : opt) (p : svp) (dt var_0 var_t avgvar : R) : R :=
  v_rho p / v_vov p * ((var_t - var_0) + v_mr p * dt * (avgvar - v_theta p)) + (intr m - divr m - / 2 * avgvar) * dt.
Definition hmc_ln_var (p : svp) (dt avgvar : R) : R := (1 - v_rho p ^ 2) * dt * avgvar.
(** heston_mc.py:117-122 cond_log_return_var *)
Definition hmc_cond_log_return_var (m : opt) (p : svp) (dt var_0 var_t avgvar : R) : R :=
  hmc_ln_m m p dt var_0 var_t avgvar ^ 2 + hmc_ln_var p dt avgvar.
(** totals of the stepwise simulation: sum of conditional means / variances along the same path *)
Fixpoint hmc_sum (m : opt) (p : svp) (step : nat -> R -> R -> R * R * R) (i : nat) (dts : list R) (var : R) : R * R * R :=
  match dts with
  | [] => (0, 0, 0)
  | d :: t => let '(v, a, c) := step i d var in let '(M, V, C) := hmc_sum m p step (S i) t v in
              (hmc_ln_m m p d var v a + M, hmc_ln_var p d a + V, c + C)
  end.
