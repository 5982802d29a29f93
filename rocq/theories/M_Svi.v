(** Model of /repo/pyfeng/svi.py. *)
From Coq Require Import Reals.
From Verif Require Import M_Opt.
Open Scope R_scope.

(** params.py:600-612 SviParams *)
Record svi := mkSvi { s_sigma : R; s_vov : R; s_rho : R; s_smooth : R; s_shift : R; s_r : R; s_q : R; s_isf : bool }.
(** svi.py:17-18 base_model(vol) *)
Definition svi_base (m : svi) (vol : R) : opt := mkOpt vol (s_r m) (s_q m) (s_isf m).
(** svi.py:20-24 vol_for_price: the argument of the square root as a function of the log-moneyness ... *)
Definition svi_var (m : svi) (k : R) : R :=
  let money := k - s_shift m in s_sigma m + s_vov m * (s_rho m * money + sqrt (money ^ 2 + s_smooth m ^ 2)).
(** ... and the volatility *)
Definition svi_vol (m : svi) (strike spot texp : R) : R :=
  let fwd := forward (svi_base m 0) spot texp in sqrt (svi_var m (ln (strike / fwd))).
(** svi.py:61-64 price *)
Definition svi_price (m : svi) (strike spot texp cp : R) : R := bsm_price (svi_base m (svi_vol m strike spot texp)) strike spot texp cp.
(** svi.py:26-59 init_from_heston (theta given) *)
Definition svi_from_heston (sigma vov rho mr theta texp r q : R) (isf : bool) : svi :=
  let rhoc2 := 1 - rho ^ 2 in
  let w1 := sqrt ((2 * mr - rho * vov) ^ 2 + vov ^ 2 * rhoc2) - (2 * mr - rho * vov) in
  let w1 := w1 * (4 * mr * theta / (vov ^ 2 * rhoc2)) in
  let w2 := sigma / (mr * theta) in
  mkSvi (w1 * rhoc2 / 2) (w1 * w2 / (2 * texp)) rho (sqrt rhoc2 * texp / w2) (- rho * texp / w2) r q isf.
