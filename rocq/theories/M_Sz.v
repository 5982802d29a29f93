(** OusvSchobelZhu1998 (ousv.py:253-344) over the complex numbers; calibrate3 of SabrHagan2002 (sabr.py:378-415). *)
From Coq Require Import Reals List.
From Coquelicot Require Import Coquelicot.
From Verif Require Import M_Opt M_Mgf M_Fd M_Sabr M_VolPath Sums.
Import ListNotations.

(** numpy's complex sqrt, exp, log, sinh, cosh *)
Record cops := mkOps { c_sqrt : C -> C; c_exp : C -> C; c_log : C -> C; c_sinh : C -> C; c_cosh : C -> C }.

Section Sz.
Local Open Scope C_scope.
Variable o : cops. Variable p : svp.
Let mr : C := RtoC (v_mr p). Let theta : C := RtoC (v_theta p). Let vov : C := RtoC (v_vov p). Let rho : C := RtoC (v_rho p). Let sigma : C := RtoC (v_sigma p).
Definition two : C := RtoC 2.
Definition half : C := RtoC (/ 2).
(** ousv.py:266-293 D_B_C (the same expressions are inside logp_mgf_schobelzhu1998, ousv.py:222-246) *)
Definition sz_DBC (s1 s2 s3 : C) (texp : R) : C * C * C :=
  let t := RtoC texp in
  let gamma1 := c_sqrt o (two * (vov * vov) * s1 + mr * mr) in
  let gamma2 := (mr - two * (vov * vov) * s3) / gamma1 in
  let gamma3 := mr * mr * theta - s2 * (vov * vov) in
  let sh := c_sinh o (gamma1 * t) in let ch := c_cosh o (gamma1 * t) in
  let sincos := sh + gamma2 * ch in let cossin := ch + gamma2 * sh in
  let ktg3 := mr * theta * gamma1 - gamma2 * gamma3 in
  let s2g3 := vov * vov * (gamma1 * gamma1 * gamma1) in
  let D := (mr - gamma1 * sincos / cossin) / (vov * vov) in
  let B := ((ktg3 + gamma3 * sincos) / cossin - mr * theta * gamma1) / (vov * vov * gamma1) in
  let Cc := - half * c_log o cossin + half * mr * t
            + (mr * theta * gamma1 * (mr * theta * gamma1) - gamma3 * gamma3) / (two * s2g3) * (sh / cossin - gamma1 * t)
            + ktg3 * gamma3 / s2g3 * ((ch - RtoC 1) / cossin) in
  (D, B, Cc).
(** the common end of f_1, f_2 and logp_mgf_schobelzhu1998: [lead] is the first term *)
Definition sz_end (lead : C) (dbc : C * C * C) : C := let '(D, B, Cc) := dbc in c_exp o (lead + ((D / two * sigma + B) * sigma + Cc)).
(** ousv.py:295-307 f_1 *)
Definition sz_f1 (phi texp : R) : C :=
  let tmp := RtoC 1 + Ci * RtoC phi in
  let s1 := half * tmp * (- tmp * (RtoC 1 - rho * rho) + (RtoC 1 - two * mr * rho / vov)) in
  let s2 := tmp * mr * theta * rho / vov in
  let s3 := half * tmp * rho / vov in
  sz_end (- half * rho * tmp * (sigma * sigma / vov + vov * RtoC texp)) (sz_DBC s1 s2 s3 texp).
(** ousv.py:309-320 f_2 *)
Definition sz_f2 (phi texp : R) : C :=
  let ph := RtoC phi in
  let s1 := half * ph * (ph * (RtoC 1 - rho * rho) + Ci * (RtoC 1 - two * mr * rho / vov)) in
  let s2 := Ci * ph * mr * theta * rho / vov in
  let s3 := half * Ci * ph * rho / vov in
  sz_end (- half * Ci * ph * rho * (sigma * sigma / vov + vov * RtoC texp)) (sz_DBC s1 s2 s3 texp).
(** ousv.py:206-250 logp_mgf_schobelzhu1998 at a complex argument *)
Definition szc_mgf (uu : C) (texp : R) : C :=
  let s1 := half * uu * ((RtoC 1 - two * mr * rho / vov) - (RtoC 1 - rho * rho) * uu) in
  let s2 := uu * mr * theta * rho / vov in
  let s3 := half * uu * rho / vov in
  sz_end (- half * uu * rho * (sigma * sigma / vov + vov * RtoC texp)) (sz_DBC s1 s2 s3 texp).
(** ousv.py:332-339 the integrand at phi *)
Definition sz_integrand (kk texp phi : R) : R :=
  Re ((sz_f1 phi texp - RtoC kk * sz_f2 phi texp) * c_exp o (- Ci * RtoC phi * RtoC (ln kk)) / (Ci * RtoC phi)).
End Sz.
Open Scope R_scope.
(** scipy simps(., dx=h) on phi = h, 2h, ..., n h *)
Definition sz_simps (h : R) (n : nat) (g : R -> R) : R := h * simps (map (fun j => g (INR j * h)) (seq 1 n)).
(** ousv.py:322-344 price; the code has n = 100001 and h = 0.001 *)
Definition sz_price (o : cops) (mo : opt) (p : svp) (n : nat) (h strike spot texp cp : R) : R :=
  let '(fwd, df, _) := fwd_df_divf mo spot texp in
  let kk := strike / fwd in
  let price := sz_simps h n (sz_integrand o p kk texp) / PI in
  df * fwd * (price + (1 - kk) / 2 * (if Rlt_dec 0 cp then 1 else -1)).

(** ** sabr.py:378-415 calibrate3.  The three strikes and quotes are triples; [root f x0] = scipy.optimize.root(f, x0).x;
    [iv] = base_model(None).impvol(price, strike, spot, texp, cp). *)
Definition tri : Type := R * R * R.
Definition tmap (f : R -> R) (x : tri) : tri := let '(a, b, c) := x in (f a, f b, f c).
Definition tmap2 (f : R -> R -> R) (x y : tri) : tri := let '(a, b, c) := x in let '(d, e, g) := y in (f a d, f b e, f c g).
Definition cal_model (beta : R) (x : tri) : sabrp := let '(a, b, c) := x in mkSabr (exp a) (exp b) (tanh c) beta.
Definition cal_err (mo : opt) (beta : R) (order : nat) (vol3 strike3 : tri) (spot texp : R) (x : tri) : tri :=
  tmap2 Rminus (tmap (fun k => hagan_vol mo (cal_model beta x) order k spot texp) strike3) vol3.
(** (the returned parameters, the model after the call) *)
Definition calibrate3 (root : (tri -> tri) -> tri -> tri) (iv : R -> R -> R) (mo : opt) (p : sabrp) (order : nat) (quote3 strike3 : tri)
    (spot texp : R) (setval is_vol : bool) : sabrp * sabrp :=
  let vol3 := if is_vol then quote3 else tmap2 iv quote3 strike3 in
  let sol := root (cal_err mo (b_beta p) order vol3 strike3 spot texp) (ln (snd (fst vol3)), -1, 0) in
  let q := cal_model (b_beta p) sol in (q, if setval then q else p).
