(** Model of /repo/pyfeng/asian.py.  The object is the [opt] record (sigma, intr, divr, is_fwd). *)
From Coq Require Import Reals List Arith Bool.
From Verif Require Import Gauss Sums M_Opt M_Heston M_Fd M_Sabr.
Import ListNotations.
Open Scope R_scope.

(** ** BsmAsianJsu *)
(** asian.py:72-78: d_j = 2^n prod_(i <> j) ((beta+j)^2 - (beta+i)^2)^(-1), then the sum of exponentials *)
Definition mnc_d (beta : R) (n j : nat) : R :=
  2 ^ n * fold_right Rmult 1 (map (fun i => if Nat.eqb i j then 1 else / ((beta + INR j) ^ 2 - (beta + INR i) ^ 2)) (seq 0 (n + 1))).
(** asian.py:36-84 price_mnc *)
Definition asian_mnc (m : opt) (texp : R) (n : nat) : R :=
  let lam := sigma m in
  let v := (intr m - divr m - lam ^ 2 / 2) / lam in
  let beta := v / lam in
  let item1 := rsum (n + 1) (fun i => mnc_d beta n i * exp ((lam ^ 2 * INR i ^ 2 / 2 + lam * INR i * v) * texp)) in
  (1 / texp) ^ n * INR (fact n) / lam ^ (2 * n) * item1.

(** asian.py:86-155 price_mnc4; the same expressions are repeated in price_mvsk (190-217) *)
Definition mnc_p (m : opt) : R := 2 * (intr m - divr m) / sigma m ^ 2.
Definition asian_mnc4 (m : opt) (texp : R) : R * R * R * R :=
  let v := sigma m ^ 2 * texp in
  let u := (intr m - divr m) * texp in
  let A := exp u in let B := exp v in
  let p := mnc_p m in
  let A2B := A * A * B in let A3B3 := A2B * A * B * B in let A4B6 := A3B3 * A * B * B * B in
  (exprel u,
   (4 / v ^ 2) * ((p + 2) - 2 * (p + 1) * A + p * A2B) / (p * (p + 1) * (p + 2)),
   (8 / v ^ 3) * (- (p + 3) * (p + 4) + 3 * (p + 1) * (p + 4) * A - 3 * p * (p + 3) * A2B + p * (p + 1) * A3B3)
     / (p * (p + 1) * (p + 2) * (p + 3) * (p + 4)),
   (16 / v ^ 4) * ((p + 4) * (p + 5) * (p + 6) - 4 * (p + 1) * (p + 5) * (p + 6) * A + 6 * p * (p + 3) * (p + 6) * A2B
                   - 4 * p * (p + 1) * (p + 5) * A3B3 + p * (p + 1) * (p + 2) * A4B6)
     / (p * (p + 1) * (p + 2) * (p + 3) * (p + 4) * (p + 5) * (p + 6))).
(** asian.py:219-226 central moments with the small-variance branches *)
Definition asian_mu2 (m : opt) (texp : R) : R :=
  let v := sigma m ^ 2 * texp in let p := mnc_p m in
  let m1 := exprel ((intr m - divr m) * texp) in let bb := exprel v in
  let diff_over_v := if Rlt_dec v (/ 100) then (2 - p) / 4 + v * (4 - p ^ 2) / 24 else (bb - m1) / v in
  (4 * diff_over_v + 4 * p * m1 * bb + m1 ^ 2 * (p ^ 2 * bb * v - 3 * p - 2)) / ((p + 1) * (p + 2)).
Definition asian_mu34 (m : opt) (texp : R) : R * R :=
  let v := sigma m ^ 2 * texp in
  let '(m1, m2, m3, m4) := asian_mnc4 m texp in
  if Rlt_dec v (/ 100) then (2 * v ^ 2 / 5, v ^ 2 / 3)
  else (m3 - 3 * m2 * m1 + 2 * m1 ^ 3, m4 - 4 * m3 * m1 + 6 * m2 * m1 ^ 2 - 3 * m1 ^ 4).
(** asian.py:157-233 price_mvsk: mean, scaled variance, skewness, raw kurtosis *)
Definition asian_mvsk (m : opt) (texp : R) : R * R * R * R :=
  let '(m1, _, _, _) := asian_mnc4 m texp in
  let mu2 := asian_mu2 m texp in let '(mu3, mu4) := asian_mu34 m texp in
  (m1, mu2 / m1 ^ 2, mu3 / (mu2 * sqrt mu2), mu4 / mu2 ^ 2).
(** asian.py:235-255 price; [fit] is Nsvh1.from_vsk's parameter search (nsvh.py:165-228), a function of
    (var, skew, exkurt) and texp *)
Definition asian_jsu_price (fit : R * R * R -> R -> sabrp) (m : opt) (strike spot texp cp : R) : R :=
  let df := exp (- texp * intr m) in
  let '(mu0, var_scaled, skew, kurt) := asian_mvsk m texp in
  let mu := mu0 * spot in
  let p := fit (var_scaled * mu ^ 2, skew, kurt - 3) texp in
  df * nsvh1_price (mkOpt (b_sigma p) (intr m) (divr m) (is_fwd m)) p false strike mu texp cp.

(** ** BsmAsianLinetsky2004 *)
(** asian.py:263-265 *)
Definition lin_nu (m : opt) : R := 2 * (intr m - divr m) / sigma m ^ 2 - 1.
(** asian.py:267-277 find_zeros_real: eigenvalues |nu| - 2n + 2, n = 2 .. floor(|nu|/2) + 1; [k] = floor(|nu|/2) *)
Definition lin_zeros_real (nu : R) (k : nat) : list R :=
  if Rle_dec nu (- (2)) then map (fun n => Rabs nu - 2 * INR n + 2) (seq 2 k) else [].
(** asian.py:304-308 eta_q: the difference quotient as coded, for the function f = m.whitw((1-nu)/2, x/2, 1/(2b)) *)
Definition lin_eta_q (f : R -> R) (eigenval : R) : R := (f (eigenval - / 10 ^ 8) - f (eigenval - / 10 ^ 8)) / (2 * / 10 ^ 8).
(** asian.py:310-313 xi_p, the correct central difference beside it *)
Definition lin_xi_p (f : R -> R) (eigenval : R) : R := (f (eigenval + / 10 ^ 8) - f (eigenval - / 10 ^ 8)) / (2 * / 10 ^ 8).
(** asian.py:329-339 price_element_real, the factor p2 = q gamma((nu+q)/2) / (4 eta_q gamma(1+q)); [None]: ZeroDivisionError.
    [w] = m.whitw as a function of the second index, [gam] = m.gamma, [rest] = the other factors *)
Definition lin_element_real (w gam rest : R -> R) (nu q : R) : option R :=
  let den := 4 * lin_eta_q w q * gam (1 + q) in
  if Req_EM_T den 0 then None else Some (rest q * (q * gam ((nu + q) / 2) / den)).
(** asian.py:353-358 the loop over the real zeros and its sum *)
Fixpoint lin_real_sum (w gam rest : R -> R) (nu : R) (qs : list R) : option R :=
  match qs with
  | [] => Some 0
  | q :: t => match lin_element_real w gam rest nu q, lin_real_sum w gam rest nu t with Some a, Some b => Some (a + b) | _, _ => None end
  end.
(** asian.py:341-373 price; [P] = real part of the sum of the spectral terms, a function of (tau, k) *)
Definition linetsky_price (P : R -> R -> R) (m : opt) (strike spot texp cp : R) : R :=
  let tau := sigma m ^ 2 * texp / 4 in
  let k := tau * strike / spot in
  let '(_, df, divf) := fwd_df_divf m spot texp in
  let price := spot / tau * P tau k in
  let gt := (intr m - divr m) * texp in
  let fac := if Rlt_dec (Rabs gt) (/ 10 ^ 8) then 1 + gt / 2 else (divf / df - 1) / gt in
  df * (if Rlt_dec 0 cp then price + (spot * fac - strike) else price).

(** ** BsmContinuousAsianJu2002, asian.py:376-456 *)
Definition jua_u1 (m : opt) (spot texp : R) : R := spot * exprel ((intr m - divr m) * texp).
Definition jua_u2 (m : opt) (spot texp : R) : R :=
  let g := intr m - divr m in let g2 := 2 * g + sigma m ^ 2 in
  2 * spot ^ 2 * (exprel (g2 * texp) - exprel (g * texp)) / texp / (g + sigma m ^ 2).
Definition jua_z (m : opt) (texp : R) : R * R * R :=
  let gt := (intr m - divr m) * texp in let s4 := sigma m ^ 4 * texp ^ 2 in let s6 := sigma m ^ 6 * texp ^ 3 in
  (- s4 * (1 / 45 + gt / 180 - 11 * gt ^ 2 / 15120 - gt ^ 3 / 2520 + gt ^ 4 / 113400)
   - s6 * (1 / 11340 - 13 * gt / 30480 - 17 * gt ^ 2 / 226800 + 23 * gt ^ 3 / 453600 + 59 * gt ^ 4 / 5987520),
   - s4 * (1 / 90 + gt / 360 - 11 * gt ^ 2 / 30240 - gt ^ 3 / 5040 + gt ^ 4 / 226800)
   - s6 * (31 / 22680 - 11 * gt / 60480 - 37 * gt ^ 2 / 151200 - 19 * gt ^ 3 / 302400 + 953 * gt ^ 4 / 59875200),
   s6 * (2 / 2835 - gt / 60480 - 2 * gt ^ 2 / 14175 - 17 * gt ^ 3 / 907200 + 13 * gt ^ 4 / 1247400)).
(** asian.py:430-456; the correction terms enter through z1, z2, z3 *)
Definition jua_price (m : opt) (strike spot texp cp : R) : R :=
  let u1 := jua_u1 m spot texp in let u2 := jua_u2 m spot texp in let '(z1, z2, z3) := jua_z m texp in
  let df := exp (- intr m * texp) in
  let m1 := 2 * ln u1 - / 2 * ln u2 in let v1 := ln u2 - 2 * ln u1 in let sv := sqrt v1 in
  let y := ln strike in
  let y1 := (m1 - y) / sqrt v1 + sv in let y2 := y1 - sv in
  let f := npdf ((y - m1) / sv) / sv in
  let bc := u1 * df * Phi y1 - strike * df * Phi y2
            + df * strike * (z1 * f + z2 * f * (m1 - y) / v1 + z3 * ((y - m1) * (y - m1) / v1 / v1 - 1 / v1) * f) in
  if Req_EM_T cp 1 then bc else if Req_EM_T cp (- (1)) then df * (strike - u1) + bc else - (1).
