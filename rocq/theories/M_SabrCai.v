(** Model of SabrMcCai2017Exact, /repo/pyfeng/sabr_mc.py:271-577.  math.gamma (Gam), scipy's central chi-square distribution function
    (chi2cdf x df) and the root finder (root f start) are parameters; x ** y is [Rpower] (positive bases).  A [while True] loop is a function of
    the number of iterations allowed, None when they are used up. *)
From Coq Require Import Reals List Bool.
From Verif Require Import Gauss Sums M_Dist M_Opt.
Import ListNotations.
Open Scope R_scope.

(** sabr_mc.py:536-555 the loop of chi2_cdf_appr: k, t, u, y, cdf are the Python variables *)
Fixpoint ding_loop (Gam : R -> R) (x sigma l : R) (fuel k : nat) (t u y cdf : R) : option R :=
  match fuel with
  | O => None
  | S fuel' =>
      if (Nat.leb 1 k) && (if Rlt_dec x (sigma + 2 * INR k) then true else false) &&
         (if Rle_dec (t * x / (sigma + 2 * INR k - x)) (/ 10 ^ 7) then true else false)
      then Some cdf
      else
        let t := match k with O => 1 / Gam (sigma / 2 + 1) * Rpower (x / 2) (sigma / 2) * exp (- x / 2) | _ => t * x / (sigma + 2 * INR k) end in
        let u := match k with O => exp (- l / 2) | _ => u * l / (2 * INR k) end in
        let y := match k with O => exp (- l / 2) | _ => y + u end in
        ding_loop Gam x sigma l fuel' (S k) t u y (cdf + y * t)
  end.
(** sabr_mc.py:557 *)
Definition pr_K (s : R) : R := ((1 - s) * ln (1 - s) + s - s ^ 2 / 2) / s ^ 2.
(** sabr_mc.py:559-563 *)
Definition pr_eta (mu2 s : R) : R :=
  let K_s := pr_K (1 - s) in (1 + 2 * mu2 * s - 2 * K_s - s - 2 * mu2 * s ^ 2) / (1 + 2 * mu2 * s - 2 * K_s).
(** sabr_mc.py:565-570 *)
Definition pr_theta (mu2 eta s : R) : R :=
  - (3 / 2) * (1 + 4 * mu2 * s) / (1 + 2 * mu2 * s) ^ 2 + 5 / 3 * (1 + 3 * mu2 * s) ^ 2 / (1 + 2 * mu2 * s) ^ 3 +
  2 * (1 + 3 * mu2 * s) / (s - 1) / (1 + 2 * mu2 * s) ^ 2 + 3 * eta / (s - 1) ^ 2 / (1 + 2 * mu2 * s) -
  (1 + 2 * pr_K eta) * eta ^ 2 / 2 / (s - 1) ^ 2 / (1 + 2 * mu2 * s).
(** sabr_mc.py:572-574: mu2 and s *)
Definition pr_s (x sigma l : R) : R := let mu2 := l / sigma in let mu := sqrt mu2 in (sqrt (1 + 4 * x * mu ^ 2 / sigma) - 1) / (2 * mu2).
Definition np_sign (v : R) : R := if Rlt_dec 0 v then 1 else if Rlt_dec v 0 then -1 else 0.
(** sabr_mc.py:572-580: x > 500 or l > 500 *)
Definition pr_cdf (x sigma l : R) : R :=
  let mu2 := l / sigma in
  let s := pr_s x sigma l in
  let eta := pr_eta mu2 s in
  let z := np_sign (s - 1) * sqrt (sigma * (s - 1) ^ 2 * (1 / 2 / s + mu2 - pr_K (1 - s) / s)
             - ln (1 / s - 2 * pr_K (1 - s) / (s * (1 + 2 * mu2 * s))) + 2 * pr_theta mu2 eta s / sigma) in
  Phi z.
(** sabr_mc.py:517-581 chi2_cdf_appr *)
Definition chi2_cdf_appr (Gam : R -> R) (fuel : nat) (x sigma l : R) : option R :=
  if (if Rle_dec x 500 then true else false) && (if Rle_dec l 500 then true else false)
  then ding_loop Gam x sigma l fuel 0 0 0 0 0 else Some (pr_cdf x sigma l).

(** sabr_mc.py:461-477 central_chi2_cdf; the same A0 is computed at 513 *)
Definition cai_A0 (beta VT spot : R) : R := 1 / VT * (Rpower spot (1 - beta) / (1 - beta)) ^ 2.
Definition central_chi2_cdf (chi2cdf : R -> R -> R) (beta VT spot : R) : R := chi2cdf (cai_A0 beta VT spot) (1 / (1 - beta)).
(** sabr_mc.py:479-495 C0_func *)
Definition cai_C0 (VT beta u : R) : R := 1 / VT * Rpower u (2 * (1 - beta)) / (1 - beta) ^ 2.
(** sabr_mc.py:497-515 sabr_chi2_cdf; appr x sigma l is the value returned by chi2_cdf_appr *)
Definition sabr_chi2_cdf (appr : R -> R -> R -> R) (beta VT spot u : R) : R :=
  appr (cai_A0 beta VT spot) (1 / (1 - beta)) (cai_C0 VT beta u).
(** sabr_mc.py:431-459 simu_ST, for one path (uniform draw u, integrated variance VT) *)
Definition simu_ST (appr : R -> R -> R -> R) (chi2cdf : R -> R -> R) (root : (R -> R) -> R -> R) (beta VT spot u : R) : R :=
  let P0 := 1 - central_chi2_cdf chi2cdf beta VT spot in
  if Rle_dec u P0 then 0 else root (fun u_hat => 1 - sabr_chi2_cdf appr beta VT spot u_hat - u) spot.

(** sabr_mc.py:315-334 cond_invavgvar_mgf, for real uu <= 0 *)
Definition cond_invavgvar_mgf (uu vovn sigma_t : R) : R :=
  let x := ln sigma_t in
  let lam := - uu * vovn ^ 2 in
  let z := / 2 * sigma_t + (/ 2 + lam) / sigma_t in
  let phi := arccosh z in
  exp ((x ^ 2 - phi ^ 2) / (2 * vovn ^ 2)).
(** sabr_mc.py:336-353 cond_invavgvar_cdf_laplace, for real theta > 0 *)
Definition cond_invavgvar_cdf_laplace (theta vovn sigma_t : R) : R := cond_invavgvar_mgf (- theta) vovn sigma_t / theta.

(** sabr_mc.py:283-286 comb_coef, i = 0 .. m: spsp.comb is the exact binomial coefficient *)
Definition comb_coef (m i : nat) : R := C m i * (/ 2) ^ m.
(** sabr_mc.py:371-375 the Euler transformation of the real parts ss 0, ss 1, ...: alternate the signs, cumulate, average the sums n .. n + m *)
Definition euler_terms (ss : nat -> R) (j : nat) : R := (-1) ^ j * ss j.
Definition euler_sum (m n : nat) (ss : nat -> R) : R := rsum (S m) (fun i => comb_coef m i * rsum (S (n + i)) (euler_terms ss)).
(** sabr_mc.py:355-382 inv_laplace at the scalar u: ss u j is the real part of the transform at (m_inv - 2 pi i j) / (2 u) *)
Definition inv_laplace (m n : nat) (m_inv : R) (ss : R -> nat -> R) (u : R) : R :=
  let term1 := / 2 * ss u 0%nat in exp (m_inv / 2) / u * (- term1 + euler_sum m n (ss u)).
(** sabr_mc.py:402-405 draw_cond_avgvar for one path: the reciprocal of a root of inv_laplace - uu *)
Definition draw_cond_avgvar (root : (R -> R) -> R) (m n : nat) (m_inv : R) (ss : R -> nat -> R) (uu : R) : R :=
  1 / root (fun x => inv_laplace m n m_inv ss x - uu).
(** sabr_mc.py:422-428 cond_states_step: ratio = the volatility ratio drawn, av = the normalized average variance drawn *)
Definition cai_states_step (ratio av sigma_0 : R) : R * R := (ratio * sigma_0, sigma_0 ^ 2 * av).
