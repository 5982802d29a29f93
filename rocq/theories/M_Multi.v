(** Model of /repo/pyfeng/multiasset.py and multiasset_mc.py.

    Arrays over assets are functions on indices below [n]; one strike at a time except for the root finder,
    whose stopping rule couples the strikes.  np.linalg.cholesky / svd / solve and scipy's bivariate normal
    and gamma cdf are parameters (what is assumed of them is stated in each theorem). *)
From Coq Require Import Reals List Arith.
From Verif Require Import Gauss Sums M_Opt M_Params M_Fd M_Sabr.
Import ListNotations.
Open Scope R_scope.

(** params.py:20-60 BaseParams rates; [divr] may be one number per asset *)
Record mkt := mkMkt { k_r : R; k_q : nat -> R; k_isf : bool }.
(** opt_abc.py:46-64 OptABC._fwd_df_divf *)
Definition mk_df (m : mkt) (texp : R) : R := exp (- k_r m * texp).
Definition mk_fwd (m : mkt) (spot : vec) (texp : R) : vec := fun i =>
  if k_isf m then spot i else spot i * exp (- k_q m i * texp) / mk_df m texp.

(** ** Two-asset spread, params.py:678-699 SpreadParams(sigma, rho) *)
Record spr := mkSpr { sp_s1 : R; sp_s2 : R; sp_rho : R; sp_m : mkt }.

(** multiasset.py:31-41 BsmSpreadKirk.price *)
Definition kirk_price (o : spr) (strike : R) (spot : vec) (texp cp : R) : R :=
  let fwd := mk_fwd (sp_m o) spot texp in let df := mk_df (sp_m o) texp in
  let fwd1 := fwd 0%nat - Rmin strike 0 in
  let fwd2 := fwd 1%nat + Rmax strike 0 in
  let sig1 := sp_s1 o * fwd 0%nat / fwd1 in
  let sig2 := sp_s2 o * fwd 1%nat / fwd2 in
  let sig_spd := sqrt (sig1 * (sig1 - 2 * sp_rho o * sig2) + sig2 ^ 2) in
  df * bsm_price_formula fwd2 fwd1 sig_spd texp cp 0 0 true.

(** multiasset.py:60-85 BsmSpreadBjerksund2014.price *)
Definition bjerk_price (o : spr) (strike : R) (spot : vec) (texp cp : R) : R :=
  let fwd := mk_fwd (sp_m o) spot texp in let df := mk_df (sp_m o) texp in
  let fwd1 := fwd 0%nat in let fwd2 := fwd 1%nat in
  let std11 := sp_s1 o ^ 2 * texp in
  let std12 := sp_s1 o * sp_s2 o * texp in
  let std22 := sp_s2 o ^ 2 * texp in
  let aa := fwd2 + strike in
  let bb := fwd2 / aa in
  let rho := sp_rho o in
  let std := sqrt (std11 - 2 * bb * rho * std12 + bb ^ 2 * std22) in
  let d3 := ln (fwd1 / aa) in
  let d1 := (d3 + / 2 * std11 - bb * (rho * std12 - / 2 * bb * std22)) / std in
  let d2 := (d3 - / 2 * std11 + rho * std12 + bb * (/ 2 * bb - 1) * std22) / std in
  let d3 := (d3 - / 2 * std11 + / 2 * bb ^ 2 * std22) / std in
  df * (cp * (fwd1 * Phi (cp * d1) - fwd2 * Phi (cp * d2) - strike * Phi (cp * d3))).

(** multiasset.py:398-461 BsmMax2.price for one strike; [bvn x y r] is scipy's bivariate normal cdf with
    correlation r.  The list of flags of the other strikes ([cps]) enters through [parity] (line 434), which is
    computed when some flag is a put.  None = the ValueError of line 453. *)
Definition max2_price (bvn : R -> R -> R -> R) (o : spr) (cps : list R) (strike : R) (spot : vec) (texp cp : R) : option R :=
  let fwd := mk_fwd (sp_m o) spot texp in let df := mk_df (sp_m o) texp in
  let f0 := fwd 0%nat in let f1 := fwd 1%nat in
  let s0 := sp_s1 o * sqrt texp in let s1 := sp_s2 o * sqrt texp in
  let spd_rho := sqrt (sp_s1 o ^ 2 + sp_s2 o ^ 2 - 2 * sp_rho o * sp_s1 o * sp_s2 o) in
  let spd_std := spd_rho * sqrt texp in
  let xx0 := - ln f0 / s0 - / 2 * s0 in let xx1 := - ln f1 / s1 - / 2 * s1 in
  let fwd_ratio := f0 / f1 in
  let yy0 := ln fwd_ratio / spd_std + / 2 * spd_std in
  let yy1 := ln (1 / fwd_ratio) / spd_std + / 2 * spd_std in
  let rho0 := (sp_rho o * sp_s2 o - sp_s1 o) / spd_rho in
  let rho1 := (sp_rho o * sp_s1 o - sp_s2 o) / spd_rho in
  let parity := if forallb (fun c => if Rlt_dec 0 c then true else false) (cp :: cps) then 0
                else kirk_price (mkSpr (sp_s1 o) (sp_s2 o) (sp_rho o) (mkMkt 0 (fun _ => 0) true)) 0 fwd texp 1 + f1 in
  let x0 := xx0 + ln strike / s0 in let x1 := xx1 + ln strike / s1 in
  let term1 := f0 * (Phi yy0 - bvn x0 yy0 rho0) in
  let term2 := f1 * (Phi yy1 - bvn x1 yy1 rho1) in
  let term3 := strike * bvn (x0 + s0) (x1 + s1) (sp_rho o) in
  if Rlt_dec (term1 + term2 + term3) strike then None
  else let p := term1 + term2 + term3 - strike in
       Some (df * (if Rlt_dec cp 0 then p + (strike - parity) else p)).

(** ** Baskets: [ma] (params.py:708-830) with weights and market *)
Record bsk := mkBsk { bk_ma : ma; bk_w : vec; bk_m : mkt }.
Definition bn (o : bsk) : nat := ma_n (bk_ma o).
(** multiasset.py:108-109 fwd @ weight and weight @ cov_m @ weight *)
Definition basket_fwd (o : bsk) (spot : vec) (texp : R) : R := rsum (bn o) (fun i => mk_fwd (bk_m o) spot texp i * bk_w o i).
Definition basket_var (o : bsk) : R := rsum (bn o) (fun j => rsum (bn o) (fun i => bk_w o i * ma_cov (bk_ma o) i j) * bk_w o j).
(** multiasset.py:103-115 NormBasket.price *)
Definition norm_basket_price (o : bsk) (strike : R) (spot : vec) (texp cp : R) : R :=
  mk_df (bk_m o) texp * norm_price_formula strike (basket_fwd o spot texp) (sqrt (basket_var o)) texp cp 0 0 true.
(** multiasset.py:148-160 BsmBasketGeoApprox.price *)
Definition geo_basket_price (o : bsk) (strike : R) (spot : vec) (texp cp : R) : R :=
  mk_df (bk_m o) texp * bsm_price_formula strike (basket_fwd o spot texp) (sqrt (basket_var o)) texp cp 0 0 true.

(** multiasset.py:210-241 BsmBasketABC.price_mvsk, written with the same matrix products:
    v = fwd * weight, P = exp(cov_m * texp), M2 = outer(v, v) * P,
    m3 = sum((P * v) * (M2 @ P)), N[i,j,k] = P_ik P_jk (flattened to (i*n+j, k)),
    H = sum_k N_ijk * (N @ M2)_ijk, m4 = sum(M2 * H) *)
Definition mv_v (o : bsk) (fwd : vec) : vec := fun i => fwd i * bk_w o i.
Definition mv_P (o : bsk) (texp : R) : mat := fun i j => exp (ma_cov (bk_ma o) i j * texp).
Definition mv_M2 (o : bsk) (fwd : vec) (texp : R) : mat := fun i j => mv_v o fwd i * mv_v o fwd j * mv_P o texp i j.
Definition matmul (n : nat) (a b : mat) : mat := fun i j => rsum n (fun k => a i k * b k j).
Definition msum (n : nat) (a : mat) : R := rsum n (fun i => rsum n (fun j => a i j)).
Definition mv_m1 (o : bsk) (fwd : vec) : R := rsum (bn o) (mv_v o fwd).
Definition mv_m2 (o : bsk) (fwd : vec) (texp : R) : R := msum (bn o) (mv_M2 o fwd texp).
Definition mv_m3 (o : bsk) (fwd : vec) (texp : R) : R :=
  msum (bn o) (fun i j => (mv_P o texp i j * mv_v o fwd j) * matmul (bn o) (mv_M2 o fwd texp) (mv_P o texp) i j).
Definition mv_N (o : bsk) (texp : R) : mat := fun ij k => mv_P o texp (ij / bn o)%nat k * mv_P o texp (ij mod bn o)%nat k.
Definition mv_H (o : bsk) (fwd : vec) (texp : R) : mat := fun i j =>
  rsum (bn o) (fun k => mv_N o texp (i * bn o + j)%nat k * matmul (bn o) (mv_N o texp) (mv_M2 o fwd texp) (i * bn o + j)%nat k).
Definition mv_m4 (o : bsk) (fwd : vec) (texp : R) : R := msum (bn o) (fun i j => mv_M2 o fwd texp i j * mv_H o fwd texp i j).
(** multiasset.py:215-221, 239-243 *)
Definition mv_var_scaled (o : bsk) (fwd : vec) (texp : R) : R := mv_m2 o fwd texp / mv_m1 o fwd ^ 2 - 1.
Definition price_mvsk (o : bsk) (fwd : vec) (texp : R) : R * R * R * R :=
  let m1 := mv_m1 o fwd in let m2 := mv_m2 o fwd texp in let m3 := mv_m3 o fwd texp in let m4 := mv_m4 o fwd texp in
  let var_scaled := mv_var_scaled o fwd texp in
  let var := var_scaled * m1 ^ 2 in
  let skew := (m3 - m1 ^ 3 - 3 * m2 * m1 + 3 * m1 ^ 3) / (var * sqrt var) in
  let exkurt := (m4 - 3 * m1 ^ 4 - 4 * m3 * m1 + 6 * m2 * m1 ^ 2) / var ^ 2 - 3 in
  (m1, var_scaled, skew, exkurt).

(** multiasset.py:273-337 BsmBasketJu2002.price; [corr] is correction_ju2002 (False for BsmBasketLevy1992, 365).
    [cubes] stands for e_a23/8 = trace(temp^3), temp_ij = sqrt(fw_i) cov_ij sqrt(fw_j). *)
Definition ju_corr (o : bsk) (fwd : vec) (strike texp std m1 : R) : R :=
  let n := bn o in let fw := mv_v o fwd in
  let cov := fun i j => ma_cov (bk_ma o) i j * texp in
  let av := fun j => rsum n (fun i => fw i * cov i j) in
  let u2_0 := m1 ^ 2 in
  let u2_1 := rsum n (fun j => av j * fw j) in
  let u2_2 := rsum n (fun j => rsum n (fun i => fw i * cov i j ^ 2) * fw j) in
  let u2_3 := rsum n (fun j => rsum n (fun i => fw i * cov i j ^ 3) * fw j) in
  let a1 := - u2_1 / (2 * u2_0) in
  let a2 := 2 * a1 ^ 2 - u2_2 / (2 * u2_0) in
  let a3 := 6 * a1 * a2 - 4 * a1 ^ 3 - u2_3 / (2 * u2_0) in
  let e_a12_a2 := 2 * rsum n (fun j => fw j * av j ^ 2) in
  let e_a13_a3 := 6 * rsum n (fun j => fw j * av j ^ 3) in
  let e_a12_a22 := 8 * rsum n (fun j => rsum n (fun i => av i * fw i * cov i j) * (av j * fw j)) + 2 * u2_1 * u2_2 in
  let e_a1_a2_a3 := 6 * rsum n (fun j => rsum n (fun i => fw i * cov i j ^ 2) * (av j * fw j)) in
  let temp := fun i j => sqrt (fw i) * cov i j * sqrt (fw j) in
  let e_a23 := 8 * rsum n (fun i => rsum n (fun j => rsum n (fun k => temp i j * temp j k * temp k i))) in
  let b1 := e_a12_a2 / (4 * m1 ^ 3) in
  let b2 := a1 ^ 2 - a2 / 2 in
  let c1 := - a1 * b1 in
  let c2 := (9 * e_a12_a22 + 4 * e_a13_a3) / (144 * m1 ^ 4) in
  let c3 := (4 * e_a1_a2_a3 + e_a23) / (48 * m1 ^ 3) in
  let c4 := a1 * a2 - 2 * a1 ^ 3 / 3 - a3 / 6 in
  let jd2 := / 2 * (10 * a1 ^ 2 + a2 - 6 * b1 + 2 * b2) - (128 * a1 ^ 3 / 3 - a3 / 6 + 2 * a1 * b1 - a1 * b2 + 50 * c1 - 11 * c2 + 3 * c3 - c4) in
  let jd3 := 2 * a1 ^ 2 - b1 - (88 * a1 ^ 3 + 3 * a1 * (5 * b1 - 2 * b2) + 3 * (35 * c1 - 6 * c2 + c3)) / 3 in
  let jd4 := - (20) * a1 ^ 3 / 3 + a1 * (- (4) * b1 + b2) - 10 * c1 + c2 in
  let z1 := jd2 - jd3 + jd4 in let z2 := jd3 - jd4 in let z3 := jd4 in
  let d2 := ln (m1 / strike) / std - / 2 * std in
  let p_y := npdf d2 / std in
  let dp_y := p_y * d2 / std in
  let d2p_y := p_y * (d2 ^ 2 - 1) / std ^ 2 in
  strike * (z1 * p_y + z2 * dp_y + z3 * d2p_y).
Definition ju_price (o : bsk) (corr : bool) (strike : R) (spot : vec) (texp cp : R) : R :=
  let fwd := mk_fwd (bk_m o) spot texp in let df := mk_df (bk_m o) texp in
  let m1 := mv_m1 o fwd in
  let std := sqrt (ln (1 + mv_var_scaled o fwd texp)) in
  let base := df * bsm_price_formula strike m1 std 1 cp 0 0 true in
  if corr then base + df * ju_corr o fwd strike texp std m1 else base.

(** gamma.py:25-40 InvGam.price_formula; [gc a x] is scipy's regularised lower incomplete gamma, sf = 1 - cdf *)
Definition invgam_formula (gc : R -> R -> R) (strike spot texp alpha beta cp r q : R) (isf : bool) : R :=
  let disc_fac := exp (- texp * r) in
  let fwd_scale := spot * (if isf then 1 else exp (- texp * q) / disc_fac) / beta in
  let kk := strike / beta in
  disc_fac * beta *
  (if Rlt_dec 0 cp then fwd_scale * gc (alpha - 1) (1 / kk) - kk * gc alpha (1 / kk)
   else kk * (1 - gc alpha (1 / kk)) - fwd_scale * (1 - gc (alpha - 1) (1 / kk))).
(** multiasset.py:385-400 BsmBasketMilevsky1998.price *)
Definition milevsky_price (gc : R -> R -> R) (o : bsk) (strike : R) (spot : vec) (texp cp : R) : R :=
  let fwd := mk_fwd (bk_m o) spot texp in
  let m1 := mv_m1 o fwd in
  let alpha := 1 / mv_var_scaled o fwd texp + 2 in
  let beta := (alpha - 1) * m1 in
  mk_df (bk_m o) texp * invgam_formula gc strike m1 texp alpha beta cp 0 0 true.
(** multiasset.py:611-622 BsmBasketNsvh1.price; [p] = the parameters found by Nsvh1.from_vsk (zero rates) *)
Definition nsvh_basket_price (o : bsk) (p : sabrp) (strike : R) (spot : vec) (texp cp : R) : R :=
  mk_df (bk_m o) texp * nsvh1_price (mkOpt (b_sigma p) 0 0 false) p false strike (basket_fwd o spot texp) texp cp.

(** ** One Brownian motion, multiasset.py:464-580 *)
Inductive xval := XNeg | XPos | XFin (x : R).
Definition ysum (n : nat) (fac std : vec) (x : R) : R := rsum n (fun i => fac i * exp (std i * x)).
Definition dysum (n : nat) (fac std : vec) (x : R) : R := rsum n (fun i => std i * (fac i * exp (std i * x))).
(** np.min(fac) > 0 (483) *)
Definition all_pos (n : nat) (fac : vec) : bool := forallb (fun i => if Rlt_dec 0 (fac i) then true else false) (seq 0 n).
(** lines 522-535: residual y and slope dy *)
Definition root_y (n : nat) (fac std : vec) (log : bool) (strike x : R) : R :=
  if log then ln (ysum n fac std x) - (if Rlt_dec 0 strike then ln strike else 1) else ysum n fac std x - strike.
Definition root_dy (n : nat) (fac std : vec) (log : bool) (x : R) : R :=
  if log then dysum n fac std x / ysum n fac std x else dysum n fac std x.
Definition root_step (n : nat) (fac std : vec) (log : bool) (strike x : R) : R :=
  x - root_y n fac std log strike x / root_dy n fac std log x.
(** lines 489-502: initial guess; in the basket branch fmin with min_i log(strike/fac_i)/std_i, here [guess] *)
Definition root_init (n : nat) (fac std : vec) (log : bool) (strike : R) : R :=
  let x := (strike - rsum n fac) / rsum n (fun i => fac i * std i) in
  if log then fold_right Rmin x (map (fun i => ln (strike / fac i) / std i) (seq 0 n))
  else Rmin (Rmax x (- (3))) 3.
(** lines 503-514: out-of-range detection at x = -9, 9 *)
Definition root_lo (n : nat) (fac std : vec) (strike : R) : R := rsum n (fun i => fac i / exp (9 * std i)) - strike.
Definition root_hi (n : nat) (fac std : vec) (strike : R) : R := rsum n (fun i => fac i * exp (9 * std i)) - strike.
Definition in_range (n : nat) (fac std : vec) (strike : R) : bool :=
  if Rle_dec 0 (root_lo n fac std strike) then false else if Rle_dec (root_hi n fac std strike) 0 then false else true.
(** lines 519-543: at most [fuel] Newton sweeps over the in-range strikes, stopping once the largest residual of
    the sweep just made is below the tolerance.  Entries are (strike, x). *)
Definition max_abs (l : list R) : R := fold_right (fun y m => Rmax (Rabs y) m) 0 l.
Fixpoint root_loop (fuel n : nat) (fac std : vec) (log : bool) (l : list (R * R)) : list (R * R) :=
  match fuel with
  | O => l
  | S f =>
    let l' := map (fun kx => (fst kx, root_step n fac std log (fst kx) (snd kx))) l in
    if Rlt_dec (max_abs (map (fun kx => root_y n fac std log (fst kx) (snd kx)) l)) IMPVOL_TOL then l'
    else root_loop f n fac std log l'
  end.
(** lines 464-551 BsmBasket1Bm.root; None = the ValueError of line 482 *)
Definition root (n : nat) (fac std : vec) (strikes : list R) : option (list (R * xval)) :=
  if forallb (fun i => if Rle_dec 0 (fac i * std i) then true else false) (seq 0 n) then
    let log := all_pos n fac in
    let live := filter (in_range n fac std) strikes in
    let sol := root_loop 32 n fac std log (map (fun k => (k, root_init n fac std log k)) live) in
    let dead := filter (fun k => negb (in_range n fac std k)) strikes in
    Some (map (fun k => (k, if Rle_dec (root_hi n fac std k) 0 then XPos else XNeg)) dead ++ map (fun kx => (fst kx, XFin (snd kx))) sol)
  else None.
(** lines 571-580: N(cp*(-x) + cp*std) etc. with x the root, +-infinity included *)
Definition PhiX (cp : R) (x : xval) (shift : R) : R :=
  match x with
  | XFin x => Phi (cp * - x + cp * shift)
  | XNeg => if Rlt_dec 0 cp then 1 else 0
  | XPos => if Rlt_dec 0 cp then 0 else 1
  end.
(** multiasset.py:553-580 BsmBasket1Bm.price given the root [x] *)
Definition bm1_price (o : bsk) (x : xval) (strike : R) (spot : vec) (texp cp : R) : R :=
  let fwd_basket := mv_v o (mk_fwd (bk_m o) spot texp) in
  let std := fun i => ma_sigma (bk_ma o) i * sqrt texp in
  (rsum (bn o) (fun i => fwd_basket i * PhiX cp x (std i)) - strike * PhiX cp x 0) * (cp * mk_df (bk_m o) texp).
Definition bm1_fac (o : bsk) (spot : vec) (texp : R) : vec := fun i =>
  mv_v o (mk_fwd (bk_m o) spot texp) i * exp (- (ma_sigma (bk_ma o) i * sqrt texp) ^ 2 / 2).

(** ** Choi (2018), multiasset.py:625-770 *)
Definition norm2 (n : nat) (v : vec) : R := sqrt (rsum n (fun i => v i * v i)).
(** multiasset.py:651-673 householder *)
Definition householder (n : nat) (vv0 : vec) : mat :=
  let u := fun i => vv0 i / norm2 n vv0 in
  let vv1 := fun i => u i - (if Nat.eqb i 0 then 1 else 0) in
  if Rlt_dec (Rabs (vv1 0%nat)) (eps * 100) then kd
  else fun i j => kd i j + vv1 i * vv1 j / vv1 0%nat.
(** multiasset.py:675-718 v_mat up to the SVD: the unit weights, the first column v1 and its direction q1.
    [chol] = np.linalg.cholesky(cov_m); [solve b] = np.linalg.solve(chol_m, b). *)
Definition unit_w (o : bsk) (fwd : vec) : vec := fun i => mv_v o fwd i / norm2 (bn o) (mv_v o fwd).
Definition v1_raw (o : bsk) (fwd : vec) : vec :=
  let u := unit_w o fwd in
  let v := fun i => rsum (bn o) (fun j => ma_cov (bk_ma o) i j * u j) in
  let nrm := sqrt (rsum (bn o) (fun i => v i * u i)) in fun i => v i / nrm.
Definition v1_low (o : bsk) (fwd : vec) (i : nat) : bool :=
  if Rlt_dec (sgn (unit_w o fwd i) * v1_raw o fwd i) (/ 100 * ma_sigma (bk_ma o) i) then true else false.
Definition v1_q1 (o : bsk) (chol : mat) (solve : vec -> vec) (fwd : vec) : vec * vec :=
  let n := bn o in
  if existsb (v1_low o fwd) (seq 0 n) then
    let v1 := fun i => if v1_low o fwd i then sgn (unit_w o fwd i) * (/ 100 * ma_sigma (bk_ma o) i) else v1_raw o fwd i in
    let q1 := solve v1 in let q1n := norm2 n q1 in
    (fun i => v1 i / q1n, fun i => q1 i / q1n)
  else
    let q1 := fun j => rsum n (fun i => chol i j * unit_w o fwd i) in let q1n := norm2 n q1 in
    (v1_raw o fwd, fun i => q1 i / q1n).
(** lines 703-709: chol_m @ r_mat[:, 1:] and hstack(v1, U diag(D)); [svd] returns U diag(D) of an n x (n-1) matrix *)
Definition chol_r (o : bsk) (chol : mat) (q1 : vec) : mat := fun i j => rsum (bn o) (fun k => chol i k * householder (bn o) q1 k (S j)).
Definition v_matrix (o : bsk) (chol : mat) (solve : vec -> vec) (svd : mat -> mat) (fwd : vec) : mat :=
  let '(v1, q1) := v1_q1 o chol solve fwd in
  fun i j => match j with O => v1 i | S j' => svd (chol_r o chol q1) i j' end.
(** lines 720-770 price: [nodes] are the rows (f_k, w_m) of v1_fwd_weight, [d] the vector -root for each row,
    already paired; v1 is scaled by sqrt(texp).  A flag other than 1 takes the put branch (cp == 1 tests, 748, 764). *)
Definition choi_nd1 (d v : R) : R := Phi (d + v).
Definition choi_terms (o : bsk) (v1 fwd : vec) (strike cp : R) (row : vec * R * R) : R :=
  let '(f, w, d) := row in
  let fw := mv_v o fwd in
  w * cp * (rsum (bn o) (fun k => f k * fw k * (if Req_EM_T cp 1 then choi_nd1 d (v1 k) else 1 - choi_nd1 d (v1 k))) - strike * Phi (cp * d)).
Definition choi_delta (o : bsk) (v1 : vec) (rows : list (vec * R * R)) (k : nat) : R :=
  lsum (map (fun row => let '(f, w, d) := row in w * f k * bk_w o k * choi_nd1 d (v1 k)) rows).
Definition choi_ftilde (rows : list (vec * R * R)) (k : nat) : R := lsum (map (fun row => let '(f, w, d) := row in w * f k) rows).
Definition choi_price (o : bsk) (v1 : vec) (rows : list (vec * R * R)) (strike : R) (spot : vec) (texp cp : R) : R :=
  let fwd := mk_fwd (bk_m o) spot texp in
  let price := lsum (map (choi_terms o v1 fwd strike cp) rows) in
  let err := fun k => fwd k * (choi_ftilde rows k - 1) in
  mk_df (bk_m o) texp *
  (if Req_EM_T cp 1 then price - rsum (bn o) (fun k => choi_delta o v1 rows k * err k)
   else price - rsum (bn o) (fun k => (choi_delta o v1 rows k - bk_w o k) * err k)).
(** lines 736-746 v1_fwd_weight: factor loadings beyond the first and quadrature nodes; n_quad = 0 keeps f = 1 *)
Definition choi_f (m : nat) (vm : mat) (texp : R) (z : vec) : vec := fun i =>
  exp (rsum m (fun j => z j * (vm i (S j) * sqrt texp)) - / 2 * rsum m (fun j => (vm i (S j) * sqrt texp) ^ 2)).

(** ** Monte-Carlo, multiasset_mc.py *)
(** lines 68-81 _bm_incr for one path: np.diff(tobs, prepend=0); normals z indexed (time, asset) flattened to
    z (s*n + j); increment s = (z_s * sqrt(dt_s)) @ chol.T *)
Definition nd_dt (tobs : nat -> R) (s : nat) : R := tobs s - match s with O => 0 | S p => tobs p end.
Definition nd_incr (n : nat) (chol : mat) (tobs : nat -> R) (z : vec) (s i : nat) : R :=
  rsum n (fun j => z (s * n + j)%nat * sqrt (nd_dt tobs s) * chol i j).
(** lines 108-116 BsmNdMc.simulate: cumsum over dates 0..k of increment + (intr - divr - sigma^2/2) dt, then exp *)
Definition bsm_nd_path (o : bsk) (chol : mat) (tobs : nat -> R) (k : nat) (z : vec) : vec := fun i =>
  exp (rsum (S k) (fun s => nd_incr (bn o) chol tobs z s i
                            + (k_r (bk_m o) - k_q (bk_m o) i - / 2 * ma_sigma (bk_ma o) i ^ 2) * nd_dt tobs s)).
(** lines 303-307 NormNdMc.simulate: cumsum of the increments only *)
Definition norm_nd_path (o : bsk) (chol : mat) (tobs : nat -> R) (k : nat) (z : vec) : vec := fun i =>
  rsum (S k) (fun s => nd_incr (bn o) chol tobs z s i).
(** lines 136-155 and 322-345 price_european: path * spot (Bsm) or spot + path (Norm), then
    exp(-intr*texp) * mean(payoff) over the simulated paths [zs] *)
Definition bsm_nd_price (o : bsk) (chol : mat) (tobs : nat -> R) (k : nat) (zs : list vec) (spot : vec) (pay : vec -> R) : R :=
  exp (- k_r (bk_m o) * tobs k) * lmean (map (fun z => pay (fun i => bsm_nd_path o chol tobs k z i * spot i)) zs).
Definition norm_nd_price (o : bsk) (chol : mat) (tobs : nat -> R) (k : nat) (zs : list vec) (spot : vec) (pay : vec -> R) : R :=
  exp (- k_r (bk_m o) * tobs k) * lmean (map (fun z => pay (fun i => spot i + norm_nd_path o chol tobs k z i)) zs).
(** lines 225-231 BsmBasketMc terminal basket for one path *)
Definition mc_z (o : bsk) (chol : mat) (texp : R) (z : vec) : vec := fun i => rsum (bn o) (fun j => z j * chol i j) * sqrt texp.
Definition bsm_mc_B (o : bsk) (chol : mat) (spot : vec) (texp : R) (z : vec) : R :=
  rsum (bn o) (fun i => mk_fwd (bk_m o) spot texp i * exp (- / 2 * ma_sigma (bk_ma o) i ^ 2 * texp + mc_z o chol texp z i) * bk_w o i).
(** lines 397-402 NormBasketMc and 467-473 BsmBasketGeoApproxMc terminal baskets *)
Definition norm_mc_B (o : bsk) (chol : mat) (spot : vec) (texp : R) (z : vec) : R :=
  rsum (bn o) (fun i => (mk_fwd (bk_m o) spot texp i + mc_z o chol texp z i) * bk_w o i).
Definition geo_mc_G (o : bsk) (chol : mat) (spot : vec) (texp : R) (z : vec) : R :=
  basket_fwd o spot texp * exp (- / 2 * sqrt (basket_var o) ^ 2 * texp + rsum (bn o) (fun i => mc_z o chol texp z i * bk_w o i)).
(** sample mean of discounted payoffs over the drawn normals, lines 261, 408, 479 *)
Definition mc_mean (df cp strike : R) (B : list R) : R := df * lmean (map (fun b => Rmax (cp * (b - strike)) 0) B).
(** lines 225-230: antithetic concatenation z, -z *)
Definition mc_draws (antithetic : bool) (zs : list vec) : list vec := if antithetic then zs ++ map (fun z i => - z i) zs else zs.
Inductive cvkind := CvNone | CvGeo | CvNorm.
(** lines 207-281 BsmBasketMc.price: the control pricers run on the same normals (rng state restored) with the
    forwards passed as spots and is_fwd=True, so they keep the same discount factor.  For cv='norm' the control's
    volatilities are fwd*sigma, hence its Cholesky factor is diag(fwd) chol (positive forwards). *)
Definition norm_ctrl (o : bsk) (fwd : vec) : bsk :=
  mkBsk (mkMa (bn o) (fun i => fwd i * ma_sigma (bk_ma o) i) (ma_rho (bk_ma o)) (ma_cor (bk_ma o))
              (fun i j => (fwd j * ma_sigma (bk_ma o) j) * ma_cor (bk_ma o) i j * (fwd i * ma_sigma (bk_ma o) i)))
        (bk_w o) (mkMkt (k_r (bk_m o)) (k_q (bk_m o)) true).
Definition geo_ctrl (o : bsk) : bsk := mkBsk (bk_ma o) (bk_w o) (mkMkt (k_r (bk_m o)) (k_q (bk_m o)) true).
Definition bsm_mc_price (cv : cvkind) (antithetic : bool) (o : bsk) (chol : mat) (zs : list vec) (strike : R) (spot : vec) (texp cp : R) : R :=
  let df := mk_df (bk_m o) texp in let fwd := mk_fwd (bk_m o) spot texp in
  let ds := mc_draws antithetic zs in
  let bsm := mc_mean df cp strike (map (bsm_mc_B o chol spot texp) ds) in
  match cv with
  | CvNone => bsm
  | CvGeo => bsm - (mc_mean df cp strike (map (geo_mc_G (geo_ctrl o) chol fwd texp) ds) - geo_basket_price (geo_ctrl o) strike fwd texp cp)
  | CvNorm => bsm - (mc_mean df cp strike (map (norm_mc_B (norm_ctrl o fwd) (fun i j => fwd i * chol i j) fwd texp) ds) - norm_basket_price (norm_ctrl o fwd) strike fwd texp cp)
  end.
