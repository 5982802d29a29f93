(** OUSV model (ousv.py): moments, Monte-Carlo states and the Karhunen-Loeve simulation, one path at a time. *)
From Coq Require Import Reals List ZArith.
From Verif Require Import M_Opt M_Mgf M_Heston Sums.
Import ListNotations.
Open Scope R_scope.

(** In every routine [nz] is nz_theta: with False the volatility is measured from theta. *)
Definition sub_theta (p : svp) (nz : bool) (v : R) : R := if nz then v - v_theta p else v.
(** ousv.py:25-52 avgvol_mv *)
Definition ou_avgvol (p : svp) (nz : bool) (texp vol0 : R) : R :=
  let m := sub_theta p nz vol0 * exprel (- (v_mr p * texp)) in
  if nz then m + v_theta p else m.
(** ousv.py:54-83 avgvar_mv *)
Definition ou_avgvar (p : svp) (nz : bool) (texp vol0 : R) : R :=
  let v := sub_theta p nz vol0 in let mr_t := v_mr p * texp in
  let e_mr := exp (- mr_t) in let phi := exprel (- mr_t) in let phi2 := (1 + e_mr) / 2 * phi in
  let vv := v ^ 2 * phi2 + / 2 * (v_vov p ^ 2 / v_mr p) * (1 - phi2) in
  if nz then vv + v_theta p * (v_theta p + 2 * v * phi) else vv.
(** ousv.py:85-118 cond_avgvolvar_m *)
Definition ou_cond (p : svp) (nz : bool) (texp vol_0 vol_t : R) : R * R :=
  let mr_t := v_mr p * texp in let e_mr := exp (- mr_t) in let phi := exprel (- mr_t) in
  let phi2 := (1 + e_mr) / 2 * phi in let sh := sinh mr_t in let ch := cosh mr_t in
  let v0 := sub_theta p nz vol_0 in let vt := sub_theta p nz vol_t in
  let volhat := vt - v0 * e_mr in
  let vol_m := (v0 + volhat / (1 + e_mr)) * phi in
  let var_m := v0 ^ 2 * phi2 + / 2 * (v_vov p ^ 2 / v_mr p) * (ch / sh - 1 / mr_t) in
  let var_m := var_m + volhat * (volhat * (sh * ch - mr_t) / (2 * mr_t * sh ^ 2) + v0 * (e_mr / mr_t) * (1 / phi2 - 1)) in
  if nz then (vol_m + v_theta p, var_m + v_theta p * (v_theta p + 2 * vol_m)) else (vol_m, var_m).
(** ousv.py:120-164 strike_var_swap_analytic (dt not close to 0); [r] = self.intr *)
Definition ou_var_swap (p : svp) (r texp dt : R) : R :=
  let mrt := v_mr p * texp in let phi := (exp (- mrt) - 1) / mrt in
  let sig := v_sigma p in let th := v_theta p in let x0 := sig - th in
  let strike := ou_avgvar p true texp sig in
  let mrt2 := mrt ^ 2 in let vov2t := v_vov p ^ 2 * texp in let sig2 := sig ^ 2 in let th2 := th ^ 2 in
  let E := 4 * mrt2 * (sig2 ^ 2 - th2 ^ 2) - 3 * vov2t * (vov2t + 4 * th2 * mrt) in
  let d2 := (vov2t + 2 * mrt * th2) + ((2 * mrt * (th2 - sig2) + vov2t) + mrt * (vov2t / 2 - mrt * x0 ^ 2) * phi) * phi in
  let d1 := sig2 ^ 2 / 4 - E * (1 + phi) / (16 * mrt2) in
  let d1 := d1 + ((3 * vov2t / 4 - mrt * sig * x0 / 2) * sig2 + E / (32 * mrt)) * phi ^ 2 in
  let d1 := d1 + ((2 * th * sig / 3 - sig2 / 6 - th2 / 2) * sig2 * mrt2 - E / 48 + (- mrt * sig * th + 3 / 4 * sig2 * mrt - vov2t / 4) * vov2t) * phi ^ 3 in
  let d1 := d1 + (E / (8 * mrt) - 3 * vov2t * x0 * th + 3 * sig2 * vov2t / 2 - mrt * sig * x0 * (2 * th2 - th * sig + sig2)) * phi ^ 4 * mrt2 / 8 in
  let correction := r * (r - strike) + d1 - v_vov p / (2 * v_mr p) * v_rho p * d2 / texp in
  strike + correction * dt.
(** ousv.py:391-416 vol_step, [z] the normal *)
Definition ou_vol_step (p : svp) (nz : bool) (dt vol_0 z : R) : R :=
  let v0 := sub_theta p nz vol_0 in let e_mr := exp (- v_mr p * dt) in
  let vt := v0 * e_mr + v_vov p * sqrt ((1 - e_mr ^ 2) / (2 * v_mr p)) * z in
  if nz then vt + v_theta p else vt.
(** ousv.py:418-444 cond_spot_sigma, one path; [step i dt vol] = cond_states_step(dt, vol, nz_theta=False) =
    (vol_t, avgvar, avgvol) *)
Fixpoint ou_loop (step : nat -> R -> R -> R * R * R) (i : nat) (dts : list R) (vol avgvar avgvol : R) : R * R * R :=
  match dts with
  | [] => (vol, avgvar, avgvol)
  | d :: t => let '(v, a, b) := step i d vol in ou_loop step (S i) t v (avgvar + a * d) (avgvol + b * d)
  end.
Definition ou_cond_spot_sigma (p : svp) (step : nat -> R -> R -> R * R * R) (dts : list R) (texp vol_0 : R) : R * R :=
  let '(vt, av, au) := ou_loop step 0 dts (vol_0 - v_theta p) 0 0 in
  let avgvar := av / texp in let avgvol := au / texp in
  let avgvar := avgvar + v_theta p * (v_theta p + 2 * avgvol) in
  let avgvol := avgvol + v_theta p in let vol_t := vt + v_theta p in
  let sc := (vol_t ^ 2 - vol_0 ^ 2 - v_vov p ^ 2 * texp)
            + texp * (- 2 * (v_mr p * v_theta p) * avgvol + (2 * v_mr p - v_rho p * v_vov p) * avgvar) in
  (exp (/ 2 * v_rho p / v_vov p * sc), sqrt ((1 - v_rho p ^ 2) * Rmax avgvar (/ 10 ^ 64)) / vol_0).
(** ousv.py:452-493 draw_log_return / cond_log_return_var: conditional mean and variance of one step *)
Definition ou_ln_m (m : opt) (p : svp) (dt vol_0 vol_t avgvar avgvol : R) : R :=
  let rho_vov := v_rho p / v_vov p in
  (intr m - divr m - v_rho p * v_vov p / 2) * dt
  + rho_vov * ((vol_t ^ 2 - vol_0 ^ 2) / 2 - v_mr p * v_theta p * dt * avgvol) + (rho_vov * v_mr p - / 2) * dt * avgvar.
Definition ou_ln_var (p : svp) (dt avgvar : R) : R := (1 - v_rho p ^ 2) * dt * avgvar.
Definition ou_cond_log_return_var (m : opt) (p : svp) (dt vol_0 vol_t avgvar avgvol : R) : R :=
  ou_ln_m m p dt vol_0 vol_t avgvar avgvol ^ 2 + ou_ln_var p dt avgvar.
(** ousv.py:495-529 return_var_realized walks with nz_theta=True; totals of the conditional means / variances *)
Fixpoint ou_sum (m : opt) (p : svp) (step : nat -> R -> R -> R * R * R) (i : nat) (dts : list R) (vol : R) : R * R :=
  match dts with
  | [] => (0, 0)
  | d :: t => let '(v, a, b) := step i d vol in let '(M, V) := ou_sum m p step (S i) t v in
              (ou_ln_m m p d vol v a b + M, ou_ln_var p d a + V)
  end.
(** ousv.py:555-600 OusvMcTimeDisc.cond_states_step; [mean] = (scheme == 1) *)
Definition ou_td_step (p : svp) (nz mean : bool) (z : nat -> R) (i : nat) (dt vol_0 : R) : R * R * R :=
  let v0 := sub_theta p nz vol_0 in
  let vt := ou_vol_step p false dt v0 (z i) in
  let '(avgvol, avgvar) := if mean then ou_cond p false dt v0 vt else ((v0 + vt) / 2, (v0 ^ 2 + vt ^ 2) / 2) in
  if nz then (vt + v_theta p, avgvar + v_theta p * (v_theta p + 2 * avgvol), avgvol + v_theta p) else (vt, avgvar, avgvol).

(** ** Karhunen-Loeve *)
Definition npi (n : nat) : R := INR n * PI.
(** terms of the sums, ousv.py:700, 744, 789, 834, 878; n >= 1 *)
Definition kl_t2 (x : R) (n : nat) : R := 2 / (x ^ 2 + npi n ^ 2).
Definition kl_t2n (x : R) (n : nat) : R := 2 / npi n ^ 2 / (x ^ 2 + npi n ^ 2).
Definition kl_t4 (x : R) (n : nat) : R := 4 / (x ^ 2 + npi n ^ 2) ^ 2.
Definition kl_t6 (x : R) (n : nat) : R := 8 / (x ^ 2 + npi n ^ 2) ^ 3.
Definition kl_t6n (x : R) (n : nat) : R := npi n ^ 2 * 8 / (x ^ 2 + npi n ^ 2) ^ 3.
(** closed forms for ns = 0, odd = None *)
Definition kl_f2 (x : R) : R := (x / tanh x - 1) / x ^ 2.
Definition kl_f2n (x : R) : R := (1 / 3 - (x / tanh x - 1) / x ^ 2) / x ^ 2.
Definition kl_f4 (x : R) : R := (x / tanh x + x ^ 2 / sinh x ^ 2 - 2) / x ^ 4.
Definition kl_f6 (x : R) : R := (3 * x / tanh x + (3 + 2 * x / tanh x) * x ^ 2 / sinh x ^ 2 - 8) / (2 * x ^ 6).
Definition kl_f6n (x : R) : R := 2 * kl_f4 x - x ^ 2 * kl_f6 x.
(** the [odd] argument: None, 1 (odd n), 2 (even n) *)
Inductive parity_sel := All | Odds | Evens.
Definition sel (s : parity_sel) (n : nat) : bool := match s with All => true | Odds => Nat.odd n | Evens => Nat.even n end.
(** common shape of the five class methods: closed form, halving exponent, minus the first [ns] terms *)
Definition kl_tail (f : R -> R) (term : R -> nat -> R) (h : nat) (x : R) (ns : nat) (s : parity_sel) : R :=
  (match s with All => f x | Evens => f (x / 2) / 2 ^ h | Odds => f x - f (x / 2) / 2 ^ h end)
  - rsum ns (fun i => if sel s (S i) then term x (S i) else 0).
(** ousv.py:664-709, 711-753, 755-798, 800-843, 845-886 *)
Definition a2sum := kl_tail kl_f2 kl_t2 2.
Definition a2overn2sum := kl_tail kl_f2n kl_t2n 4.
Definition a4sum := kl_tail kl_f4 kl_t4 4.
Definition a6sum := kl_tail kl_f6 kl_t6 6.
Definition a6n2sum := kl_tail kl_f6n kl_t6n 4.
(** ousv.py:888-997 OusvMcChoi2025KL.cond_states_step with the residual normals already combined:
    [zs n] = Z_{n+1}, [g pp q r] = tail variables z_g, z_p, z_q, z_r before the explicit terms are added *)
Definition kl_an (x : R) (n : nat) : R := sqrt (kl_t2 x n).
Definition kl_states (p : svp) (nz : bool) (dt vol_0 : R) (z0 : R) (ns : nat) (zs : nat -> R) (g pp q r : R) : R * R * R :=
  let x := v_mr p * dt in let vovn := v_vov p * sqrt dt in
  let v0 := sub_theta p nz vol_0 in
  let vt := ou_vol_step p false dt v0 z0 in
  let zg := g + rsum ns (fun i => if Nat.odd (S i) then kl_an x (S i) / npi (S i) * zs i else 0) in
  let zp := pp + rsum ns (fun i => if Nat.odd (S i) then kl_t2 x (S i) * kl_an x (S i) * npi (S i) * zs i else 0) in
  let zq := q + rsum ns (fun i => if Nat.odd (S i) then 0 else kl_t2 x (S i) * kl_an x (S i) * npi (S i) * zs i) in
  let zr := r + rsum ns (fun i => kl_t2 x (S i) * (zs i ^ 2 - 1)) in
  let '(uu, vv) := ou_cond p false dt v0 vt in
  let uu := uu + 2 * vovn * zg in
  let vv := vv + vovn * ((v0 * (zp + zq) + vt * (zp - zq)) + / 2 * vovn * zr) in
  if nz then (vt + v_theta p, vv + (2 * uu + v_theta p) * v_theta p, uu + v_theta p) else (vt, vv, uu).
(** given zn: no tail variables, z_r = - a2sum(ns) *)
Definition kl_states_zn (p : svp) (nz : bool) (dt vol_0 : R) (z0 : R) (ns : nat) (zs : nat -> R) : R * R * R :=
  kl_states p nz dt vol_0 z0 ns zs 0 0 0 (- a2sum (v_mr p * dt) ns All).
(** ousv.py:937-966: the tail variables drawn from four normals *)
Definition clip1 (x : R) : R := Rmin (Rmax x (-1)) 1.
Definition kl_tail_vars (x : R) (ns : nat) (wg wp wq wr : R) : R * R * R * R :=
  let g_std := sqrt (a2overn2sum x ns Odds) in let p_std := sqrt (a6n2sum x ns Odds) in let q_std := sqrt (a6n2sum x ns Evens) in
  let corr := clip1 (a4sum x ns Odds / (g_std * p_std)) in
  ((corr * wp + sqrt (1 - corr ^ 2) * wg) * g_std, wp * p_std, wq * q_std, sqrt (a4sum x ns All) * (wr ^ 2 - 1)).
(** ousv.py:1027-1085 vol_path_sin at time t (zn given) *)
Definition kl_path (p : svp) (dt : R) (z0 : R) (ns : nat) (zs : nat -> R) (t : R) : R :=
  let x := v_mr p * dt in let v0 := v_sigma p - v_theta p in
  let vt := ou_vol_step p false dt v0 z0 in
  let volhat := vt - v0 * exp (- x) in let e_t := exp (- v_mr p * t) in
  v_theta p + v0 * e_t + / 2 * (1 / e_t - e_t) / sinh x * volhat
  + v_vov p * sqrt dt * rsum ns (fun i => kl_an x (S i) * sin (npi (S i) * t / dt) * zs i).

(** ousv.py:1060-1085 vol_path_sin without [zn]: the drawn array has n_sin rows, row 0 is dropped by zn[1:, :], and the
    product needs n_sin rows; None = ValueError (shape mismatch) *)
Definition path_sin_rows (n_sin : nat) : option nat := let rows := (n_sin - 1)%nat in if Nat.eqb rows n_sin then Some rows else None.
