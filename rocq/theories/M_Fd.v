(** Douglas ADI finite differences, sv_fin_diff.py. A grid array of shape (M+1, L+1) is a function [i j];
    the Fortran-like in-place updates are modelled by new functions. One strike at a time. *)
From Coq Require Import Reals List Arith.
From Verif Require Import M_Opt M_Mgf.
Open Scope R_scope.

(** ** sv_fin_diff.py:45-74 _thomas_batch, one column; [n] = number of rows *)
Fixpoint th_cp (sub mid sup : nat -> R) (i : nat) : R :=
  match i with
  | O => sup 0%nat / mid 0%nat
  | S k => sup (S k) / (mid (S k) - sub (S k) * th_cp sub mid sup k)
  end.
(** the number divided by in row i: mid[0], then denom *)
Definition th_den (sub mid sup : nat -> R) (i : nat) : R :=
  match i with O => mid 0%nat | S k => mid (S k) - sub (S k) * th_cp sub mid sup k end.
Fixpoint th_dp (sub mid sup rhs : nat -> R) (i : nat) : R :=
  match i with
  | O => rhs 0%nat / mid 0%nat
  | S k => (rhs (S k) - sub (S k) * th_dp sub mid sup rhs k) / (mid (S k) - sub (S k) * th_cp sub mid sup k)
  end.
(** back substitution: entry n-1-k *)
Fixpoint th_back (n : nat) (sub mid sup rhs : nat -> R) (k : nat) : R :=
  match k with
  | O => th_dp sub mid sup rhs (n - 1)
  | S k' => th_dp sub mid sup rhs (n - 1 - S k') - th_cp sub mid sup (n - 1 - S k') * th_back n sub mid sup rhs k'
  end.
Definition thomas (n : nat) (sub mid sup rhs : nat -> R) (i : nat) : R := th_back n sub mid sup rhs (n - 1 - i).

(** ** sv_fin_diff.py:77-98 _bilinear *)
(** np.searchsorted(S, x), side='left', on a sorted array of length n: number of entries below x *)
Fixpoint searchsorted (n : nat) (g : nat -> R) (x : R) : nat :=
  match n with O => O | S k => (searchsorted k g x + (if Rlt_dec (g k) x then 1 else 0))%nat end.
Definition cell (n : nat) (g : nat -> R) (x : R) : nat := Nat.max 1 (Nat.min (searchsorted n g x) (n - 1)).
Definition cell_w (n : nat) (g : nat -> R) (x : R) : R :=
  let i := cell n g x in clip ((x - g (i - 1)%nat) / (g i - g (i - 1)%nat)) 0 1.
Definition bilinear (V : nat -> nat -> R) (nS nv : nat) (gS v : nat -> R) (S0 v0 : R) : R :=
  let i := cell nS gS S0 in let j := cell nv v v0 in
  let wS := cell_w nS gS S0 in let wv := cell_w nv v v0 in
  (1 - wS) * (1 - wv) * V (i - 1)%nat (j - 1)%nat + wS * (1 - wv) * V i (j - 1)%nat
  + (1 - wS) * wv * V (i - 1)%nat j + wS * wv * V i j.

(** ** Boundary conditions *)
(** V[:, -1] = V[:, -2] on L+1 columns *)
Definition neumann (L : nat) (V : nat -> nat -> R) (i j : nat) : R := if Nat.eqb j L then V i (L - 1)%nat else V i j.
(** V[0, :] and V[M, :], shared by the two variants *)
Definition edge_x (M : nat) (kk : R) (X : nat -> R) (cp : R) (V : nat -> nat -> R) (i j : nat) : R :=
  if Nat.eqb i M then (if Rlt_dec 0 cp then Rmax (X M - kk) 0 else 0)
  else if Nat.eqb i 0 then (if Rlt_dec 0 cp then 0 else kk) else V i j.
Definition intrinsic (kk : R) (X : nat -> R) (cp : R) (i : nat) : R :=
  if Rlt_dec 0 cp then Rmax (X i - kk) 0 else Rmax (kk - X i) 0.
(** sv_fin_diff.py:101-121 _standard_bc (SABR) *)
Definition standard_bc (M L : nat) (kk : R) (X : nat -> R) (cp : R) (V : nat -> nat -> R) : nat -> nat -> R :=
  neumann L (fun i j => if Nat.eqb j 0 then intrinsic kk X cp i else edge_x M kk X cp V i j).
(** sv_fin_diff.py:478-497 HestonFinDiff._apply_bdd_cond *)
Definition heston_bc (M L : nat) (kk : R) (X : nat -> R) (cp : R) (V : nat -> nat -> R) : nat -> nat -> R :=
  neumann L (edge_x M kk X cp V).

(** A model plugged into the engine: coefficients as functions of (x, v), boundary condition, pre-step *)
Record fdm := mkFd {
  f_aS : R -> R -> R; f_bS : R -> R -> R; f_aV : R -> R; f_bV : R -> R; f_gam : R -> R -> R;
  f_bc : nat -> nat -> R -> (nat -> R) -> R -> (nat -> nat -> R) -> nat -> nat -> R;
  f_pre : nat -> nat -> R -> (nat -> R) -> R -> R -> R -> (nat -> nat -> R) -> nat -> nat -> R }.

Definition inner (n i : nat) : bool := andb (Nat.ltb 0 i) (Nat.ltb i n).
(** sv_fin_diff.py:309-318 _F0 *)
Definition fd_F0 (M L : nat) (gam : nat -> nat -> R) (dX dv : R) (V : nat -> nat -> R) (i j : nat) : R :=
  if andb (inner M i) (inner L j) then
    gam i j * (V (i + 1)%nat (j + 1)%nat - V (i + 1)%nat (j - 1)%nat - V (i - 1)%nat (j + 1)%nat + V (i - 1)%nat (j - 1)%nat) / (4 * dX * dv)
  else 0.
(** sv_fin_diff.py:320-330 _F1 *)
Definition fd_F1 (M : nat) (aS bS : nat -> nat -> R) (dX : R) (V : nat -> nat -> R) (i j : nat) : R :=
  if inner M i then
    aS i j / dX ^ 2 * (V (i + 1)%nat j - 2 * V i j + V (i - 1)%nat j)
    + bS i j / (2 * dX) * (V (i + 1)%nat j - V (i - 1)%nat j)
  else 0.
(** sv_fin_diff.py:332-342 _F2 *)
Definition fd_F2 (L : nat) (aV bV : nat -> R) (dv : R) (V : nat -> nat -> R) (i j : nat) : R :=
  if inner L j then
    aV j / dv ^ 2 * (V i (j + 1)%nat - 2 * V i j + V i (j - 1)%nat)
    + bV j / (2 * dv) * (V i (j + 1)%nat - V i (j - 1)%nat)
  else 0.

(** tridiagonal coefficients of I - adt*(a D2 + b D1), row k = grid point k+1 *)
Definition tri_sub (adt : R) (a b : nat -> R) (k : nat) : R := - adt * (a (S k) - b (S k)).
Definition tri_mid (adt : R) (a : nat -> R) (k : nat) : R := 1 + adt * 2 * a (S k).
Definition tri_sup (adt : R) (a b : nat -> R) (k : nat) : R := - adt * (a (S k) + b (S k)).
(** sv_fin_diff.py:346-366 _solve_S_implicit (M >= 2, L >= 2; smaller grids raise IndexError) *)
Definition solve_S (bc : (nat -> nat -> R) -> nat -> nat -> R) (M L : nat) (adt : R) (aS bS : nat -> nat -> R) (dX : R)
    (rhs : nat -> nat -> R) : nat -> nat -> R :=
  let Y := bc rhs in
  let col j :=
    let a i := aS i j / dX ^ 2 in let b i := bS i j / (2 * dX) in
    let sub := tri_sub adt a b in let mid := tri_mid adt a in let sup := tri_sup adt a b in
    let rint k := rhs (S k) j - (if Nat.eqb k 0 then sub 0%nat * Y 0%nat j else 0)
                  - (if Nat.eqb k (M - 2) then sup (M - 2)%nat * Y M j else 0) in
    thomas (M - 1) sub mid sup rint in
  bc (fun i j => if andb (inner M i) (inner L j) then col j (i - 1)%nat else Y i j).
(** coefficients of the v sweep with the Neumann row folded in, sv_fin_diff.py:373-384 *)
Definition v_mid (L : nat) (adt : R) (c d : nat -> R) (k : nat) : R :=
  if Nat.eqb k (L - 2) then tri_mid adt c k + tri_sup adt c d k else tri_mid adt c k.
(** sv_fin_diff.py:368-392 _solve_v_implicit *)
Definition solve_v (bc : (nat -> nat -> R) -> nat -> nat -> R) (L : nat) (adt : R) (aV bV : nat -> R) (dv : R)
    (rhs : nat -> nat -> R) : nat -> nat -> R :=
  let Y := bc rhs in
  let c j := aV j / dv ^ 2 in let d j := bV j / (2 * dv) in
  let row i :=
    let rint k := rhs i (S k) - (if Nat.eqb k 0 then tri_sub adt c d 0 * Y i 0%nat else 0) in
    thomas (L - 1) (tri_sub adt c d) (v_mid L adt c d) (tri_sup adt c d) rint in
  bc (fun i j => if inner L j then row i (j - 1)%nat else if Nat.eqb j L then row i (L - 2)%nat else Y i j).

(** np.linspace(lo, hi, n+1) *)
Definition linspace (lo hi : R) (n : nat) (i : nat) : R := lo + INR i * ((hi - lo) / INR n).

(** sv_fin_diff.py:286-305 _step *)
Definition fd_step (m : fdm) (M L : nat) (theta kk cp dX dv dt : R) (X v : nat -> R) (V : nat -> nat -> R) : nat -> nat -> R :=
  let adt := theta * dt in
  let aS i j := f_aS m (X i) (v j) in let bS i j := f_bS m (X i) (v j) in
  let aV j := f_aV m (v j) in let bV j := f_bV m (v j) in let gam i j := f_gam m (X i) (v j) in
  let bc := f_bc m M L kk X cp in
  let F0V := fd_F0 M L gam dX dv V in let F1V := fd_F1 M aS bS dX V in let F2V := fd_F2 L aV bV dv V in
  let Y0 := bc (fun i j => V i j + dt * (F0V i j + F1V i j + F2V i j)) in
  let Y1 := solve_S bc M L adt aS bS dX (fun i j => Y0 i j - adt * F1V i j) in
  solve_v bc L adt aV bV dv (fun i j => Y1 i j - adt * F2V i j).

Fixpoint fd_iter (n : nat) (f : (nat -> nat -> R) -> nat -> nat -> R) (V : nat -> nat -> R) : nat -> nat -> R :=
  match n with O => V | S k => fd_iter k f (f V) end.
(** sv_fin_diff.py:259-284 _solve_one; [n_grid] = (N, M, L) *)
Definition fd_solve_one (m : fdm) (N M L : nat) (theta Xmin Xmax vmax kk v0 texp cp : R) : R :=
  let X := linspace Xmin Xmax M in let v := linspace 0 vmax L in
  let dX := (Xmax - Xmin) / INR M in let dv := vmax / INR L in let dt := texp / INR N in
  let V0 := f_bc m M L kk X cp (fun i _ => Rmax (cp * (X i - kk)) 0) in
  let V := fd_iter N (fun V => fd_step m M L theta kk cp dX dv dt X v (f_pre m M L kk X cp dv dt V)) V0 in
  bilinear V (M + 1) (L + 1) X v 1 v0.

(** numpy float power for a non-negative base (and any base with exponent 0) *)
Definition npow (x y : R) : R := if Req_EM_T y 0 then 1 else if Req_EM_T x 0 then 0 else Rpower x y.

(** ** SABR, sv_fin_diff.py:406-459 *)
Record sabrp := mkSabr { b_sigma : R; b_vov : R; b_rho : R; b_beta : R }.
(** numpy power with a base of any sign: exponent 1 (beta = 0) keeps the sign; other exponents need a positive base *)
Definition npow_s (x y : R) : R := if Req_EM_T y 1 then x else npow x y.
Definition sabr_alpha (p : sabrp) (fwd : R) : R := b_sigma p / npow_s fwd (1 - b_beta p).
Definition sabr_bounds (p : sabrp) (v0 kk texp : R) : R * R * R :=
  let sq := sqrt (Rmax texp 0) in
  let X_ref := Rmax 1 kk in
  let X_max := Rmax (4 * X_ref) (X_ref + 5 * v0 * npow X_ref (b_beta p) * sq) in
  let v_max := Rmax (Rmax 1 (5 * v0)) (v0 * (1 + 4 * b_vov p * sq)) in
  let X_min := if Rlt_dec 0 (b_beta p) then 0 else Rmin 0 (1 - 5 * v0 * sq) in
  (X_min, X_max, v_max).
Definition sabr_fd (p : sabrp) : fdm :=
  mkFd (fun x v => / 2 * v ^ 2 * npow x (2 * b_beta p)) (fun _ _ => 0)
       (fun v => / 2 * b_vov p ^ 2 * v ^ 2) (fun _ => 0)
       (fun x v => b_rho p * b_vov p * v ^ 2 * npow x (b_beta p))
       standard_bc (fun _ _ _ _ _ _ _ V => V).
(** sv_fin_diff.py:210-236 price, one strike *)
Definition sabr_fd_price (mo : opt) (p : sabrp) (N M L : nat) (theta strike spot texp cp : R) : R :=
  let '(fwd, df, _) := fwd_df_divf mo spot texp in
  let v0 := sabr_alpha p fwd in let kk := strike / fwd in
  let '(xmin, xmax, vmax) := sabr_bounds p v0 kk texp in
  df * fwd * fd_solve_one (sabr_fd p) N M L theta xmin xmax vmax kk v0 texp cp.

(** ** Heston and CEV-Heston, sv_fin_diff.py:466-554; [cev] = None for Heston, Some beta for HestonCevFinDiff *)
Definition heston_bounds (p : svp) (v0 kk texp : R) : R * R * R :=
  let X_max := Rmax (4 * Rmax 1 kk) (1 + 5 * sqrt (v0 * Rmax texp 0)) in
  let cir_std := v_vov p * sqrt (Rmax (v_theta p) (/ 10 ^ 8) / (2 * Rmax (v_mr p) (/ 10 ^ 8))) in
  let v_max := Rmax (5 * v0) (v_theta p + 5 * cir_std) in
  (0, X_max, v_max).
(** sv_fin_diff.py:499-519 _pre_step *)
Definition heston_pre (p : svp) (M L : nat) (kk : R) (X : nat -> R) (cp dv dt : R) (V : nat -> nat -> R) : nat -> nat -> R :=
  heston_bc M L kk X cp (fun i j =>
    if Nat.eqb j 0 then
      (if Rlt_dec (2 * v_mr p * v_theta p) (v_vov p ^ 2) then V i 0%nat + dt * v_mr p * v_theta p * (V i 1%nat - V i 0%nat) / dv
       else Rmax (cp * (X i - kk)) 0)
    else V i j).
Definition heston_fd (p : svp) (cev : option R) : fdm :=
  mkFd (fun x v => / 2 * v * (match cev with None => x ^ 2 | Some b => npow x (2 * b) end)) (fun _ _ => 0)
       (fun v => / 2 * v_vov p ^ 2 * v) (fun v => v_mr p * (v_theta p - v))
       (fun x v => v_rho p * v_vov p * v * (match cev with None => x | Some b => npow x b end))
       heston_bc (heston_pre p).
Definition heston_fd_price (mo : opt) (p : svp) (cev : option R) (N M L : nat) (theta strike spot texp cp : R) : R :=
  let '(fwd, df, _) := fwd_df_divf mo spot texp in
  let v0 := v_sigma p in let kk := strike / fwd in
  let '(xmin, xmax, vmax) := heston_bounds p v0 kk texp in
  df * fwd * fd_solve_one (heston_fd p cev) N M L theta xmin xmax vmax kk v0 texp cp.
