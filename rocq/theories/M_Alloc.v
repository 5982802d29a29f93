(** Model of /repo/pyfeng/assetalloc.py: RiskParity and RiskParitySCA.

    Arrays over assets are functions on indices below n. *)
From Coq Require Import Reals List Arith.
From Verif Require Import Sums M_Params.
Import ListNotations.
Open Scope R_scope.

(** item assignment ww[i] = x *)
Definition setv (w : vec) (i : nat) (x : R) : vec := fun j => if Nat.eqb j i then x else w j.
(** np.max(np.abs(.)) over the assets *)
Definition vmax (n : nat) (f : vec) : R := fold_right Rmax 0 (map (fun i => Rabs (f i)) (seq 0 n)).
(** cor @ ww *)
Definition matvec (n : nat) (c : mat) (w : vec) : vec := fun i => rsum n (fun j => c i j * w j).
(** np.dot(ww, cor @ ww) *)
Definition quad_form (n : nat) (c : mat) (w : vec) : R := rsum n (fun i => w i * matvec n c w i).

(** ** RiskParity.__post_init__, assetalloc.py:50-72 (scalar / array longshort: np.sign) *)
Definition np_sign (x : R) : R := if Rlt_dec 0 x then 1 else if Rlt_dec x 0 then -1 else 0.
(** np.isclose(sum, 1): |sum - 1| <= atol + rtol * 1 = 1e-8 + 1e-5; None: the constructor raises *)
Definition rp_budget (n : nat) (budget : option (list R)) : option (list R) :=
  match budget with
  | None => Some (repeat (1 / INR n) n)
  | Some b => if negb (Nat.eqb (length b) n) then None
              else if Rle_dec (Rabs (lsum b - 1)) (/ 10 ^ 8 + / 10 ^ 5 * 1) then Some b else None
  end.
(** int(x): truncation towards zero *)
Definition py_int (x : R) : R := if Rle_dec 0 x then IZR (Int_part x) else - IZR (Int_part (- x)).
(** longshort: absent, scalar or array *)
Definition rp_longshort (n : nat) (ls : option (R + list R)) : option (list R) :=
  match ls with
  | None => Some (repeat 1 n)
  | Some (inl x) => Some (repeat (np_sign (py_int x)) n)
  | Some (inr l) => if negb (Nat.eqb (length l) n) then None else Some (map np_sign l)
  end.

(** ** fit_ccd, assetalloc.py:98-137 *)
(** lines 115-117 *)
Definition ccd_step (n : nat) (cor : mat) (bud ls : vec) (w : vec) (i : nat) : vec :=
  let a := (matvec n cor w i - w i) / 2 in
  setv w i (ls i * sqrt (a * a + bud i) - a).
Definition ccd_sweep (n : nat) (cor : mat) (bud ls : vec) (w : vec) : vec := fold_left (ccd_step n cor bud ls) (seq 0 n) w.
(** lines 119-125: rescaling and error *)
Definition ccd_scale (n : nat) (cor : mat) (w : vec) : R := sqrt (quad_form n cor w).
Definition ccd_next (n : nat) (cor : mat) (bud ls : vec) (w : vec) : vec :=
  let w1 := ccd_sweep n cor bud ls w in let vv := ccd_scale n cor w1 in fun i => w1 i / vv.
Definition ccd_err (n : nat) (cor : mat) (bud ls : vec) (w : vec) : R :=
  let w1 := ccd_sweep n cor bud ls w in let vv := ccd_scale n cor w1 in
  vmax n (fun i => w1 i / vv * (matvec n cor w1 i / vv) - bud i).
(** lines 114-136: the loop, [fuel] iterations left; the result is the weight after lines 127-128, None = not converged *)
Definition norm_weights (n : nat) (sigma u : vec) : vec :=
  let x := fun i => u i / sigma i in fun i => x i / rsum n x.
Fixpoint ccd_loop (fuel n : nat) (cor : mat) (bud ls sigma : vec) (tol : R) (w : vec) : option vec :=
  match fuel with
  | O => None
  | S f => let w' := ccd_next n cor bud ls w in
           if Rlt_dec (ccd_err n cor bud ls w) tol then Some (norm_weights n sigma w')
           else ccd_loop f n cor bud ls sigma tol w'
  end.
(** line 112 *)
Definition ccd_init (n : nat) (cor : mat) : vec := fun _ => 1 / sqrt (rsum n (fun i => rsum n (fun j => cor i j))).
(** range(1, 1024): 1023 iterations *)
Definition fit_ccd (n : nat) (cor : mat) (bud ls sigma : vec) (tol : R) : option vec :=
  ccd_loop (3 * 11 * 31) n cor bud ls sigma tol (ccd_init n cor).

(** ** fit_ccd_original, assetalloc.py:139-185; state (ww, cov_ww, vv) *)
Definition occ_step (n : nat) (cov : mat) (bud ls : vec) (s : vec * vec * R) (i : nat) : vec * vec * R :=
  let '(w, cw, vv) := s in
  let a := (cw i - cov i i * w i) / 2 in
  let wi := (ls i * sqrt (a * a + cov i i * vv * bud i) - a) / cov i i in
  let cw' := fun j => cw j + cov j i * (wi - w i) in
  let w' := setv w i wi in
  (w', cw', sqrt (rsum n (fun j => w' j * cw' j))).
Definition occ_sweep (n : nat) (cov : mat) (bud ls : vec) (s : vec * vec * R) : vec * vec * R := fold_left (occ_step n cov bud ls) (seq 0 n) s.
Definition occ_init (n : nat) (cov : mat) (sigma : vec) : vec * vec * R :=
  let w0 := fun i => 1 / sigma i in let w := fun i => w0 i / rsum n w0 in
  (w, matvec n cov w, sqrt (rsum n (fun j => w j * matvec n cov w j))).
Fixpoint occ_loop (fuel n : nat) (cov : mat) (bud ls : vec) (tol : R) (s : vec * vec * R) : option vec :=
  match fuel with
  | O => None
  | S f => let '(w, cw, vv) := occ_sweep n cov bud ls s in
           if Rlt_dec (vmax n (fun i => w i * cw i / vv - bud i)) tol then Some (fun i => w i / rsum n w)
           else occ_loop f n cov bud ls tol (w, cw, vv)
  end.
Definition fit_ccd_original (n : nat) (cov : mat) (bud ls sigma : vec) (tol : R) : option vec :=
  occ_loop (3 * 11 * 31) n cov bud ls tol (occ_init n cov sigma).

(** ** fit_newton, assetalloc.py:187-233; [solve] stands for spop.root (any routine), called with the residual, the
    Jacobian and the initial guess.  longshort is not used by the code. *)
Definition newton_val (n : nat) (cor : mat) (bud w : vec) : vec := fun i => matvec n cor w i - bud i / w i.
Definition newton_jac (cor : mat) (bud w : vec) : mat := fun i j => cor i j + (if Nat.eqb i j then bud i / (w i * w i) else 0).
Definition newton_init (n : nat) (cor : mat) (bud : vec) : vec := fun i =>
  let a := / 2 * (rsum n (fun j => cor i j) - 1) / sqrt (rsum n (fun i => rsum n (fun j => cor i j))) in sqrt (a * a + bud i) - a.
Definition fit_newton (solve : (vec -> vec) -> (vec -> mat) -> vec -> vec) (n : nat) (cor : mat) (bud ls sigma : vec) : vec :=
  norm_weights n sigma (solve (newton_val n cor bud) (newton_jac cor bud) (newton_init n cor bud)).

(** ** RiskParitySCA *)
(** np.clip(x, 0, u) for u > 0 *)
Definition clip (u x : R) : R := Rmin (Rmax x 0) u.
(** assetalloc.py:369-389 _project_simplex_box; v as a non-empty list; None = the ValueError for an infeasible box.
    The finiteness checks hold for every real input. *)
Definition lmin (l : list R) : R := match l with [] => 0 | x :: r => fold_right Rmin x r end.
Definition lmax (l : list R) : R := match l with [] => 0 | x :: r => fold_right Rmax x r end.
Definition clip_at (v : list R) (u tau : R) : list R := map (fun x => clip u (x - tau)) v.
Fixpoint proj_loop (fuel : nat) (v : list R) (u lo hi : R) : list R :=
  match fuel with
  | O => clip_at v u (/ 2 * (lo + hi))
  | S f => let tau := / 2 * (lo + hi) in
           let w := clip_at v u tau in let total := lsum w in
           if Rlt_dec (Rabs (total - 1)) (/ 10 ^ 12) then w
           else if Rlt_dec 1 total then proj_loop f v u tau hi else proj_loop f v u lo tau
  end.
Definition project_simplex_box (v : list R) (u : R) : option (list R) :=
  if Rle_dec u 0 then None
  else if Rlt_dec (u * INR (length v)) (1 - / 10 ^ 12) then None
  else Some (proj_loop 100 v u (lmin v - u) (lmax v)).

(** assetalloc.py:353-367: risk contributions, objective, gap *)
Definition risk_contrib (n : nat) (cov : mat) (w : vec) : vec := fun i => w i * matvec n cov w i.
Definition vmean (n : nat) (f : vec) : R := rsum n f / INR n.
Definition sca_objective (n : nat) (cov : mat) (w : vec) : R :=
  let rc := risk_contrib n cov w in rsum n (fun i => (rc i - vmean n rc) ^ 2).
(** assetalloc.py:317-321 gradient as coded *)
Definition sca_grad (n : nat) (cov : mat) (w : vec) : vec :=
  let sw := matvec n cov w in
  let rc := fun i => w i * sw i in
  let resid := fun i => rc i - vmean n rc in
  fun i => 2 * (sw i * resid i + w i * matvec n cov resid i).
(** assetalloc.py:323-333 backtracking line search.  [proj] is the projection; the fuel bounds the halvings
    (shown sufficient below).  Returns candidate and the step used. *)
Definition list_of (n : nat) (f : vec) : list R := map f (seq 0 n).
Definition vec_of (l : list R) : vec := fun i => nth i l 0.
Fixpoint sca_search (fuel n : nat) (cov : mat) (u : R) (w grad : vec) (cur step : R) : option (vec * R * R) :=
  match project_simplex_box (list_of n (fun i => w i - step * grad i)) u with
  | None => None
  | Some c =>
    let cand := vec_of c in let obj := sca_objective n cov cand in
    if Rle_dec (/ 10 ^ 12) (cur - obj) then Some (cand, obj, step)
    else if Rle_dec step (/ 10 ^ 12) then Some (cand, obj, step)
    else match fuel with O => None | S f => sca_search f n cov u w grad cur (step * / 2) end
  end.
(** assetalloc.py:312-346 outer loop; None = FloatingPointError("failed to converge") *)
Fixpoint sca_loop (fuel n : nat) (cov : mat) (u tol : R) (w : vec) (cur step : R) : option (vec * R) :=
  match fuel with
  | O => None
  | S f =>
    match sca_search 40 n cov u w (sca_grad n cov w) cur step with
    | None => None
    | Some (cand, obj, st) =>
      if Rlt_dec (vmax n (fun i => cand i - w i)) tol then Some (cand, obj)
      else sca_loop f n cov u tol cand obj (Rmin (st * (3 / 2)) 1)
    end
  end.
(** assetalloc.py:283-351 fit_sca: [w0] = the weight found by fit_ccd *)
Definition fit_sca (max_iter n : nat) (cov : mat) (u tol : R) (w0 : vec) : option (vec * R) :=
  match project_simplex_box (list_of n (fun i => clip u (w0 i))) u with
  | None => None
  | Some w => sca_loop max_iter n cov u tol (vec_of w) (sca_objective n cov (vec_of w)) 1
  end.
