(** Property theorems C32-C34: finite differences (sv_fin_diff.py). *)
From Coq Require Import Reals Lra Arith Lia List.
From Verif Require Import Spec_Fd Spec_Opt M_Opt P_Bsm M_Mgf M_Fd P_Fd P_Fd2 P_Fd3.
Open Scope R_scope.

(** *** C32: tridiagonal solve *)
(** Whenever no number divided by is zero, the result solves the system ... *)
Theorem C32_thomas_solves : forall n sub mid sup rhs,
  (forall i, (i < n)%nat -> th_den sub mid sup i <> 0) -> tridiag n sub mid sup rhs (thomas n sub mid sup rhs).
Proof. exact thomas_solves. Qed.
Print Assumptions C32_thomas_solves.
(** ... and is its only solution. *)
Theorem C32_thomas_unique : forall n sub mid sup rhs x,
  (forall i, (i < n)%nat -> th_den sub mid sup i <> 0) -> tridiag n sub mid sup rhs x ->
  forall i, (i < n)%nat -> x i = thomas n sub mid sup rhs i.
Proof. exact thomas_unique. Qed.
Print Assumptions C32_thomas_unique.
(** Strict diagonal dominance rules out a division by zero, for every size. *)
Theorem C32_dominant_no_division_by_zero : forall n sub mid sup, (0 < n)%nat ->
  (forall i, (i < n)%nat ->
     (if Nat.eqb i 0 then 0 else Rabs (sub i)) + (if Nat.eqb i (n - 1) then 0 else Rabs (sup i)) < Rabs (mid i)) ->
  forall i, (i < n)%nat -> th_den sub mid sup i <> 0.
Proof. intros n sub mid sup Hn H i Hi. exact (proj1 (th_dominant n sub mid sup Hn H i Hi)). Qed.
Print Assumptions C32_dominant_no_division_by_zero.
(** The price-direction sweeps of all three models never divide by zero, on any grid and time step. *)
Theorem C32_sabr_price_sweep : forall p M xmin xmax adt y, (2 <= M)%nat -> xmin < xmax -> 0 <= adt ->
  let X := linspace xmin xmax M in let dX := (xmax - xmin) / INR M in
  let a i := f_aS (sabr_fd p) (X i) y / dX ^ 2 in let b i := f_bS (sabr_fd p) (X i) y / (2 * dX) in
  forall k, (k < M - 1)%nat -> th_den (tri_sub adt a b) (tri_mid adt a) (tri_sup adt a b) k <> 0.
Proof. exact sabr_S_pivots. Qed.
Print Assumptions C32_sabr_price_sweep.
Theorem C32_heston_price_sweep : forall p cev M xmax adt y, (2 <= M)%nat -> 0 < xmax -> 0 <= adt -> 0 <= y ->
  let X := linspace 0 xmax M in let dX := (xmax - 0) / INR M in
  let a i := f_aS (heston_fd p cev) (X i) y / dX ^ 2 in let b i := f_bS (heston_fd p cev) (X i) y / (2 * dX) in
  forall k, (k < M - 1)%nat -> th_den (tri_sub adt a b) (tri_mid adt a) (tri_sup adt a b) k <> 0.
Proof. exact heston_S_pivots. Qed.
Print Assumptions C32_heston_price_sweep.
Theorem C32_sabr_vol_sweep : forall p L vmax adt, (2 <= L)%nat -> 0 < vmax -> 0 <= adt ->
  let v := linspace 0 vmax L in let dv := vmax / INR L in
  let c j := f_aV (sabr_fd p) (v j) / dv ^ 2 in let d j := f_bV (sabr_fd p) (v j) / (2 * dv) in
  forall k, (k < L - 1)%nat -> th_den (tri_sub adt c d) (v_mid L adt c d) (tri_sup adt c d) k <> 0.
Proof. exact sabr_v_pivots. Qed.
Print Assumptions C32_sabr_vol_sweep.
(** Heston's variance sweep: safe under a step-size condition ([v_sweep_ok]: theta*dt*(|drift|/dv - vov^2 v/dv^2) < 1 at
    every interior variance node), and not without it. *)
Theorem C32_heston_vol_sweep : forall p cev L vmax adt, (2 <= L)%nat -> 0 < vmax -> 0 <= adt -> v_sweep_ok p L vmax adt ->
  let v := linspace 0 vmax L in let dv := vmax / INR L in
  let c j := f_aV (heston_fd p cev) (v j) / dv ^ 2 in let d j := f_bV (heston_fd p cev) (v j) / (2 * dv) in
  forall k, (k < L - 1)%nat -> th_den (tri_sub adt c d) (v_mid L adt c d) (tri_sup adt c d) k <> 0.
Proof. exact heston_v_pivots'. Qed.
Print Assumptions C32_heston_vol_sweep.
Theorem C32_heston_vol_sweep_refuted : exists p L N T theta kk,
  0 < v_sigma p /\ 0 < v_vov p /\ 0 < v_mr p /\ 0 < v_theta p /\ (2 <= L)%nat /\ (1 <= N)%nat /\ 0 < T /\ 0 < theta <= 1 /\ 0 < kk /\
  let '(_, _, vmax) := heston_bounds p (v_sigma p) kk T in
  let v := linspace 0 vmax L in let dv := vmax / INR L in let adt := theta * (T / INR N) in
  let c j := f_aV (heston_fd p None) (v j) / dv ^ 2 in let d j := f_bV (heston_fd p None) (v j) / (2 * dv) in
  exists k, (k < L - 1)%nat /\ th_den (tri_sub adt c d) (v_mid L adt c d) (tri_sup adt c d) k = 0.
Proof. exact heston_pivot_refuted. Qed.
Print Assumptions C32_heston_vol_sweep_refuted.
(** a concrete system: diagonal 5/2, off-diagonals -1, right-hand side (3/2, 1/2, 3/2), solution (1, 1, 1) *)
Example C32_ex : forall i, (i < 3)%nat ->
  thomas 3 (fun _ => -1) (fun _ => 5 / 2) (fun _ => -1) (fun i => if Nat.eqb i 1 then / 2 else 3 / 2) i = 1.
Proof.
  intros i Hi. symmetry.
  apply (C32_thomas_unique 3 (fun _ => -1) (fun _ => 5 / 2) (fun _ => -1) (fun i => if Nat.eqb i 1 then / 2 else 3 / 2) (fun _ => 1)); [| |exact Hi].
  - apply C32_dominant_no_division_by_zero; [lia|]. intros k Hk. rewrite (Rabs_left (-1)), (Rabs_pos_eq (5 / 2)) by lra.
    destruct (Nat.eqb k 0), (Nat.eqb k (3 - 1)); lra.
  - intros k Hk. destruct k as [|[|[|k]]]; [cbn; lra|cbn; lra|cbn; lra|lia].
Qed.
Example C32_ex_heston : v_sweep_ok (mkSv (/ 25) (/ 2) 0 2 (/ 25)) 2 (/ 5) (/ 100).
Proof.
  intros j Hj. replace j with 1%nat by lia. unfold linspace. cbn [v_mr v_theta v_vov]. simpl INR.
  rewrite Rabs_left by lra. lra.
Qed.

(** *** C33: put-call parity of the finite-difference pricers, on every grid *)
Theorem C33_sabr_fd_parity : forall mo p N M L theta K S T, (2 <= M)%nat -> (2 <= L)%nat -> 0 <= theta -> 0 <= T ->
  0 < S -> 0 <= K -> 0 < b_beta p ->
  sabr_fd_price mo p N M L theta K S T 1 - sabr_fd_price mo p N M L theta K S T (-1)
  = DF (intr mo) T * (FWD (intr mo) (divr mo) (is_fwd mo) S T - K).
Proof. exact sabr_fd_parity. Qed.
Print Assumptions C33_sabr_fd_parity.
Theorem C33_heston_fd_parity : forall mo p cev N M L theta K S T, (2 <= M)%nat -> (2 <= L)%nat -> 0 <= theta -> 0 <= T ->
  0 < S -> 0 <= K -> 0 < v_sigma p ->
  let '(_, _, vmax) := heston_bounds p (v_sigma p) (K / FWD (intr mo) (divr mo) (is_fwd mo) S T) T in
  v_sweep_ok p L vmax (theta * (T / INR N)) ->
  heston_fd_price mo p cev N M L theta K S T 1 - heston_fd_price mo p cev N M L theta K S T (-1)
  = DF (intr mo) T * (FWD (intr mo) (divr mo) (is_fwd mo) S T - K).
Proof. exact heston_fd_parity. Qed.
Print Assumptions C33_heston_fd_parity.
(** beta = 0: the grid goes below zero but the put boundary value there ignores it, so parity fails *)
Theorem C33_sabr_normal_parity_refuted : exists mo p N M L theta K S T,
  0 < b_sigma p /\ b_beta p = 0 /\ (2 <= M)%nat /\ (2 <= L)%nat /\ (1 <= N)%nat /\ 0 < theta <= 1 /\ 0 < T /\ 0 < S /\ 0 < K /\
  sabr_fd_price mo p N M L theta K S T 1 - sabr_fd_price mo p N M L theta K S T (-1)
  <> DF (intr mo) T * (FWD (intr mo) (divr mo) (is_fwd mo) S T - K).
Proof. exact sabr_fd_parity_refuted. Qed.
Print Assumptions C33_sabr_normal_parity_refuted.
Example C33_ex : sabr_fd_price (mkOpt 0 (/ 20) (/ 100) false) (mkSabr (/ 5) (/ 2) (- / 2) (/ 2)) 80 80 40 (/ 2) 110 100 1 1
  - sabr_fd_price (mkOpt 0 (/ 20) (/ 100) false) (mkSabr (/ 5) (/ 2) (- / 2) (/ 2)) 80 80 40 (/ 2) 110 100 1 (-1)
  = DF (/ 20) 1 * (FWD (/ 20) (/ 100) false 100 1 - 110).
Proof. apply (C33_sabr_fd_parity (mkOpt 0 (/ 20) (/ 100) false)); cbn [b_beta]; try lra; lia. Qed.

(** *** C34: bilinear interpolation *)
Theorem C34_exact_on_bilinear : forall V nS nv gS gv x y c0 c1 c2 c3, (2 <= nS)%nat -> (2 <= nv)%nat ->
  increasing_to nS gS -> increasing_to nv gv ->
  gS 0%nat <= x <= gS (nS - 1)%nat -> gv 0%nat <= y <= gv (nv - 1)%nat ->
  (forall i j, (i < nS)%nat -> (j < nv)%nat -> V i j = c0 + c1 * gS i + c2 * gv j + c3 * gS i * gv j) ->
  bilinear V nS nv gS gv x y = c0 + c1 * x + c2 * y + c3 * x * y.
Proof. exact bilinear_exact. Qed.
Print Assumptions C34_exact_on_bilinear.
Theorem C34_grid_values : forall V nS nv gS gv a b, (2 <= nS)%nat -> (2 <= nv)%nat ->
  increasing_to nS gS -> increasing_to nv gv -> (a < nS)%nat -> (b < nv)%nat ->
  bilinear V nS nv gS gv (gS a) (gv b) = V a b.
Proof. exact bilinear_grid. Qed.
Print Assumptions C34_grid_values.
(** also for points outside the grid *)
Theorem C34_no_overshoot : forall V nS nv gS gv x y lo hi, (2 <= nS)%nat -> (2 <= nv)%nat ->
  (forall i j, (i < nS)%nat -> (j < nv)%nat -> lo <= V i j <= hi) ->
  lo <= bilinear V nS nv gS gv x y <= hi.
Proof. exact bilinear_range. Qed.
Print Assumptions C34_no_overshoot.
Theorem C34_bracketing_cell : forall n g x, (2 <= n)%nat -> increasing_to n g -> g 0%nat <= x <= g (n - 1)%nat ->
  g (cell n g x - 1)%nat <= x <= g (cell n g x).
Proof. exact cell_bracket. Qed.
Print Assumptions C34_bracketing_cell.
Example C34_ex : bilinear (fun i j => INR i * INR j) 3 3 INR INR (3 / 2) (/ 2) = 3 / 4.
Proof.
  rewrite (C34_exact_on_bilinear _ 3 3 INR INR (3 / 2) (/ 2) 0 0 0 1); try lia; try (intros; ring).
  - field.
  - intros a b H. apply lt_INR. lia.
  - intros a b H. apply lt_INR. lia.
  - simpl; lra.
  - simpl; lra.
Qed.
