(** Property theorems C72: the finite-difference pricers solve the model's pricing equation (sv_fin_diff.py). *)
From Coq Require Import Reals Lra Arith Lia List.
From Verif Require Import Spec_Opt Spec_Fd2 M_Opt M_Mgf M_Fd P_Fd3 P_Fd5.
Open Scope R_scope.

(** *** C72 *)
(** The SABR price is DF * F times the interpolated value, at today's forward and volatility, of a grid reached from the payoff
    by N Douglas ADI steps of length T/N for the SABR generator, every stage satisfying the boundary conditions; the evaluation
    point lies inside the grid. *)
Theorem C72_sabr_price_is_adi : forall mo p N M L theta K S T cp, (2 <= M)%nat -> (2 <= L)%nat -> 0 <= theta -> 0 <= T -> 0 < S ->
  cp = 1 \/ cp = -1 -> 0 <= b_sigma p ->
  let F := FWD (intr mo) (divr mo) (is_fwd mo) S T in
  let kk := K / F in let v0 := b_sigma p / Rpower F (1 - b_beta p) in
  exists xmin xmax vmax (W : nat -> grid),
    xmin < 1 < xmax /\ kk < xmax /\ 0 <= v0 < vmax /\
    let X := node xmin xmax M in let v := node 0 vmax L in
    (forall i j, interior M L i j -> W 0%nat i j = payoff cp kk (X i)) /\ edges_payoff M L X kk cp (W 0%nat) /\
    (forall k, (k < N)%nat ->
       douglas (sabr_model (b_vov p) (b_rho p) (b_beta p)) ((xmax - xmin) / INR M) (vmax / INR L) X v M L theta (T / INR N)
         (edges_payoff M L X kk cp) (W k) (W (Datatypes.S k))) /\
    sabr_fd_price mo p N M L theta K S T cp = DF (intr mo) T * F * bilinear (W N) (M + 1) (L + 1) X v 1 v0.
Proof. exact sabr_fd_is_adi. Qed.
Print Assumptions C72_sabr_price_is_adi.
(** Heston and CEV-Heston: each Douglas step is preceded by the update of the zero-variance column. *)
Theorem C72_heston_price_is_adi : forall mo p cev N M L theta K S T cp, (2 <= M)%nat -> (2 <= L)%nat -> 0 <= theta -> 0 <= T -> 0 < S ->
  0 < v_sigma p ->
  let F := FWD (intr mo) (divr mo) (is_fwd mo) S T in
  let kk := K / F in
  let '(_, _, vm) := heston_bounds p (v_sigma p) kk T in
  v_sweep_ok p L vm (theta * (T / INR N)) ->
  exists xmax vmax (W U : nat -> grid),
    1 < xmax /\ kk < xmax /\ 0 < v_sigma p < vmax /\
    let X := node 0 xmax M in let v := node 0 vmax L in
    (forall i j, interior M L i j -> W 0%nat i j = payoff cp kk (X i)) /\
    edges_column M L X kk cp (fun i => payoff cp kk (X i)) (W 0%nat) /\
    (forall k, (k < N)%nat ->
       zero_column (v_vov p) (v_mr p) (v_theta p) M L X kk cp (vmax / INR L) (T / INR N) (W k) (U k) /\
       douglas (heston_or_cev (v_vov p) (v_rho p) (v_mr p) (v_theta p) cev) ((xmax - 0) / INR M) (vmax / INR L) X v M L theta (T / INR N)
         (edges_column M L X kk cp (fun i => U k i 0%nat)) (U k) (W (Datatypes.S k))) /\
    heston_fd_price mo p cev N M L theta K S T cp = DF (intr mo) T * F * bilinear (W N) (M + 1) (L + 1) X v 1 (v_sigma p).
Proof. exact heston_fd_is_adi. Qed.
Print Assumptions C72_heston_price_is_adi.
(** The three discretised parts add up to the model's generator, exactly on polynomials of degree at most two in each
    variable (hence to second order on smooth functions). *)
Theorem C72_differences_consistent : forall m c lo hi vmax M L i j, lo < hi -> 0 < vmax -> interior M L i j ->
  let X := node lo hi M in let v := node 0 vmax L in
  let hx := (hi - lo) / INR M in let hv := vmax / INR L in
  let u := fun i j => biquad c (X i) (v j) in
  part_xv m hx hv X v u i j + part_x m hx X v u i j + part_v m hv v u i j = generator m (biquad c) (X i) (v j).
Proof. exact adi_consistent. Qed.
Print Assumptions C72_differences_consistent.
Example C72_ex : exists (W : nat -> grid) xmin xmax vmax,
  sabr_fd_price (mkOpt 0 (/ 20) (/ 100) false) (mkSabr (/ 5) (/ 2) (- / 2) (/ 2)) 80 80 40 (/ 2) 110 100 1 1
  = DF (/ 20) 1 * FWD (/ 20) (/ 100) false 100 1
    * bilinear (W 80%nat) 81 41 (node xmin xmax 80) (node 0 vmax 40) 1 (/ 5 / Rpower (FWD (/ 20) (/ 100) false 100 1) (1 - / 2)).
Proof.
  destruct (C72_sabr_price_is_adi (mkOpt 0 (/ 20) (/ 100) false) (mkSabr (/ 5) (/ 2) (- / 2) (/ 2)) 80 80 40 (/ 2) 110 100 1 1)
    as (xmin & xmax & vmax & W & _ & _ & _ & H); try lia; try (cbn [b_sigma]; lra).
  exists W, xmin, xmax, vmax. destruct H as (_ & _ & _ & H). exact H.
Qed.
