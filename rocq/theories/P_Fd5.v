(** SABR and Heston finite-difference prices as N Douglas steps from the payoff; consistency of the difference operators. *)
From Coq Require Import Reals Lra Lia Arith List Psatz.
From Coquelicot Require Import Coquelicot.
From Verif Require Import Base Spec_Opt Spec_Fd Spec_Fd2 M_Opt P_Bsm M_Mgf M_Fd P_Fd P_Fd2 P_Fd3 P_Fd4.
Open Scope R_scope.

Lemma fd_iter_S n f V : fd_iter (S n) f V = f (fd_iter n f V).
Proof. revert V. induction n as [|n IH]; intros V; [reflexivity|]. cbn [fd_iter] in *. rewrite IH. reflexivity. Qed.
Lemma npow_s_rp F y : 0 < F -> npow_s F y = Rpower F y.
Proof.
  intros H. unfold npow_s, npow. destruct (Req_EM_T y 1) as [->|]; [symmetry; apply Rpower_1, H|].
  destruct (Req_EM_T y 0) as [->|]; [symmetry; apply Rpower_O, H|]. destruct (Req_EM_T F 0); [lra|reflexivity].
Qed.
Lemma step_pos T N : 0 <= T -> 0 <= T / INR N.
Proof.
  intros HT. destruct N; [simpl; unfold Rdiv; rewrite Rinv_0, Rmult_0_r; lra|].
  apply Rmult_le_pos; [exact HT|]. apply Rlt_le, Rinv_0_lt_compat, lt_0_INR. lia.
Qed.

Section Sabr.
Variables (p : sabrp) (M L : nat) (theta kk cp xmin xmax vmax dt : R).
Hypothesis HM : (2 <= M)%nat.
Hypothesis HL : (2 <= L)%nat.
Hypothesis Hth : 0 <= theta.
Hypothesis Hdt : 0 <= dt.
Hypothesis Hx : xmin < xmax.
Hypothesis Hv : 0 < vmax.
Hypothesis Hcp : cp = 1 \/ cp = -1.
Let X := linspace xmin xmax M.
Let v := linspace 0 vmax L.
Let dX := (xmax - xmin) / INR M.
Let dv := vmax / INR L.
Lemma sabr_step_douglas V :
  douglas (sabr_model (b_vov p) (b_rho p) (b_beta p)) dX dv X v M L theta dt (edges_payoff M L X kk cp) V
    (fd_step (sabr_fd p) M L theta kk cp dX dv dt X v V).
Proof using HM HL Hth Hdt Hx Hv Hcp.
  assert (H1 : 0 < dX) by (apply Rdiv_lt_0_compat; [lra|apply lt_0_INR; lia]).
  assert (H2 : 0 < dv) by (apply Rdiv_lt_0_compat; [lra|apply lt_0_INR; lia]).
  assert (Hadt : 0 <= theta * dt) by (apply Rmult_le_pos; assumption).
  rewrite step_is. apply step_douglas; try assumption; try lra.
  - intros x y. cbn [f_aS sabr_fd var_x sabr_model]. unfold npow, pw. ring.
  - intros; reflexivity.
  - intros y. cbn [f_aV sabr_fd var_v sabr_model]. ring.
  - intros; reflexivity.
  - intros; reflexivity.
  - intros j Hj. exact (sabr_S_pivots p M xmin xmax (theta * dt) (v j) HM Hx Hadt).
  - exact (sabr_v_pivots p L vmax (theta * dt) HL Hv Hadt).
  - intros W i j Hi Hj. apply sbc_in; assumption.
  - intros W W' j Hj. cbn [f_bc sabr_fd]. rewrite !sbc_lo by lia. reflexivity.
  - intros W W' j Hj. cbn [f_bc sabr_fd]. rewrite !sbc_hi by lia. reflexivity.
  - intros W i _. apply sbc_ne; assumption.
  - intros W W' i _ _. cbn [f_bc sabr_fd]. rewrite !sbc_0 by assumption. reflexivity.
  - intros W i _. cbn [f_bc sabr_fd]. rewrite !sbc_0 by assumption. reflexivity.
  - apply edges_sabr; assumption.
  - apply edges_sabr; assumption.
Qed.
End Sabr.

Lemma sabr_fd_is_adi mo p N M L theta K S T cp : (2 <= M)%nat -> (2 <= L)%nat -> 0 <= theta -> 0 <= T -> 0 < S ->
  cp = 1 \/ cp = -1 -> 0 <= b_sigma p ->
  let F := FWD (intr mo) (divr mo) (is_fwd mo) S T in
  let kk := K / F in let v0 := b_sigma p / Rpower F (1 - b_beta p) in
  exists xmin xmax vmax (W : nat -> grid),
    xmin < 1 < xmax /\ kk < xmax /\ 0 <= v0 < vmax /\
    let X := node xmin xmax M in let v := node 0 vmax L in
    (forall i j, interior M L i j -> W 0%nat i j = payoff cp kk (X i)) /\ edges_payoff M L X kk cp (W 0%nat) /\
    (forall k, (k < N)%nat ->
       douglas (sabr_model (b_vov p) (b_rho p) (b_beta p)) ((xmax - xmin) / INR M) (vmax / INR L) X v M L theta (T / INR N)
         (edges_payoff M L X kk cp) (W k) (W (Datatypes.S k))) /\
    sabr_fd_price mo p N M L theta K S T cp = DF (intr mo) T * F * bilinear (W N) (M + 1) (L + 1) X v 1 v0.
Proof.
  intros HM HL Hth HT HS Hcp Hsig F kk v0. unfold sabr_fd_price. rewrite fdd_eq. unfold sabr_bounds. cbv beta iota zeta.
  change (mF mo S T) with F. assert (HF : 0 < F) by exact (mF_pos mo S T HS). change (mD mo T) with (DF (intr mo) T).
  unfold sabr_alpha. rewrite (npow_s_rp F _ HF). change (b_sigma p / Rpower F (1 - b_beta p)) with v0. change (K / F) with kk.
  set (xmin := if Rlt_dec 0 (b_beta p) then 0 else Rmin 0 (1 - 5 * v0 * sqrt (Rmax T 0))).
  set (xmax := Rmax (4 * Rmax 1 kk) _). set (vmax := Rmax (Rmax 1 (5 * v0)) _).
  assert (Hxm : xmin <= 0) by (unfold xmin; destruct (Rlt_dec 0 (b_beta p)); [lra|apply Rmin_l]).
  pose proof (Rmax_l 1 kk). pose proof (Rmax_r 1 kk).
  pose proof (Rmax_l (4 * Rmax 1 kk) (Rmax 1 kk + 5 * v0 * npow (Rmax 1 kk) (b_beta p) * sqrt (Rmax T 0))) as Hx. fold xmax in Hx.
  assert (Hv0 : 0 <= v0).
  { unfold v0. apply Rmult_le_pos; [exact Hsig|]. apply Rlt_le, Rinv_0_lt_compat. unfold Rpower. apply exp_pos. }
  assert (Hv1 : Rmax 1 (5 * v0) <= vmax) by (unfold vmax; apply Rmax_l).
  pose proof (Rmax_l 1 (5 * v0)). pose proof (Rmax_r 1 (5 * v0)).
  set (X := linspace xmin xmax M). set (v := linspace 0 vmax L). set (dX := (xmax - xmin) / INR M). set (dv := vmax / INR L).
  set (V0 := f_bc (sabr_fd p) M L kk X cp (fun i _ => Rmax (cp * (X i - kk)) 0)).
  set (f := fun V => fd_step (sabr_fd p) M L theta kk cp dX dv (T / INR N) X v (f_pre (sabr_fd p) M L kk X cp dv (T / INR N) V)).
  exists xmin, xmax, vmax, (fun k => fd_iter k f V0).
  split; [lra|split; [lra|split; [lra|split; [|split; [|split]]]]].
  - intros i j [Hi Hj]. cbn [fd_iter]. unfold V0. cbn [f_bc sabr_fd]. rewrite sbc_in by assumption. reflexivity.
  - cbn [fd_iter]. unfold V0. cbn [f_bc sabr_fd]. apply edges_sabr; assumption.
  - intros k Hk. rewrite fd_iter_S. apply sabr_step_douglas; try assumption; try lra. apply step_pos, HT.
  - reflexivity.
Qed.

(** ** Heston / CEV-Heston *)
Section Heston.
Variables (p : svp) (cev : option R) (M L : nat) (theta kk cp xmax vmax dt : R).
Hypothesis HM : (2 <= M)%nat.
Hypothesis HL : (2 <= L)%nat.
Hypothesis Hth : 0 <= theta.
Hypothesis Hdt : 0 <= dt.
Hypothesis Hx : 0 < xmax.
Hypothesis Hv : 0 < vmax.
Hypothesis Hsw : v_sweep_ok p L vmax (theta * dt).
Let X := linspace 0 xmax M.
Let v := linspace 0 vmax L.
Let dX := (xmax - 0) / INR M.
Let dv := vmax / INR L.
Lemma heston_step_douglas V :
  douglas (heston_or_cev (v_vov p) (v_rho p) (v_mr p) (v_theta p) cev) dX dv X v M L theta dt (edges_column M L X kk cp (fun i => V i 0%nat)) V
    (fd_step (heston_fd p cev) M L theta kk cp dX dv dt X v V).
Proof using HM HL Hth Hdt Hx Hv Hsw.
  assert (H1 : 0 < dX) by (apply Rdiv_lt_0_compat; [lra|apply lt_0_INR; lia]).
  assert (H2 : 0 < dv) by (apply Rdiv_lt_0_compat; [lra|apply lt_0_INR; lia]).
  assert (Hadt : 0 <= theta * dt) by (apply Rmult_le_pos; assumption).
  assert (Hvj : forall j, 0 <= v j) by (intros j; apply linspace_nonneg; lra).
  assert (HF1 : forall i, (0 < i < M)%nat ->
    fd_F1 M (fun i j => f_aS (heston_fd p cev) (X i) (v j)) (fun i j => f_bS (heston_fd p cev) (X i) (v j)) dX V i 0%nat = 0).
  { intros i Hi. unfold fd_F1. rewrite (inner_t M i Hi). cbn [f_aS f_bS heston_fd]. unfold v at 1. rewrite linspace_0.
    unfold Rdiv. destruct cev; ring. }
  assert (HF2 : forall i, fd_F2 L (fun j => f_aV (heston_fd p cev) (v j)) (fun j => f_bV (heston_fd p cev) (v j)) dv V i 0%nat = 0) by (intros; reflexivity).
  assert (HF0 : forall i, fd_F0 M L (fun i j => f_gam (heston_fd p cev) (X i) (v j)) dX dv V i 0%nat = 0).
  { intros. unfold fd_F0. rewrite Bool.andb_comm. reflexivity. }
  assert (HS : forall rhs i, (0 < i < M)%nat ->
     solve_S (f_bc (heston_fd p cev) M L kk X cp) M L (theta * dt) (fun i j => f_aS (heston_fd p cev) (X i) (v j)) (fun i j => f_bS (heston_fd p cev) (X i) (v j)) dX rhs i 0%nat = rhs i 0%nat).
  { intros rhs i Hi. unfold solve_S. cbn [f_bc heston_fd]. rewrite hbc_in by lia. rewrite Bool.andb_comm. cbn [inner Nat.ltb Nat.leb andb].
    apply hbc_in; lia. }
  assert (HV : forall rhs i, (0 < i < M)%nat ->
     solve_v (f_bc (heston_fd p cev) M L kk X cp) L (theta * dt) (fun j => f_aV (heston_fd p cev) (v j)) (fun j => f_bV (heston_fd p cev) (v j)) dv rhs i 0%nat = rhs i 0%nat).
  { intros rhs i Hi. unfold solve_v. cbn [f_bc heston_fd]. rewrite hbc_in by lia. cbn [inner Nat.ltb Nat.leb andb].
    destruct (Nat.eqb_spec 0 L); [lia|]. apply hbc_in; lia. }
  rewrite step_is. apply step_douglas; try assumption; try lra.
  - intros x y. unfold heston_or_cev. destruct cev; cbn [f_aS heston_fd var_x heston_model heston_cev_model]; unfold npow, pw; ring.
  - intros; reflexivity.
  - intros y. unfold heston_or_cev. destruct cev; cbn [f_aV heston_fd var_v heston_model heston_cev_model]; ring.
  - intros. unfold heston_or_cev. destruct cev; reflexivity.
  - intros. unfold heston_or_cev. destruct cev; reflexivity.
  - intros j Hj. exact (heston_S_pivots p cev M xmax (theta * dt) (v j) HM Hx Hadt (Hvj j)).
  - exact (heston_v_pivots' p cev L vmax (theta * dt) HL Hv Hadt Hsw).
  - intros W i j Hi Hj. apply hbc_in; lia.
  - intros W W' j Hj. cbn [f_bc heston_fd]. rewrite !hbc_lo by lia. reflexivity.
  - intros W W' j Hj. cbn [f_bc heston_fd]. rewrite !hbc_hi by lia. reflexivity.
  - intros W i _. apply hbc_ne; assumption.
  - intros W W' i Hi E. cbn [f_bc heston_fd]. rewrite !hbc_in by lia. exact E.
  - intros W i Hi. cbn [f_bc heston_fd]. rewrite !hbc_in by lia. reflexivity.
  - split; [apply edges_heston; assumption|]. intros i Hi. rewrite HS by exact Hi. cbn [f_bc heston_fd]. rewrite hbc_in by lia.
    rewrite HF1, HF2, HF0 by exact Hi. ring.
  - split; [apply edges_heston; assumption|]. intros i Hi. rewrite HV by exact Hi. rewrite HS by exact Hi. cbn [f_bc heston_fd]. rewrite hbc_in by lia.
    rewrite HF1, HF2, HF0 by exact Hi. ring.
Qed.
End Heston.

Lemma pre_zero_column p M L X kk cp dv dt W : (2 <= M)%nat -> (2 <= L)%nat -> dv <> 0 ->
  zero_column (v_vov p) (v_mr p) (v_theta p) M L X kk cp dv dt W (heston_pre p M L kk X cp dv dt W).
Proof.
  intros HM HL Hdv. split; [|split].
  - intros i j [Hi Hj]. unfold heston_pre. rewrite hbc_in by lia. destruct (Nat.eqb_spec j 0); [lia|reflexivity].
  - apply (proj1 (edges_heston M L kk cp X HM HL _)).
  - intros i Hi. unfold heston_pre. rewrite hbc_in by lia. cbn [Nat.eqb].
    destruct (Rlt_dec (2 * v_mr p * v_theta p) (v_vov p ^ 2)) as [H|H]; split; intros H'; try lra; first [reflexivity|field; exact Hdv].
Qed.

Lemma heston_fd_is_adi mo p cev N M L theta K S T cp : (2 <= M)%nat -> (2 <= L)%nat -> 0 <= theta -> 0 <= T -> 0 < S ->
  0 < v_sigma p ->
  let F := FWD (intr mo) (divr mo) (is_fwd mo) S T in
  let kk := K / F in
  let '(_, _, vm) := heston_bounds p (v_sigma p) kk T in
  v_sweep_ok p L vm (theta * (T / INR N)) ->
  exists xmax vmax (W U : nat -> grid),
    1 < xmax /\ kk < xmax /\ 0 < v_sigma p < vmax /\
    let X := node 0 xmax M in let v := node 0 vmax L in
    (forall i j, interior M L i j -> W 0%nat i j = payoff cp kk (X i)) /\
    edges_column M L X kk cp (fun i => payoff cp kk (X i)) (W 0%nat) /\
    (forall k, (k < N)%nat ->
       zero_column (v_vov p) (v_mr p) (v_theta p) M L X kk cp (vmax / INR L) (T / INR N) (W k) (U k) /\
       douglas (heston_or_cev (v_vov p) (v_rho p) (v_mr p) (v_theta p) cev) ((xmax - 0) / INR M) (vmax / INR L) X v M L theta (T / INR N)
         (edges_column M L X kk cp (fun i => U k i 0%nat)) (U k) (W (Datatypes.S k))) /\
    heston_fd_price mo p cev N M L theta K S T cp = DF (intr mo) T * F * bilinear (W N) (M + 1) (L + 1) X v 1 (v_sigma p).
Proof.
  intros HM HL Hth HT HS Hsig F kk. unfold heston_fd_price. rewrite fdd_eq. unfold heston_bounds. cbv beta iota zeta.
  change (mF mo S T) with F. change (mD mo T) with (DF (intr mo) T). change (K / F) with kk.
  set (xmax := Rmax (4 * Rmax 1 kk) _). set (vmax := Rmax (5 * v_sigma p) _). intros Hsw.
  pose proof (Rmax_l 1 kk). pose proof (Rmax_r 1 kk).
  pose proof (Rmax_l (4 * Rmax 1 kk) (1 + 5 * sqrt (v_sigma p * Rmax T 0))) as Hx. fold xmax in Hx.
  assert (Hv1 : 5 * v_sigma p <= vmax) by (unfold vmax; apply Rmax_l).
  set (X := linspace 0 xmax M). set (v := linspace 0 vmax L). set (dX := (xmax - 0) / INR M). set (dv := vmax / INR L).
  assert (Hdv : 0 < dv) by (apply Rdiv_lt_0_compat; [lra|apply lt_0_INR; lia]).
  set (V0 := f_bc (heston_fd p cev) M L kk X cp (fun i _ => Rmax (cp * (X i - kk)) 0)).
  set (f := fun V => fd_step (heston_fd p cev) M L theta kk cp dX dv (T / INR N) X v (f_pre (heston_fd p cev) M L kk X cp dv (T / INR N) V)).
  exists xmax, vmax, (fun k => fd_iter k f V0), (fun k => heston_pre p M L kk X cp dv (T / INR N) (fd_iter k f V0)).
  split; [lra|split; [lra|split; [lra|split; [|split; [|split]]]]].
  - intros i j [Hi Hj]. cbn [fd_iter]. unfold V0. cbn [f_bc heston_fd]. rewrite hbc_in by lia. reflexivity.
  - cbn [fd_iter]. unfold V0. cbn [f_bc heston_fd]. apply edges_heston; assumption.
  - intros k Hk. split; [apply pre_zero_column; [assumption|assumption|lra]|]. rewrite fd_iter_S.
    apply heston_step_douglas; try assumption; try lra. apply step_pos, HT.
  - reflexivity.
Qed.

(** ** Consistency: the differences are exact on polynomials of degree two in each variable *)
Lemma node_S lo hi n i : node lo hi n (i + 1) = node lo hi n i + (hi - lo) / INR n.
Proof. unfold node. rewrite plus_INR. simpl INR. ring. Qed.
Lemma node_P lo hi n i : (0 < i)%nat -> node lo hi n (i - 1) = node lo hi n i - (hi - lo) / INR n.
Proof. intros H. unfold node. rewrite minus_INR by lia. simpl INR. ring. Qed.
Lemma generator_biquad m c x v : generator m (biquad c) x v =
  / 2 * var_x m x v * (2 * c 2%nat 0%nat + 2 * c 2%nat 1%nat * v + 2 * c 2%nat 2%nat * v ^ 2)
  + cov_xv m x v * (c 1%nat 1%nat + 2 * c 2%nat 1%nat * x + (2 * c 1%nat 2%nat + 4 * c 2%nat 2%nat * x) * v)
  + / 2 * var_v m v * (2 * (c 0%nat 2%nat + c 1%nat 2%nat * x + c 2%nat 2%nat * x ^ 2))
  + drift_v m v * (c 0%nat 1%nat + c 1%nat 1%nat * x + c 2%nat 1%nat * x ^ 2 + 2 * (c 0%nat 2%nat + c 1%nat 2%nat * x + c 2%nat 2%nat * x ^ 2) * v).
Proof.
  unfold generator.
  assert (Ex : forall x v, Derive (fun z => biquad c z v) x = c 1%nat 0%nat + 2 * c 2%nat 0%nat * x + (c 1%nat 1%nat + 2 * c 2%nat 1%nat * x) * v + (c 1%nat 2%nat + 2 * c 2%nat 2%nat * x) * v ^ 2).
  { intros y w. apply is_derive_unique. unfold biquad. auto_derive; [exact I|]. ring. }
  assert (Ev : forall x v, Derive (fun z => biquad c x z) v = (c 0%nat 1%nat + c 1%nat 1%nat * x + c 2%nat 1%nat * x ^ 2) + 2 * (c 0%nat 2%nat + c 1%nat 2%nat * x + c 2%nat 2%nat * x ^ 2) * v).
  { intros y w. apply is_derive_unique. unfold biquad. auto_derive; [exact I|]. ring. }
  rewrite (Derive_ext (fun y => Derive (fun z => biquad c z v) y) _ x (fun y => Ex y v)).
  rewrite (Derive_ext (fun w => Derive (fun z => biquad c z w) x) _ v (fun w => Ex x w)).
  rewrite (Derive_ext (fun w => Derive (fun z => biquad c x z) w) _ v (fun w => Ev x w)).
  rewrite (Ev x v).
  match goal with |- ?a * Derive ?f x + ?b * Derive ?g v + ?d * Derive ?h v + _ = _ =>
    assert (E1 : Derive f x = 2 * c 2%nat 0%nat + 2 * c 2%nat 1%nat * v + 2 * c 2%nat 2%nat * v ^ 2)
      by (apply is_derive_unique; auto_derive; [exact I|ring]);
    assert (E2 : Derive g v = c 1%nat 1%nat + 2 * c 2%nat 1%nat * x + (2 * c 1%nat 2%nat + 4 * c 2%nat 2%nat * x) * v)
      by (apply is_derive_unique; auto_derive; [exact I|ring]);
    assert (E3 : Derive h v = 2 * (c 0%nat 2%nat + c 1%nat 2%nat * x + c 2%nat 2%nat * x ^ 2))
      by (apply is_derive_unique; auto_derive; [exact I|ring]) end.
  rewrite E1, E2, E3. ring.
Qed.
Lemma adi_consistent m c lo hi vmax M L i j : lo < hi -> 0 < vmax -> interior M L i j ->
  let X := node lo hi M in let v := node 0 vmax L in
  let hx := (hi - lo) / INR M in let hv := vmax / INR L in
  let u := fun i j => biquad c (X i) (v j) in
  part_xv m hx hv X v u i j + part_x m hx X v u i j + part_v m hv v u i j = generator m (biquad c) (X i) (v j).
Proof.
  intros Hx Hv [Hi Hj] X v hx hv u. rewrite generator_biquad.
  assert (H1 : 0 < hx) by (apply Rdiv_lt_0_compat; [lra|apply lt_0_INR; lia]).
  assert (H2 : 0 < hv) by (apply Rdiv_lt_0_compat; [lra|apply lt_0_INR; lia]).
  assert (EX : X (i + 1)%nat = X i + hx) by apply node_S. assert (EX' : X (i - 1)%nat = X i - hx) by (apply node_P; lia).
  assert (EV : v (j + 1)%nat = v j + hv) by (unfold v; rewrite node_S; unfold hv; rewrite Rminus_0_r; reflexivity).
  assert (EV' : v (j - 1)%nat = v j - hv) by (unfold v; rewrite node_P by lia; unfold hv; rewrite Rminus_0_r; reflexivity).
  unfold part_xv, part_x, part_v, diff1, diff2, u. rewrite EX, EX', EV, EV'.
  generalize (X i) (v j) (var_x m (X i) (v j)) (cov_xv m (X i) (v j)) (var_v m (v j)) (drift_v m (v j)). intros x y A B D E.
  clearbody hx hv. clear - H1 H2. unfold biquad. field. lra.
Qed.
