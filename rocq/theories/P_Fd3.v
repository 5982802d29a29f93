(** Put-call parity of SabrFinDiff, HestonFinDiff and HestonCevFinDiff; counterexamples (model in M_Fd.v). *)
From Coq Require Import Reals Lra Psatz List Arith Lia Bool.
From Verif Require Import Spec_Fd Spec_Opt M_Opt P_Bsm M_Mgf M_Fd P_Fd P_Fd2.
Open Scope R_scope.

Lemma bilinear_dif M L X kk gv V W y : (2 <= M)%nat -> (2 <= L)%nat -> increasing_to (M + 1) X -> X 0%nat <= 1 <= X M ->
  Dif M L X kk V W -> bilinear V (M + 1) (L + 1) X gv 1 y - bilinear W (M + 1) (L + 1) X gv 1 y = 1 - kk.
Proof.
  intros HM HL HX H1 HD. unfold bilinear.
  pose proof (cell_bounds (M + 1) X 1 ltac:(lia)). pose proof (cell_bounds (L + 1) gv y ltac:(lia)).
  pose proof (cell_w_mix (M + 1) X 1 ltac:(lia) HX ltac:(replace (M + 1 - 1)%nat with M by lia; exact H1)) as EX.
  set (i := cell (M + 1) X 1) in *. set (j := cell (L + 1) gv y) in *.
  set (u := cell_w (M + 1) X 1) in *. set (w := cell_w (L + 1) gv y) in *.
  pose proof (HD (i - 1)%nat (j - 1)%nat ltac:(lia) ltac:(lia)) as D1. pose proof (HD i (j - 1)%nat ltac:(lia) ltac:(lia)) as D2.
  pose proof (HD (i - 1)%nat j ltac:(lia) ltac:(lia)) as D3. pose proof (HD i j ltac:(lia) ltac:(lia)) as D4.
  transitivity ((1 - u) * (1 - w) * (V (i - 1)%nat (j - 1)%nat - W (i - 1)%nat (j - 1)%nat) + u * (1 - w) * (V i (j - 1)%nat - W i (j - 1)%nat)
    + (1 - u) * w * (V (i - 1)%nat j - W (i - 1)%nat j) + u * w * (V i j - W i j)); [ring|].
  rewrite D1, D2, D3, D4.
  transitivity (((1 - u) * X (i - 1)%nat + u * X i) - kk); [ring|rewrite EX; reflexivity].
Qed.

Lemma linspace_step lo hi n i : linspace lo hi n (S i) = linspace lo hi n i + (hi - lo) / INR n.
Proof. unfold linspace. rewrite S_INR. ring. Qed.
Lemma linspace_0 lo hi n : linspace lo hi n 0 = lo.
Proof. unfold linspace. simpl INR. ring. Qed.
Lemma linspace_n lo hi n : (0 < n)%nat -> linspace lo hi n n = hi.
Proof. intros H. unfold linspace. field. apply not_0_INR. lia. Qed.
Lemma linspace_incr lo hi n m : (0 < n)%nat -> lo < hi -> increasing_to m (linspace lo hi n).
Proof.
  intros Hn H a b Hab. unfold linspace. apply Rplus_lt_compat_l. apply Rmult_lt_compat_r.
  - apply Rdiv_lt_0_compat; [lra|]. apply lt_0_INR. lia.
  - apply lt_INR. lia.
Qed.
Lemma linspace_nonneg hi n i : 0 <= hi -> 0 <= linspace 0 hi n i.
Proof.
  intros H. unfold linspace. rewrite Rplus_0_l, Rminus_0_r. apply Rmult_le_pos; [apply pos_INR|].
  destruct n; [simpl; unfold Rdiv; rewrite Rinv_0, Rmult_0_r; lra|].
  apply Rmult_le_pos; [exact H|]. apply Rlt_le, Rinv_0_lt_compat, lt_0_INR. lia.
Qed.
Lemma npow_pos x y : 0 <= npow x y.
Proof.
  unfold npow. destruct (Req_EM_T y 0); [lra|]. destruct (Req_EM_T x 0); [lra|]. unfold Rpower. apply Rlt_le, exp_pos.
Qed.

(** The generic engine: parity for any model whose boundary operators and pre-step respect it. *)
Lemma fd_solve_parity m N M L theta xmax vmax kk v0 texp :
  (2 <= M)%nat -> (2 <= L)%nat -> 0 <= theta -> 0 <= texp -> kk <= xmax -> 1 <= xmax -> 0 <= vmax ->
  let X := linspace 0 xmax M in let v := linspace 0 vmax L in
  let dv := vmax / INR L in let dt := texp / INR N in
  (forall x y, f_bS m x y = 0) -> (forall x y, 0 <= y -> 0 <= f_aS m x y) ->
  bc_ok M L X kk (f_bc m M L kk X) ->
  (forall V W, Dif M L X kk V W -> Dif M L X kk (f_pre m M L kk X 1 dv dt V) (f_pre m M L kk X (-1) dv dt W)) ->
  pivots_ok (L - 1) (tri_sub (theta * dt) (fun j => f_aV m (v j) / dv ^ 2) (fun j => f_bV m (v j) / (2 * dv)))
     (v_mid L (theta * dt) (fun j => f_aV m (v j) / dv ^ 2) (fun j => f_bV m (v j) / (2 * dv)))
     (tri_sup (theta * dt) (fun j => f_aV m (v j) / dv ^ 2) (fun j => f_bV m (v j) / (2 * dv))) ->
  fd_solve_one m N M L theta 0 xmax vmax kk v0 texp 1 - fd_solve_one m N M L theta 0 xmax vmax kk v0 texp (-1) = 1 - kk.
Proof.
  intros HM HL Hth HT Hkk H1 Hv X v dv dt Hb Ha Hbc Hpre Hpv. unfold fd_solve_one. fold X v dv dt.
  assert (HX : forall i, X (S i) = X i + (xmax - 0) / INR M) by (intros i; apply linspace_step).
  assert (HX0 : X 0%nat = 0) by apply linspace_0.
  assert (HXM : X M = xmax) by (apply linspace_n; lia).
  assert (Hdt : 0 <= dt).
  { unfold dt. destruct N; [simpl; unfold Rdiv; rewrite Rinv_0, Rmult_0_r; lra|].
    apply Rmult_le_pos; [exact HT|]. apply Rlt_le, Rinv_0_lt_compat, lt_0_INR. lia. }
  assert (Hadt : 0 <= theta * dt) by (apply Rmult_le_pos; assumption).
  apply bilinear_dif; try assumption.
  { apply linspace_incr; [lia|lra]. }
  { rewrite HX0, HXM. lra. }
  apply fd_iter_dif.
  - intros V W HD. apply Hpre in HD.
    set (V1 := f_pre m M L kk X 1 dv dt V) in *. set (W1 := f_pre m M L kk X (-1) dv dt W) in *.
    unfold fd_step.
    apply (solve_v_dif M L X kk HM HL); [exact Hbc|exact Hpv|].
    assert (HY1 : forall Rc Rp, Dif M L X kk Rc Rp ->
       Dif M L X kk (solve_S (f_bc m M L kk X 1) M L (theta * dt) (fun i j => f_aS m (X i) (v j)) (fun i j => f_bS m (X i) (v j)) ((xmax - 0) / INR M) Rc)
                    (solve_S (f_bc m M L kk X (-1)) M L (theta * dt) (fun i j => f_aS m (X i) (v j)) (fun i j => f_bS m (X i) (v j)) ((xmax - 0) / INR M) Rp)).
    { intros Rc Rp HR. apply (solve_S_dif M L X kk ((xmax - 0) / INR M) HM HL HX); try assumption.
      - intros i j. apply Hb.
      - intros j Hj. apply tri_pivots; [lia|exact Hadt|]. intros k Hk. rewrite Hb.
        unfold Rdiv at 3. rewrite Rmult_0_l, Rabs_R0.
        assert (Hp : 0 <= f_aS m (X (S k)) (v j) / ((xmax - 0) / INR M) ^ 2).
        { apply Rmult_le_pos; [apply Ha, linspace_nonneg, Hv|].
          assert (0 < (xmax - 0) / INR M) by (apply Rdiv_lt_0_compat; [lra|apply lt_0_INR; lia]).
          apply Rlt_le, Rinv_0_lt_compat, pow_lt. assumption. }
        split; [exact Hp|]. nra. }
    assert (EF1 : forall i j, (i <= M)%nat -> (j <= L)%nat ->
       fd_F1 M (fun i j => f_aS m (X i) (v j)) (fun i j => f_bS m (X i) (v j)) ((xmax - 0) / INR M) V1 i j =
       fd_F1 M (fun i j => f_aS m (X i) (v j)) (fun i j => f_bS m (X i) (v j)) ((xmax - 0) / INR M) W1 i j).
    { intros i j Hi Hj. apply (F1_dif M L X kk ((xmax - 0) / INR M) HM HL HX); try assumption. intros; apply Hb. }
    assert (EF2 : forall i j, (i <= M)%nat -> (j <= L)%nat ->
       fd_F2 L (fun j => f_aV m (v j)) (fun j => f_bV m (v j)) dv V1 i j = fd_F2 L (fun j => f_aV m (v j)) (fun j => f_bV m (v j)) dv W1 i j).
    { intros i j Hi Hj. apply (F2_dif M L X kk HM HL); assumption. }
    intros i j Hi Hj. rewrite (EF2 i j Hi Hj).
    match goal with |- ?a - ?z - (?b - ?z) = _ => replace (a - z - (b - z)) with (a - b) by ring end.
    revert i j Hi Hj. apply HY1. intros i j Hi Hj. rewrite (EF1 i j Hi Hj).
    match goal with |- ?a - ?z - (?b - ?z) = _ => replace (a - z - (b - z)) with (a - b) by ring end.
    revert i j Hi Hj. apply Hbc. intros i j Hi Hj.
    rewrite (EF1 i j), (EF2 i j) by lia.
    rewrite (F0_dif M L X kk HM HL (fun i j => f_gam m (X i) (v j)) ((xmax - 0) / INR M) dv V1 W1 i j HD) by lia.
    match goal with |- ?a + ?z - (?b + ?z) = _ => replace (a + z - (b + z)) with (a - b) by ring end.
    apply HD; lia.
  - apply Hbc. intros i j Hi Hj. apply payoff_dif.
Qed.

(** ** SABR, beta > 0 *)
Lemma sabr_fd_parity mo p N M L theta K S T : (2 <= M)%nat -> (2 <= L)%nat -> 0 <= theta -> 0 <= T ->
  0 < S -> 0 <= K -> 0 < b_beta p ->
  sabr_fd_price mo p N M L theta K S T 1 - sabr_fd_price mo p N M L theta K S T (-1)
  = DF (intr mo) T * (FWD (intr mo) (divr mo) (is_fwd mo) S T - K).
Proof.
  intros HM HL Hth HT HS HK Hbeta. unfold sabr_fd_price. rewrite fdd_eq. unfold sabr_bounds. cbv beta iota zeta.
  destruct (Rlt_dec 0 (b_beta p)) as [_|n]; [|contradiction].
  pose proof (mF_pos mo S T HS) as HF. set (F := mF mo S T) in *. set (D := mD mo T) in *.
  set (kk := K / F). set (v0 := sabr_alpha p F).
  set (xmax := Rmax (4 * Rmax 1 kk) _). set (vmax := Rmax (Rmax 1 (5 * v0)) _).
  pose proof (Rmax_l 1 kk). pose proof (Rmax_r 1 kk).
  pose proof (Rmax_l (4 * Rmax 1 kk) (Rmax 1 kk + 5 * v0 * npow (Rmax 1 kk) (b_beta p) * sqrt (Rmax T 0))) as Hx. fold xmax in Hx.
  assert (Hvm : 0 <= vmax).
  { unfold vmax. eapply Rle_trans; [|apply Rmax_l]. eapply Rle_trans; [|apply Rmax_l]. lra. }
  assert (HE : fd_solve_one (sabr_fd p) N M L theta 0 xmax vmax kk v0 T 1 - fd_solve_one (sabr_fd p) N M L theta 0 xmax vmax kk v0 T (-1) = 1 - kk).
  { apply fd_solve_parity; try assumption; try lra.
    - intros; reflexivity.
    - intros x y Hy. cbn [f_aS sabr_fd]. apply Rmult_le_pos; [nra|apply npow_pos].
    - apply standard_bc_ok; [assumption|assumption|rewrite linspace_0; reflexivity|rewrite linspace_n by lia; lra].
    - intros V W HD. exact HD.
    - assert (Hdt : 0 <= T / INR N).
      { destruct N; [simpl; unfold Rdiv; rewrite Rinv_0, Rmult_0_r; lra|].
        apply Rmult_le_pos; [exact HT|]. apply Rlt_le, Rinv_0_lt_compat, lt_0_INR. lia. }
      apply v_pivots; [assumption|apply Rmult_le_pos; assumption|].
      intros j Hj. cbn [f_aV f_bV sabr_fd]. replace (0 / (2 * (vmax / INR L))) with 0 by (unfold Rdiv; ring). rewrite Rabs_R0.
      assert (0 <= / 2 * b_vov p ^ 2 * linspace 0 vmax L j ^ 2 / (vmax / INR L) ^ 2).
      { apply Rmult_le_pos; [pose proof (pow2_ge_0 (b_vov p)); pose proof (pow2_ge_0 (linspace 0 vmax L j)); nra|].
        destruct (Req_dec ((vmax / INR L) ^ 2) 0) as [E|E]; [rewrite E, Rinv_0; lra|].
        apply Rlt_le, Rinv_0_lt_compat. pose proof (pow2_ge_0 (vmax / INR L)). lra. }
      split; [assumption|]. assert (0 <= theta * (T / INR N)) by (apply Rmult_le_pos; assumption). nra. }
  transitivity (D * F * (1 - kk)); [rewrite <- HE; ring|]. unfold kk. change (FWD _ _ _ _ _) with F. change (DF _ _) with D. field. lra.
Qed.

(** ** Heston / CEV-Heston *)
(** step-size condition of the variance sweep: the drift term may exceed the diffusion term by at most 1/(theta dt) *)
Definition v_sweep_ok (p : svp) (L : nat) (vmax adt : R) : Prop :=
  forall j, (1 <= j < L)%nat ->
    adt * (Rabs (v_mr p * (v_theta p - linspace 0 vmax L j)) / (vmax / INR L)
           - v_vov p ^ 2 * linspace 0 vmax L j / (vmax / INR L) ^ 2) < 1.

Lemma heston_v_pivots p cev L vmax adt : (2 <= L)%nat -> 0 < vmax -> 0 <= adt -> v_sweep_ok p L vmax adt ->
  let v := linspace 0 vmax L in let dv := vmax / INR L in
  pivots_ok (L - 1) (tri_sub adt (fun j => f_aV (heston_fd p cev) (v j) / dv ^ 2) (fun j => f_bV (heston_fd p cev) (v j) / (2 * dv)))
     (v_mid L adt (fun j => f_aV (heston_fd p cev) (v j) / dv ^ 2) (fun j => f_bV (heston_fd p cev) (v j) / (2 * dv)))
     (tri_sup adt (fun j => f_aV (heston_fd p cev) (v j) / dv ^ 2) (fun j => f_bV (heston_fd p cev) (v j) / (2 * dv))).
Proof.
  intros HL Hv Ha H v dv. assert (Hdv : 0 < dv) by (apply Rdiv_lt_0_compat; [lra|apply lt_0_INR; lia]).
  apply v_pivots; [assumption|assumption|]. intros j Hj. cbn [f_aV f_bV heston_fd].
  specialize (H j Hj). fold v dv in H. pose proof (linspace_nonneg vmax L j ltac:(lra)) as Hp. fold v in Hp.
  assert (Hd2 : 0 < dv ^ 2) by (apply pow_lt; assumption).
  split.
  - apply Rmult_le_pos; [pose proof (pow2_ge_0 (v_vov p)); nra|]. apply Rlt_le, Rinv_0_lt_compat, Hd2.
  - unfold Rdiv. rewrite (Rabs_mult _ (/ (2 * dv))), (Rabs_pos_eq (/ (2 * dv))) by (apply Rlt_le, Rinv_0_lt_compat; lra).
    eapply Rle_lt_trans; [|exact H]. apply Req_le. field. lra.
Qed.

Lemma heston_pre_dif p M L X kk dv dt V W h : (2 <= M)%nat -> (2 <= L)%nat -> (forall i, X (S i) = X i + h) -> X 0%nat = 0 -> kk <= X M ->
  Dif M L X kk V W -> Dif M L X kk (heston_pre p M L kk X 1 dv dt V) (heston_pre p M L kk X (-1) dv dt W).
Proof.
  intros HM HL HX HX0 HXM HD. unfold heston_pre. apply heston_bc_ok; try assumption.
  intros i j Hi Hj. destruct (Nat.eqb j 0); [|apply HD; lia].
  destruct (Rlt_dec (2 * v_mr p * v_theta p) (v_vov p ^ 2)); [|apply payoff_dif].
  pose proof (HD i 0%nat ltac:(lia) ltac:(lia)) as D0. pose proof (HD i 1%nat ltac:(lia) ltac:(lia)) as D1.
  replace (V i 1%nat - V i 0%nat) with (W i 1%nat - W i 0%nat) by lra. lra.
Qed.

Lemma heston_fd_parity mo p cev N M L theta K S T : (2 <= M)%nat -> (2 <= L)%nat -> 0 <= theta -> 0 <= T ->
  0 < S -> 0 <= K -> 0 < v_sigma p ->
  let '(_, _, vmax) := heston_bounds p (v_sigma p) (K / FWD (intr mo) (divr mo) (is_fwd mo) S T) T in
  v_sweep_ok p L vmax (theta * (T / INR N)) ->
  heston_fd_price mo p cev N M L theta K S T 1 - heston_fd_price mo p cev N M L theta K S T (-1)
  = DF (intr mo) T * (FWD (intr mo) (divr mo) (is_fwd mo) S T - K).
Proof.
  intros HM HL Hth HT HS HK Hv0. unfold heston_fd_price. rewrite fdd_eq. unfold heston_bounds. cbv beta iota zeta.
  change (FWD (intr mo) (divr mo) (is_fwd mo) S T) with (mF mo S T). change (DF (intr mo) T) with (mD mo T).
  pose proof (mF_pos mo S T HS) as HF. set (F := mF mo S T) in *. set (D := mD mo T) in *.
  set (kk := K / F). set (v0 := v_sigma p) in *.
  set (xmax := Rmax (4 * Rmax 1 kk) _). set (vmax := Rmax (5 * v0) _). intros Hok.
  pose proof (Rmax_l 1 kk). pose proof (Rmax_r 1 kk).
  pose proof (Rmax_l (4 * Rmax 1 kk) (1 + 5 * sqrt (v0 * Rmax T 0))) as Hx. fold xmax in Hx.
  assert (Hvm : 0 < vmax) by (eapply Rlt_le_trans; [|apply Rmax_l]; lra).
  assert (HE : fd_solve_one (heston_fd p cev) N M L theta 0 xmax vmax kk v0 T 1 - fd_solve_one (heston_fd p cev) N M L theta 0 xmax vmax kk v0 T (-1) = 1 - kk).
  { apply fd_solve_parity; try assumption; try lra.
    - intros; reflexivity.
    - intros x y Hy. cbn [f_aS heston_fd]. apply Rmult_le_pos; [nra|]. destruct cev; [apply npow_pos|apply pow2_ge_0].
    - apply heston_bc_ok; [assumption|assumption|rewrite linspace_0; reflexivity|rewrite linspace_n by lia; lra].
    - intros V W HD. cbn [f_pre heston_fd].
      apply (heston_pre_dif p M L _ kk _ _ V W ((xmax - 0) / INR M)); try assumption.
      + intros i. apply linspace_step.
      + apply linspace_0.
      + rewrite linspace_n by lia. lra.
    - apply heston_v_pivots; try assumption. apply Rmult_le_pos; [assumption|].
      destruct N; [simpl; unfold Rdiv; rewrite Rinv_0, Rmult_0_r; lra|].
      apply Rmult_le_pos; [exact HT|]. apply Rlt_le, Rinv_0_lt_compat, lt_0_INR. lia. }
  transitivity (D * F * (1 - kk)); [rewrite <- HE; ring|]. unfold kk. field. lra.
Qed.

(** pivots of the price-direction sweep, any model without drift there *)
Lemma S_sweep_pivots (aS : R -> R -> R) M xmin xmax adt y : (2 <= M)%nat -> xmin < xmax -> 0 <= adt ->
  (forall x, 0 <= aS x y) ->
  let X := linspace xmin xmax M in let dX := (xmax - xmin) / INR M in
  pivots_ok (M - 1) (tri_sub adt (fun i => aS (X i) y / dX ^ 2) (fun i => 0 / (2 * dX)))
    (tri_mid adt (fun i => aS (X i) y / dX ^ 2)) (tri_sup adt (fun i => aS (X i) y / dX ^ 2) (fun i => 0 / (2 * dX))).
Proof.
  intros HM Hx Ha Hp X dX. apply tri_pivots; [lia|exact Ha|]. intros k Hk.
  replace (0 / (2 * dX)) with 0 by (unfold Rdiv; ring). rewrite Rabs_R0.
  assert (0 < dX) by (apply Rdiv_lt_0_compat; [lra|apply lt_0_INR; lia]).
  assert (0 <= aS (X (S k)) y / dX ^ 2).
  { apply Rmult_le_pos; [apply Hp|]. apply Rlt_le, Rinv_0_lt_compat, pow_lt. assumption. }
  split; [assumption|]. nra.
Qed.
Lemma sabr_S_pivots p M xmin xmax adt y : (2 <= M)%nat -> xmin < xmax -> 0 <= adt ->
  let X := linspace xmin xmax M in let dX := (xmax - xmin) / INR M in
  let a i := f_aS (sabr_fd p) (X i) y / dX ^ 2 in let b i := f_bS (sabr_fd p) (X i) y / (2 * dX) in
  forall k, (k < M - 1)%nat -> th_den (tri_sub adt a b) (tri_mid adt a) (tri_sup adt a b) k <> 0.
Proof.
  intros HM Hx Ha. apply (S_sweep_pivots (f_aS (sabr_fd p))); try assumption.
  intros x. cbn [f_aS sabr_fd]. apply Rmult_le_pos; [nra|apply npow_pos].
Qed.
Lemma heston_S_pivots p cev M xmax adt y : (2 <= M)%nat -> 0 < xmax -> 0 <= adt -> 0 <= y ->
  let X := linspace 0 xmax M in let dX := (xmax - 0) / INR M in
  let a i := f_aS (heston_fd p cev) (X i) y / dX ^ 2 in let b i := f_bS (heston_fd p cev) (X i) y / (2 * dX) in
  forall k, (k < M - 1)%nat -> th_den (tri_sub adt a b) (tri_mid adt a) (tri_sup adt a b) k <> 0.
Proof.
  intros HM Hx Ha Hy. apply (S_sweep_pivots (f_aS (heston_fd p cev))); try assumption.
  intros x. cbn [f_aS heston_fd]. apply Rmult_le_pos; [nra|]. destruct cev; [apply npow_pos|apply pow2_ge_0].
Qed.
Lemma sabr_v_pivots p L vmax adt : (2 <= L)%nat -> 0 < vmax -> 0 <= adt ->
  let v := linspace 0 vmax L in let dv := vmax / INR L in
  let c j := f_aV (sabr_fd p) (v j) / dv ^ 2 in let d j := f_bV (sabr_fd p) (v j) / (2 * dv) in
  forall k, (k < L - 1)%nat -> th_den (tri_sub adt c d) (v_mid L adt c d) (tri_sup adt c d) k <> 0.
Proof.
  intros HL Hv Ha v dv c d. apply v_pivots; [assumption|assumption|].
  intros j Hj. unfold c, d. cbn [f_aV f_bV sabr_fd]. replace (0 / (2 * dv)) with 0 by (unfold Rdiv; ring). rewrite Rabs_R0.
  assert (0 < dv) by (apply Rdiv_lt_0_compat; [lra|apply lt_0_INR; lia]).
  assert (0 <= / 2 * b_vov p ^ 2 * v j ^ 2 / dv ^ 2).
  { apply Rmult_le_pos; [pose proof (pow2_ge_0 (b_vov p)); pose proof (pow2_ge_0 (v j)); nra|].
    apply Rlt_le, Rinv_0_lt_compat, pow_lt. assumption. }
  split; [assumption|]. nra.
Qed.
Lemma heston_v_pivots' p cev L vmax adt : (2 <= L)%nat -> 0 < vmax -> 0 <= adt -> v_sweep_ok p L vmax adt ->
  let v := linspace 0 vmax L in let dv := vmax / INR L in
  let c j := f_aV (heston_fd p cev) (v j) / dv ^ 2 in let d j := f_bV (heston_fd p cev) (v j) / (2 * dv) in
  forall k, (k < L - 1)%nat -> th_den (tri_sub adt c d) (v_mid L adt c d) (tri_sup adt c d) k <> 0.
Proof. intros HL Hv Ha H. exact (heston_v_pivots p cev L vmax adt HL Hv Ha H). Qed.

(** ** Counterexamples *)
(** SABR, beta = 0: the grid extends below zero but the put boundary value there is the strike *)
Definition cx_p : sabrp := mkSabr (3 / 5) 0 0 0.
Definition cx_m : opt := mkOpt (3 / 5) 0 0 false.

Lemma cx_solve cp (E0 E2 : R) : (cp = 1 /\ E0 = 0 /\ E2 = 3) \/ (cp = -1 /\ E0 = 1 /\ E2 = 0) ->
  fd_solve_one (sabr_fd cx_p) 1 2 2 (/ 2) (-2) 4 3 1 (3 / 5) 1 cp = 2 / 45 * (E0 + E2).
Proof.
  intros Hcase. unfold fd_solve_one.
  set (X := linspace (-2) 4 2). set (v := linspace 0 3 2).
  assert (X0 : X 0%nat = -2) by (unfold X, linspace; simpl INR; field).
  assert (X1 : X 1%nat = 1) by (unfold X, linspace; simpl INR; field).
  assert (X2 : X 2%nat = 4) by (unfold X, linspace; simpl INR; field).
  assert (v_0 : v 0%nat = 0) by (unfold v, linspace; simpl INR; field).
  assert (v_1 : v 1%nat = 3 / 2) by (unfold v, linspace; simpl INR; field).
  assert (v_2 : v 2%nat = 3) by (unfold v, linspace; simpl INR; field).
  replace ((4 - -2) / INR 2) with 3 by (simpl INR; field).
  replace (3 / INR 2) with (3 / 2) by (simpl INR; field).
  replace (1 / INR 1) with 1 by (simpl INR; field).
  cbn [f_bc f_pre sabr_fd fd_iter].
  assert (B11 : forall V, standard_bc 2 2 1 X cp V 1%nat 1%nat = V 1%nat 1%nat) by reflexivity.
  assert (B10 : forall V, standard_bc 2 2 1 X cp V 1%nat 0%nat = 0).
  { intros V. unfold standard_bc, neumann. cbn [Nat.eqb]. unfold intrinsic. rewrite X1.
    destruct (Rlt_dec 0 cp); rewrite Rmax_left by lra; ring. }
  assert (B01 : forall V, standard_bc 2 2 1 X cp V 0%nat 1%nat = E0).
  { intros V. unfold standard_bc, neumann, edge_x. cbn [Nat.eqb]. destruct (Rlt_dec 0 cp); destruct Hcase as [H|H]; lra. }
  assert (B21 : forall V, standard_bc 2 2 1 X cp V 2%nat 1%nat = E2).
  { intros V. unfold standard_bc, neumann, edge_x. cbn [Nat.eqb]. rewrite X2.
    destruct (Rlt_dec 0 cp); destruct Hcase as [H|H]; try lra. rewrite Rmax_left; lra. }
  set (V0 := standard_bc 2 2 1 X cp (fun i _ => Rmax (cp * (X i - 1)) 0)).
  assert (Q11 : V0 1%nat 1%nat = 0).
  { unfold V0. rewrite B11, X1. replace (cp * (1 - 1)) with 0 by ring. apply Rmax_left. lra. }
  assert (Q01 : V0 0%nat 1%nat = E0) by apply B01.
  assert (Q21 : V0 2%nat 1%nat = E2) by apply B21.
  (* interpolation *)
  assert (Hb : forall V, bilinear V (2 + 1) (2 + 1) X v 1 (3 / 5) = 3 / 5 * V 1%nat 0%nat + 2 / 5 * V 1%nat 1%nat).
  { intros V. unfold bilinear, cell_w.
    assert (Ei : cell (2 + 1) X 1 = 1%nat).
    { unfold cell. cbn [Nat.add searchsorted]. rewrite X0, X1, X2.
      destruct (Rlt_dec (-2) 1); [|lra]. destruct (Rlt_dec 1 1); [lra|]. destruct (Rlt_dec 4 1); [lra|]. reflexivity. }
    assert (Ej : cell (2 + 1) v (3 / 5) = 1%nat).
    { unfold cell. cbn [Nat.add searchsorted]. rewrite v_0, v_1, v_2.
      destruct (Rlt_dec 0 (3 / 5)); [|lra]. destruct (Rlt_dec (3 / 2) (3 / 5)); [lra|]. destruct (Rlt_dec 3 (3 / 5)); [lra|]. reflexivity. }
    rewrite Ei, Ej. cbn [Nat.sub]. rewrite X0, X1, v_0, v_1.
    replace ((1 - -2) / (1 - -2)) with 1 by field. replace ((3 / 5 - 0) / (3 / 2 - 0)) with (2 / 5) by field.
    rewrite !clip_id by lra. field. }
  rewrite Hb. clear Hb.
  unfold fd_step. cbv zeta. cbn [f_bc sabr_fd f_aS f_bS f_aV f_bV f_gam].
  unfold solve_v at 1. rewrite B10. unfold solve_v. rewrite B11.
  cbn [inner andb Nat.ltb Nat.leb Nat.sub].
  unfold thomas. cbn [Nat.sub th_back th_dp]. unfold v_mid. cbn [Nat.eqb Nat.sub].
  unfold tri_mid, tri_sup, tri_sub, fd_F2. cbn [inner andb Nat.ltb Nat.leb].
  unfold solve_S. rewrite B11. cbn [inner andb Nat.ltb Nat.leb Nat.sub].
  unfold thomas. cbn [Nat.sub th_back th_dp Nat.eqb]. rewrite B01, B21.
  unfold tri_mid, tri_sup, tri_sub. rewrite B11. unfold fd_F0, fd_F1, fd_F2. cbn [inner andb Nat.ltb Nat.leb Nat.add Nat.sub].
  rewrite Q11, Q01, Q21, X1, v_1.
  cbn [b_vov b_rho b_beta cx_p].
  replace (npow 1 (2 * 0)) with 1 by (unfold npow; destruct (Req_EM_T (2 * 0) 0); [reflexivity|lra]).
  replace (npow 1 0) with 1 by (unfold npow; destruct (Req_EM_T 0 0); [reflexivity|lra]).
  field.
Qed.

Lemma sabr_fd_parity_refuted : exists mo p N M L theta K S T,
  0 < b_sigma p /\ b_beta p = 0 /\ (2 <= M)%nat /\ (2 <= L)%nat /\ (1 <= N)%nat /\ 0 < theta <= 1 /\ 0 < T /\ 0 < S /\ 0 < K /\
  sabr_fd_price mo p N M L theta K S T 1 - sabr_fd_price mo p N M L theta K S T (-1)
  <> DF (intr mo) T * (FWD (intr mo) (divr mo) (is_fwd mo) S T - K).
Proof.
  exists cx_m, cx_p, 1%nat, 2%nat, 2%nat, (/ 2), 1, 1, 1.
  split; [cbn; lra|]. split; [reflexivity|]. split; [lia|]. split; [lia|]. split; [lia|]. split; [lra|]. split; [lra|]. split; [lra|]. split; [lra|].
  unfold sabr_fd_price. rewrite fdd_eq.
  assert (EF : mF cx_m 1 1 = 1) by (unfold mF, FWD, cx_m; cbn; rewrite ?Rminus_0_r, ?Rmult_0_l, ?Rmult_0_r, exp_0; ring).
  assert (ED : mD cx_m 1 = 1) by (unfold mD, DF, cx_m; cbn; rewrite ?Rmult_0_l, Ropp_0, exp_0; ring).
  change (FWD (intr cx_m) (divr cx_m) (is_fwd cx_m) 1 1) with (mF cx_m 1 1). change (DF (intr cx_m) 1) with (mD cx_m 1).
  rewrite EF, ED. replace (1 / 1) with 1 by field.
  assert (Ea : sabr_alpha cx_p 1 = 3 / 5).
  { unfold sabr_alpha, npow_s. cbn [b_sigma b_beta cx_p]. destruct (Req_EM_T (1 - 0) 1); [field|lra]. }
  rewrite Ea.
  assert (Eb : sabr_bounds cx_p (3 / 5) 1 1 = (-2, 4, 3)).
  { unfold sabr_bounds. cbn [b_beta b_vov cx_p]. rewrite (Rmax_left 1 0), sqrt_1 by lra. rewrite (Rmax_left 1 1) by lra.
    replace (npow 1 0) with 1 by (unfold npow; destruct (Req_EM_T 0 0); [reflexivity|lra]).
    destruct (Rlt_dec 0 0); [lra|].
    f_equal; [f_equal|].
    - rewrite Rmin_right; lra.
    - rewrite Rmax_left; lra.
    - rewrite (Rmax_right 1 (5 * (3 / 5))) by lra. rewrite Rmax_left; lra. }
  rewrite Eb.
  rewrite (cx_solve 1 0 3) by (left; lra). rewrite (cx_solve (-1) 1 0) by (right; lra). lra.
Qed.

(** Heston: a valid parameter set for which a pivot of the variance sweep vanishes *)
Definition cx_h : svp := mkSv (6 / 5) (2 / 5) 0 (98 / 25) 4.
Lemma heston_pivot_refuted : exists p L N T theta kk,
  0 < v_sigma p /\ 0 < v_vov p /\ 0 < v_mr p /\ 0 < v_theta p /\ (2 <= L)%nat /\ (1 <= N)%nat /\ 0 < T /\ 0 < theta <= 1 /\ 0 < kk /\
  let '(_, _, vmax) := heston_bounds p (v_sigma p) kk T in
  let v := linspace 0 vmax L in let dv := vmax / INR L in let adt := theta * (T / INR N) in
  let c j := f_aV (heston_fd p None) (v j) / dv ^ 2 in let d j := f_bV (heston_fd p None) (v j) / (2 * dv) in
  exists k, (k < L - 1)%nat /\ th_den (tri_sub adt c d) (v_mid L adt c d) (tri_sup adt c d) k = 0.
Proof.
  exists cx_h, 3%nat, 1%nat, (25 / 4), (/ 2), 1.
  split; [cbn; lra|]. split; [cbn; lra|]. split; [cbn; lra|]. split; [cbn; lra|]. split; [lia|]. split; [lia|]. split; [lra|]. split; [lra|]. split; [lra|].
  unfold heston_bounds. cbn [v_sigma v_vov v_mr v_theta cx_h].
  assert (Es : sqrt (Rmax 4 (/ 10 ^ 8) / (2 * Rmax (98 / 25) (/ 10 ^ 8))) = 5 / 7).
  { assert (/ 10 ^ 8 < 1) by (rewrite <- Rinv_1; apply Rinv_lt_contravar; simpl; lra).
    rewrite !Rmax_left by lra. replace (4 / (2 * (98 / 25))) with ((5 / 7) * (5 / 7)) by field. apply sqrt_square. lra. }
  rewrite Es. rewrite (Rmax_left (5 * (6 / 5))) by lra. replace (5 * (6 / 5)) with 6 by field.
  exists 1%nat. split; [lia|]. cbn [f_aV f_bV heston_fd v_vov v_mr v_theta cx_h].
  cbn [th_den th_cp]. unfold v_mid. cbn [Nat.eqb Nat.sub]. unfold tri_sub, tri_sup, tri_mid, linspace.
  simpl INR. field.
Qed.
