From Coq Require Import Reals Lra Lia List Psatz.
From Coquelicot Require Import Coquelicot.
From Verif Require Import Base Gauss M_Opt M_Mgf M_Heston M_Ou M_Garch Spec_Opt P_Bsm P_Cir P_Cev P_Ou P_Garch P_Garch3.
Open Scope R_scope.

Lemma pos_from_0 (f f' : R -> R) : f 0 = 0 -> (forall t, is_derive f t (f' t)) -> f' 0 = 0 -> (forall t, 0 < t -> 0 < f' t) -> forall t, 0 < t -> 0 < f t.
Proof.
  intros H0 HD HZ HP t Ht. rewrite <- H0. apply Rle_lt_trans with (f (t / 2)).
  - apply (nondecreasing_on f f'); [lra|intros; apply HD|]. intros z Hz. destruct (Rle_lt_or_eq_dec 0 z (proj1 Hz)) as [L|L]; [left; apply HP; exact L|subst z; lra].
  - apply (increasing_on f f'); [lra|intros; apply HD|]. intros z Hz. apply HP. lra.
Qed.
Lemma emx_pos x : 0 < x -> 0 < 1 - 2 * x * exp (- x) - exp (- x) ^ 2.
Proof.
  apply (pos_from_0 (fun x => 1 - 2 * x * exp (- x) - exp (- x) ^ 2) (fun x => 2 * exp (- x) * (x - 1 + exp (- x)))).
  - rewrite Ropp_0, exp_0. ring.
  - intros t. auto_derive; [trivial|]. Req. ring.
  - rewrite Ropp_0, exp_0. ring.
  - intros t Ht. apply Rmult_lt_0_compat; [apply Rmult_lt_0_compat; [lra|apply exp_pos]|]. pose proof (exp_ineq1 (- t) ltac:(lra)). lra.
Qed.
Lemma emA_pos x : 0 < x -> 0 < x + 2 * x * exp (- x) - (1 - exp (- x)) * (5 + exp (- x)) / 2.
Proof.
  apply (pos_from_0 (fun x => x + 2 * x * exp (- x) - (1 - exp (- x)) * (5 + exp (- x)) / 2) (fun x => 1 - 2 * x * exp (- x) - exp (- x) ^ 2)).
  - rewrite Ropp_0, exp_0. field.
  - intros t. auto_derive; [trivial|]. Req. field.
  - rewrite Ropp_0, exp_0. ring.
  - exact emx_pos.
Qed.
Lemma cir_avg_var_pos c t v : c_xi c <> 0 -> 0 < c_mr c -> 0 < c_theta c -> 0 < v -> 0 < t -> 0 < cir_avg_var c t v.
Proof.
  destruct c as [xi k th]. cbn [c_xi c_mr c_theta]. intros Hx Hk Hth Hv Ht.
  apply (Rmult_lt_reg_l (t ^ 2)); [apply pow_lt; exact Ht|]. rewrite Rmult_0_r, (cir_avg_var_eq k th xi ltac:(lra)) by lra.
  unfold wJ. cbv zeta. assert (Hx0 : 0 < k * t) by (apply Rmult_lt_0_compat; assumption). set (x := k * t) in *.
  pose proof (emx_pos x Hx0) as P1. pose proof (emA_pos x Hx0) as P2. set (e := exp (- x)) in *.
  replace (xi ^ 2 / k ^ 2 * ((th - 2 * (v - th) * e) * t + (v - 5 / 2 * th + (v - th / 2) * e) * (1 - e) / k))
    with (xi ^ 2 / k ^ 2 / k * (th * (x + 2 * x * e - (1 - e) * (5 + e) / 2) + v * (1 - 2 * x * e - e ^ 2))) by (unfold x; field; lra).
  apply Rmult_lt_0_compat.
  - apply Rdiv_lt_0_compat; [|exact Hk]. apply Rdiv_lt_0_compat; [apply pow2_gt_0; exact Hx|apply pow_lt; exact Hk].
  - apply Rplus_lt_0_compat; apply Rmult_lt_0_compat; assumption.
Qed.
Section GarchPos.
Variables (k th xi : R).
Hypothesis (Hk : 0 < k) (Hth : 0 < th) (Hx : xi <> 0) (H1 : xi * xi <> k) (H2 : xi * xi <> 2 * k).
Let A (t : R) : R := gWvv k xi t / 2.
Let B (t : R) : R := gWv k th xi t 0.
Let C (t : R) : R := gW k th xi t 0.
Let Hk0 : k <> 0 := Rgt_not_eq k 0 Hk.
Let n1 : xi * xi - k <> 0 := gw_a1 k xi H1.
Let n2 : xi * xi - 2 * k <> 0 := gw_a2 k xi H2.
Lemma gA_pos t : 0 < t -> 0 < A t.
Proof using Hk Hx H1 H2 Hk0 n1 n2.
  intros Ht. apply (Rmult_lt_reg_r (exp (- ((xi * xi - 2 * k) * t)))); [apply exp_pos|]. rewrite Rmult_0_l.
  apply (pos_from_0 (fun t => A t * exp (- ((xi * xi - 2 * k) * t))) (fun t => xi ^ 2 * gm1 k t ^ 2 * exp (- ((xi * xi - 2 * k) * t)))); [| | | |exact Ht].
  - unfold A, gWvv. rewrite !Rmult_0_r, Ropp_0, exp_0. field. auto.
  - intros s. unfold A, gWvv, gm1. auto_derive; [trivial|]. Req.
    replace (exp (- ((xi * xi - 2 * k) * s))) with (/ exp ((xi * xi - 2 * k) * s)) by (rewrite exp_Ropp; reflexivity).
    pose proof (exp_pos ((xi * xi - 2 * k) * s)). set (E := exp ((xi * xi - 2 * k) * s)) in *. clearbody E.
    set (e := exp (- (k * s))). clearbody e. field. repeat split; auto. lra.
  - unfold gm1. rewrite !Rmult_0_r, Ropp_0, exp_0. field. exact Hk0.
  - intros s Hs. apply Rmult_lt_0_compat; [|apply exp_pos]. apply Rmult_lt_0_compat; [apply pow2_gt_0; exact Hx|]. apply pow2_gt_0.
    unfold gm1. apply Rmult_integral_contrapositive. split; [|apply Rinv_neq_0_compat; exact Hk0].
    assert (exp (- (k * s)) < 1). { rewrite <- exp_0. apply exp_increasing. assert (0 < k * s) by (apply Rmult_lt_0_compat; assumption). lra. } lra.
Qed.
Lemma gB_pos t : 0 < t -> 0 < B t.
Proof using Hk Hth Hx H1 H2 Hk0 n1 n2.
  intros Ht. apply (Rmult_lt_reg_r (exp (k * t))); [apply exp_pos|]. rewrite Rmult_0_l.
  apply (pos_from_0 (fun t => B t * exp (k * t)) (fun t => 2 * k * th * A t * exp (k * t))); [| | | |exact Ht].
  - unfold B, gWv. rewrite !Rmult_0_r, Ropp_0, exp_0. field. auto.
  - intros s. unfold B, A, gWv, gWvv. auto_derive; [trivial|]. Req.
    replace (exp (- (k * s))) with (/ exp (k * s)) by (rewrite exp_Ropp; reflexivity).
    pose proof (exp_pos (k * s)). set (e := exp (k * s)) in *. clearbody e. set (E := exp ((xi * xi - 2 * k) * s)) in *. clearbody E.
    field. repeat split; auto. lra.
  - unfold A, gWvv. rewrite !Rmult_0_r, Ropp_0, exp_0. field. auto.
  - intros s Hs. pose proof (gA_pos s Hs). apply Rmult_lt_0_compat; [|apply exp_pos]. apply Rmult_lt_0_compat; [|exact H]. apply Rmult_lt_0_compat; [lra|exact Hth].
Qed.
Lemma gC_pos t : 0 < t -> 0 < C t.
Proof using Hk Hth Hx H1 H2 Hk0 n1 n2.
  intros Ht. apply (pos_from_0 C (fun t => k * th * B t)); [| | | |exact Ht].
  - unfold C. apply gW_0; assumption.
  - intros s. pose proof (gW_t k th xi Hk0 H1 H2 s 0) as D. rewrite (gW_ode k th xi Hk0 H1 H2) in D.
    replace (k * (th - 0) * gWv k th xi s 0 + xi ^ 2 / 2 * 0 ^ 2 * (gWvv k xi s + 2 * gm1 k s ^ 2)) with (k * th * B s) in D by (unfold B; ring). exact D.
  - unfold B, gWv. rewrite !Rmult_0_r, Ropp_0, exp_0. field. auto.
  - intros s Hs. apply Rmult_lt_0_compat; [apply Rmult_lt_0_compat; assumption|apply gB_pos; exact Hs].
Qed.
Lemma gW_quad t v : gW k th xi t v = A t * v ^ 2 + B t * v + C t.
Proof using Hk Hk0 n1 n2.
  unfold A, B, C, gW, gWv, gWvv. set (E := exp ((xi * xi - 2 * k) * t)). set (e := exp (- (k * t))). clearbody e E. field. auto.
Qed.
Lemma gW_pos t v : 0 < t -> 0 < v -> 0 < gW k th xi t v.
Proof using Hk Hth Hx H1 H2 Hk0 n1 n2.
  intros Ht Hv. rewrite gW_quad. pose proof (gA_pos t Ht). pose proof (gB_pos t Ht). pose proof (gC_pos t Ht).
  clearbody A B C. pose proof (Rmult_lt_0_compat _ _ H0 Hv). pose proof (Rmult_lt_0_compat _ _ H (pow_lt v 2 Hv)). lra.
Qed.
End GarchPos.
Lemma garch_var_pos s0 xi rho k th t v : 0 < k -> 0 < th -> xi <> 0 -> xi ^ 2 <> k -> xi ^ 2 <> 2 * k -> 0 < t -> 0 < v ->
  0 < snd (garch_avgvar_mv (mkSv s0 xi rho k th) t v).
Proof.
  intros Hk Hth Hx H1 H2 Ht Hv. replace (xi ^ 2) with (xi * xi) in H1, H2 by ring.
  rewrite gW_eq by (try assumption; lra). apply Rdiv_lt_0_compat; [apply gW_pos; assumption|apply pow_lt; exact Ht].
Qed.
(** the coded expansion is the Taylor expansion only at spot = forward *)
Lemma d2_atmf r q M S T cp : 0 < S -> 0 < M -> eps < sqrt M * sqrt T ->
  bsm_d2_var (mkOpt (sqrt M) r q false) (FWD r q false S T) S T cp < 0.
Proof.
  intros HS HM He. pose proof (F_pos r q S T HS) as HF. unfold bsm_d2_var. rewrite fdd_eq. cbn [sigma intr divr is_fwd].
  change (mF (mkOpt (sqrt M) r q false) S T) with (FWD r q false S T). unfold bsm_d1, bsm_d2. cbn [sigma].
  assert (L : ln (FWD r q false S T / FWD r q false S T) = 0). { unfold Rdiv. rewrite Rinv_r by lra. apply ln_1. } rewrite !L.
  pose proof (sqrt_lt_R0 M HM). set (s := sigma_std (sqrt M) T).
  replace ((0 / s + / 2 * s) * (0 / s - / 2 * s) - 1) with (- (s ^ 2 / 4 + 1)) by (unfold Rdiv; rewrite Rmult_0_l; field).
  replace (0 / s + / 2 * s) with (/ 2 * s) by (unfold Rdiv; ring).
  assert (ST : 0 < sqrt T). { apply Rnot_le_lt. intros C. pose proof (sqrt_pos T). assert (sqrt T = 0) by lra. rewrite H1, Rmult_0_r in He. pose proof eps_pos. lra. }
  assert (0 < s ^ 2 / 4 + 1). { pose proof (pow2_ge_0 s). lra. }
  assert (0 < mD (mkOpt (sqrt M) r q false) T) by apply mD_pos.
  pose proof (npdf_pos (/ 2 * s)).
  match goal with |- ?x < 0 => replace x with (- (mD (mkOpt (sqrt M) r q false) T * S * sqrt T * npdf (/ 2 * s) * (s ^ 2 / 4 + 1) / (4 * sqrt M ^ 3))) by (unfold Rdiv; ring) end.
  apply Ropp_lt_gt_0_contravar. apply Rdiv_lt_0_compat; [do 4 (apply Rmult_lt_0_compat; [|assumption]); assumption|]. apply Rmult_lt_0_compat; [lra|apply pow_lt; assumption].
Qed.
Lemma heston_taylor_refuted m p S T cp D : call_or_put cp -> 0 < S -> 0 < T -> intr m <> divr m ->
  v_vov p <> 0 -> 0 < v_mr p -> 0 < v_theta p -> 0 < v_sigma p ->
  let c := heston_cir p in let M := cir_avg_mean c T (v_sigma p) in let K := FWD (intr m) (divr m) false S T in
  0 < M -> eps < sqrt M * sqrt T -> is_derive_n (bsv m K S T cp) 2 M D ->
  heston_uncorr_price m p 2 K S T cp <> bsv m K S T cp M + / 2 * cir_avg_var c T (v_sigma p) * D.
Proof.
  intros Hcp HS HT Hr Hx Hk Hth Hv c M K HM He HD E.
  pose proof (F_pos (intr m) (divr m) S T HS) as HF.
  pose proof (uncorr_d2 (intr m) (divr m) M K S T cp Hcp HF HS HM He) as D2. cbv zeta in D2.
  assert (U : D = K / S * bsm_d2_var (mkOpt (sqrt M) (intr m) (divr m) false) K S T cp).
  { rewrite <- (is_derive_n_unique _ _ _ _ HD). symmetry. symmetry. exact (is_derive_n_unique _ _ _ _ D2). }
  pose proof (d2_atmf (intr m) (divr m) M S T cp HS HM He) as N. fold K in N.
  pose proof (cir_avg_var_pos c T (v_sigma p) Hx Hk Hth Hv HT) as PV.
  unfold heston_uncorr_price in E. cbn [Nat.leb] in E. cbv zeta in E. fold c M in E. unfold bsv in E. rewrite U in E.
  set (d := bsm_d2_var _ _ _ _ _) in *. set (V := cir_avg_var _ _ _) in *. clearbody d V.
  assert (E1 : V * d * (1 - K / S) = 0) by nra. apply Rmult_integral in E1. destruct E1 as [E1|E1].
  - apply Rmult_integral in E1. lra.
  - apply Hr. assert (E2 : K / S = 1) by lra. unfold K, FWD in E2. cbn in E2.
    replace (S * exp ((intr m - divr m) * T) / S) with (exp ((intr m - divr m) * T)) in E2 by (field; lra).
    rewrite <- exp_0 in E2. apply exp_inv in E2. apply Rmult_integral in E2. lra.
Qed.
