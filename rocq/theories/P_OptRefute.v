(** Counterexamples: properties of bsm.py / norm.py / opt_abc.py that the code violates. *)
From Coq Require Import Reals Lra Psatz List Lia.
From Coquelicot Require Import Coquelicot.
From Verif Require Import Base Gauss P_Black Spec_Opt M_Opt M_Numeric P_Bsm P_Norm P_Numeric.
Import ListNotations.
Open Scope R_scope.

Lemma eps_small : eps < / 1000000.
Proof.
  unfold eps. apply Rinv_lt_contravar; [|simpl; lra].
  apply Rmult_lt_0_compat; simpl; lra.
Qed.

Lemma not_derive (f : R -> R) x a b : is_derive f x b -> a <> b -> ~ is_derive f x a.
Proof.
  intros Hb Hab Ha. apply Hab.
  rewrite <- (is_derive_unique f x a Ha). now apply is_derive_unique.
Qed.

Lemma not_derive_n (f : R -> R) n x a b : is_derive_n f (S n) x b -> a <> b -> ~ is_derive_n f (S n) x a.
Proof. simpl. apply not_derive. Qed.

Lemma sqrt_4 : sqrt 4 = 2.
Proof. replace 4 with (2 * 2) by ring. apply sqrt_square. lra. Qed.

(** ATM helper: model with zero rates *)
Definition m0 (s : R) : opt := mkOpt s 0 0 true.
Lemma mF_m0 s S T : mF (m0 s) S T = S. Proof. reflexivity. Qed.
Lemma mD_m0 s T : mD (m0 s) T = 1.
Proof. unfold mD, DF; simpl. replace (- (0 * T)) with 0 by ring. apply exp_0. Qed.

(** vega2 is wrong whenever texp <> 1 *)
Lemma vega2_refuted : exists m K S T cp,
  call_or_put cp /\ 0 < K /\ 0 < S /\ eps < sigma m * sqrt T /\
  ~ is_derive_n (fun u => bsm_price (set_sigma m u) K S T cp) 2 (sigma m) (bsm_vega2 m K S T cp).
Proof.
  exists (m0 1), 1, 1, 4, 1. pose proof eps_small. pose proof eps_pos.
  assert (He : eps < sigma (m0 1) * sqrt 4) by (rewrite sqrt_4; simpl; lra).
  repeat split; try lra; [now left|].
  apply (not_derive_n _ _ _ _ (sqrt 4 * bsm_vega2 (m0 1) 1 1 4 1)).
  - apply bsm_vega2_derive2; try lra. now left.
  - rewrite sqrt_4. unfold bsm_vega2. rewrite fdd_eq, bsm_d1_eq, bsm_d2_eq, sigma_std_big by lra.
    rewrite mF_m0, mD_m0. cbn [sigma m0]. rewrite sqrt_4.
    replace (1 / 1) with 1 by field. rewrite ln_1.
    replace (0 / (1 * 2) + 1 * 2 / 2) with 1 by field. replace (0 / (1 * 2) - 1 * 2 / 2) with (-1) by field.
    pose proof (npdf_pos 1). lra.
Qed.

(** d2_var / d3_var are wrong when spot differs from the forward *)
Definition m_drift : opt := mkOpt 1 1 0 false.
Lemma mF_drift : mF m_drift 1 1 = exp 1.
Proof. unfold mF, FWD; simpl. rewrite Rmult_1_l. f_equal. ring. Qed.
Lemma exp1_gt : 1 < exp 1.
Proof. apply exp_ineq1 in Rlt_0_1 as H || idtac. pose proof (exp_ineq1 1 ltac:(lra)). lra. Qed.

Lemma drift_floor : eps < sigma m_drift * sqrt 1.
Proof. rewrite sqrt_1. simpl. pose proof eps_small. lra. Qed.

Lemma d2_var_refuted : exists m K S T cp,
  call_or_put cp /\ 0 < K /\ 0 < S /\ 0 < sigma m /\ eps < sigma m * sqrt T /\
  ~ is_derive_n (price_of_var m K S T cp) 2 (sigma m ^ 2) (bsm_d2_var m K S T cp).
Proof.
  exists m_drift, (exp 1), 1, 1, 1. pose proof exp1_gt as He1. pose proof drift_floor as He.
  repeat split; try lra; try (now left); try (simpl; lra).
  apply (not_derive_n _ _ _ _ (mF m_drift 1 1 / 1 * bsm_d2_var m_drift (exp 1) 1 1 1)).
  - apply bsm_d2_var_derive; try lra; [now left | simpl; lra].
  - rewrite mF_drift. unfold bsm_d2_var. rewrite fdd_eq, bsm_d1_eq, bsm_d2_eq, sigma_std_big by lra.
    rewrite mF_drift. replace (exp 1 / exp 1) with 1 by (field; lra). rewrite ln_1, sqrt_1.
    cbn [sigma m_drift].
    replace (0 / (1 * 1) + 1 * 1 / 2) with (/ 2) by field. replace (0 / (1 * 1) - 1 * 1 / 2) with (- / 2) by field.
    pose proof (npdf_pos (/ 2)) as Hn. pose proof (mD_pos m_drift 1) as HD.
    replace (mD m_drift 1 * 1 * 1 * npdf (/ 2) * (/ 2 * - / 2 - 1) / (4 * 1 ^ 3))
      with (- (mD m_drift 1 * npdf (/ 2)) * (5 / 16)) by field.
    assert (0 < mD m_drift 1 * npdf (/ 2)) by (apply Rmult_lt_0_compat; assumption).
    set (x := mD m_drift 1 * npdf (/ 2)) in *. unfold Rdiv. rewrite Rinv_1. nra.
Qed.

Lemma d3_var_refuted : exists m K S T cp,
  call_or_put cp /\ 0 < K /\ 0 < S /\ 0 < sigma m /\ eps < sigma m * sqrt T /\
  ~ is_derive_n (price_of_var m K S T cp) 3 (sigma m ^ 2) (bsm_d3_var m K S T cp).
Proof.
  exists m_drift, (exp 1), 1, 1, 1. pose proof exp1_gt as He1. pose proof drift_floor as He.
  repeat split; try lra; try (now left); try (simpl; lra).
  apply (not_derive_n _ _ _ _ (mF m_drift 1 1 / 1 * bsm_d3_var m_drift (exp 1) 1 1 1)).
  - apply bsm_d3_var_derive; try lra; [now left | simpl; lra].
  - rewrite mF_drift. unfold bsm_d3_var. rewrite fdd_eq, bsm_d1_eq, bsm_d2_eq, sigma_std_big by lra.
    rewrite mF_drift. replace (exp 1 / exp 1) with 1 by (field; lra). rewrite ln_1, sqrt_1.
    cbn [sigma m_drift].
    replace (0 / (1 * 1) + 1 * 1 / 2) with (/ 2) by field. replace (0 / (1 * 1) - 1 * 1 / 2) with (- / 2) by field.
    pose proof (npdf_pos (/ 2)) as Hn. pose proof (mD_pos m_drift 1) as HD.
    match goal with |- ?a <> _ => replace a with (mD m_drift 1 * npdf (/ 2) * (57 / 128)) by field end.
    assert (0 < mD m_drift 1 * npdf (/ 2)) by (apply Rmult_lt_0_compat; assumption).
    set (x := mD m_drift 1 * npdf (/ 2)) in *. unfold Rdiv. rewrite Rinv_1. nra.
Qed.

(** Norm: at expiry the in-the-money price is 0, so parity and the lower bound fail *)
Lemma norm_expiry_refuted : exists m K S T,
  0 < sigma m /\ 0 <= T /\
  norm_price m K S T 1 - norm_price m K S T (-1) <> DF (intr m) T * (FWD (intr m) (divr m) (is_fwd m) S T - K) /\
  norm_price m K S T 1 < DF (intr m) T * payoff 1 K (FWD (intr m) (divr m) (is_fwd m) S T).
Proof.
  exists (mkOpt 20 0 0 false), 90, 100, 0.
  rewrite !norm_price_expiry by (simpl; rewrite sqrt_0; ring).
  unfold DF, FWD, payoff. simpl. rewrite !Rmult_0_r, Ropp_0, exp_0.
  repeat split; try lra. rewrite Rmax_left; lra.
Qed.

(** Norm.theta is wrong with a dividend yield, and wrong with is_fwd and a rate *)
Lemma norm_theta_refuted_divr : exists m K S T cp,
  call_or_put cp /\ eps < sigma m * sqrt T /\ is_fwd m = false /\
  ~ is_derive (fun t => norm_price m K S t cp) T (- norm_theta m K S T cp).
Proof.
  exists (mkOpt 1 0 1 false), 1, 1, 1, 1. pose proof eps_small.
  assert (He : eps < sigma (mkOpt 1 0 1 false) * sqrt 1) by (rewrite sqrt_1; simpl; lra).
  repeat split; try exact He; [now left|].
  eapply not_derive; [apply norm_theta_derive; [now left | exact He]|].
  unfold norm_theta_true. set (m := mkOpt 1 0 1 false) in *.
  pose proof (Phi_pos (1 * ((mF m 1 1 - 1) / (sigma m * sqrt 1)))) as HP.
  pose proof (mD_pos m 1) as HD. pose proof (mF_pos m 1 1 ltac:(lra)) as HF.
  cbn [is_fwd m divr].
  set (P := Phi (1 * ((mF m 1 1 - 1) / (sigma m * sqrt 1)))) in *.
  assert (0 < mD m 1 * mF m 1 1 * P) by (apply Rmult_lt_0_compat; [apply Rmult_lt_0_compat|]; assumption).
  lra.
Qed.

Lemma norm_theta_refuted_fwd : exists m K S T cp,
  call_or_put cp /\ eps < sigma m * sqrt T /\ is_fwd m = true /\ divr m = 0 /\
  ~ is_derive (fun t => norm_price m K S t cp) T (- norm_theta m K S T cp).
Proof.
  exists (mkOpt 1 1 0 true), 1, 1, 1, 1. pose proof eps_small.
  assert (He : eps < sigma (mkOpt 1 1 0 true) * sqrt 1) by (rewrite sqrt_1; simpl; lra).
  repeat split; try exact He; [now left|].
  eapply not_derive; [apply norm_theta_derive; [now left | exact He]|].
  unfold norm_theta_true. set (m := mkOpt 1 1 0 true) in *.
  pose proof (Phi_pos (1 * ((mF m 1 1 - 1) / (sigma m * sqrt 1)))) as HP.
  pose proof (mD_pos m 1) as HD. pose proof (mF_pos m 1 1 ltac:(lra)) as HF.
  cbn [is_fwd m intr].
  set (P := Phi (1 * ((mF m 1 1 - 1) / (sigma m * sqrt 1)))) in *.
  assert (0 < mD m 1 * mF m 1 1 * P) by (apply Rmult_lt_0_compat; [apply Rmult_lt_0_compat|]; assumption).
  lra.
Qed.

(** Norm.price_binary: an asset-or-nothing put is quoted negative *)
Lemma norm_binary_refuted : exists m K S T,
  eps <= sigma m * sqrt T /\ 0 < K /\ 0 < S /\ norm_price_binary m K S T (-1) true < 0.
Proof.
  exists (mkOpt 1 0 0 true), 2, 2, 1. pose proof eps_small. rewrite sqrt_1. simpl. repeat split; try lra.
  unfold norm_price_binary. rewrite fdd_eq.
  change (mF {| sigma := 1; intr := 0; divr := 0; is_fwd := true |} 2 1) with 2.
  replace (mD {| sigma := 1; intr := 0; divr := 0; is_fwd := true |} 1) with 1
    by (unfold mD, DF; simpl; replace (- (0 * 1)) with 0 by ring; now rewrite exp_0).
  cbn [sigma]. rewrite sqrt_1.
  replace ((2 - 2) / Rmax (1 * 1) eps) with 0 by (unfold Rdiv; ring).
  replace (-1 * 0) with 0 by ring. rewrite Phi_0.
  assert (npdf 0 < 1).
  { unfold npdf. replace (- (0 * 0) / 2) with 0 by field. rewrite exp_0.
    assert (1 < sqrt (2 * PI)).
    { rewrite <- sqrt_1 at 1. apply sqrt_lt_1; pose proof PI2_1; lra. }
    apply (Rmult_lt_reg_r (sqrt (2 * PI))); [lra|]. unfold Rdiv. rewrite Rmult_assoc, Rinv_l; lra. }
  lra.
Qed.

(** ** BsmDisp *)
Definition dm : dispo := mkDisp 1 (/ 2) 0 0 0 true.

Lemma dm_vega_half K S T cp : bsm_vega (disp_base dm) (K / 2) (S / 2) T cp = bsm_vega (disp_base dm) K S T cp / 2.
Proof.
  unfold bsm_vega. rewrite !fdd_eq, !bsm_d1_eq.
  change (mF (disp_base dm) (S / 2) T) with (S / 2). change (mF (disp_base dm) S T) with S.
  replace (S / 2 / (K / 2)) with (S / K).
  2:{ destruct (Req_dec K 0) as [->|HK]; [unfold Rdiv; rewrite ?Rmult_0_l, ?Rinv_0, ?Rmult_0_r; ring | field; lra]. }
  field.
Qed.

Lemma disp_theta_refuted : exists m K S T cp,
  call_or_put cp /\ 0 < d_beta m < 1 /\ d_isf m = true /\ d_intr m = 0 /\
  0 < disp_strike m K T /\ 0 < disp_spot m S /\ eps < d_sigma m * d_beta m * sqrt T /\
  ~ is_derive (fun t => disp_price m K S t cp) T (- disp_theta m K S T cp).
Proof.
  exists dm, 1, 1, 1, 1. pose proof eps_small as Hes.
  assert (Esp : forall x, disp_spot dm x = x / 2) by (intros; unfold disp_spot; simpl; field).
  assert (Est : forall k t, disp_strike dm k t = k / 2) by (intros; unfold disp_strike, forward; simpl; field).
  assert (He : eps < sigma (disp_base dm) * sqrt 1) by (rewrite sqrt_1; simpl; lra).
  rewrite Esp, Est. repeat split; try (simpl; lra); [now left | rewrite sqrt_1; simpl; lra |].
  pose proof (bsm_theta_derive (disp_base dm) (1 / 2) (1 / 2) 1 1 ltac:(now left) ltac:(lra) ltac:(lra) He) as H.
  apply (is_derive_scal_R _ (1 / d_beta dm)) in H.
  apply (not_derive _ _ _ (1 / d_beta dm * - bsm_theta (disp_base dm) (1 / 2) (1 / 2) 1 1)).
  { eapply is_derive_ext; [|exact H]. intros t. unfold disp_price. now rewrite Esp, Est. }
  unfold disp_theta, bsm_theta, disp_price, disp_delta, disp_vega.
  cbn [d_isf dm disp_base is_fwd d_intr intr d_sigma d_beta sigma].
  rewrite !Esp, !Est. fold dm. change (mkOpt (1 * / 2) 0 (d_divr dm) true) with (disp_base dm).
  rewrite dm_vega_half.
  assert (Hv : 0 < bsm_vega (disp_base dm) (1 / 2) (1 / 2) 1 1).
  { unfold bsm_vega. rewrite fdd_eq. rewrite sqrt_1.
    pose proof (mD_pos (disp_base dm) 1). pose proof (mF_pos (disp_base dm) (1 / 2) 1 ltac:(lra)).
    pose proof (npdf_pos (bsm_d1 (disp_base dm) (1 / 2) (mF (disp_base dm) (1 / 2) 1) 1)).
    apply Rmult_lt_0_compat; [|lra]. apply Rmult_lt_0_compat; [|assumption].
    apply Rmult_lt_0_compat; assumption. }
  change {| sigma := 1 * / 2; intr := 0; divr := d_divr dm; is_fwd := true |} with (disp_base dm) in *.
  lra.
Qed.
