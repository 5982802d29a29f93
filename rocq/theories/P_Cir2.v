(** Transforms, transition law, composition, Euler step and variance swap for the CIR / Heston model. *)
From Coq Require Import Reals Lra Lia List Psatz.
From Coquelicot Require Import Coquelicot.
From Verif Require Import Base Gauss Sums M_Opt M_Mgf P_Mgf P_MgfOde M_Heston Spec_Sde Spec_Expect P_Expect P_Gmom P_Cir.
Open Scope R_scope.

(** exponential-affine functions *)
Lemma affine_backward (k th xi rho a u b0 : R) (A B : R -> R) :
  A 0 = 0 -> B 0 = b0 ->
  (forall t, 0 <= t -> is_derive A t (k * th * B t)) ->
  (forall t, 0 <= t -> is_derive B t (/ 2 * (a ^ 2 - a) - (k - rho * xi * a) * B t + / 2 * xi ^ 2 * B t ^ 2 + u)) ->
  expectation_of k th xi rho (fun x v j => exp (a * x + b0 * v + u * j)) (fun t x v j => exp (A t + B t * v + a * x + u * j)).
Proof.
  intros HA0 HB0 HA HB. split. { intros. rewrite HA0, HB0. f_equal. ring. }
  exists (fun t x v j => (k * th * B t + (/ 2 * (a ^ 2 - a) - (k - rho * xi * a) * B t + / 2 * xi ^ 2 * B t ^ 2 + u) * v) * exp (A t + B t * v + a * x + u * j)),
   (fun t x v j => a * exp (A t + B t * v + a * x + u * j)), (fun t x v j => a * (a * exp (A t + B t * v + a * x + u * j))),
   (fun t x v j => B t * exp (A t + B t * v + a * x + u * j)), (fun t x v j => B t * (B t * exp (A t + B t * v + a * x + u * j))),
   (fun t x v j => a * (B t * exp (A t + B t * v + a * x + u * j))), (fun t x v j => u * exp (A t + B t * v + a * x + u * j)).
  intros t x v j Ht. cbv beta. specialize (HA t Ht). specialize (HB t Ht).
  split.
  { set (dA := k * th * B t) in *. set (dB := / 2 * (a ^ 2 - a) - (k - rho * xi * a) * B t + / 2 * xi ^ 2 * B t ^ 2 + u) in *.
    auto_derive. { repeat split; [exists dA; exact HA|exists dB; exact HB]. }
    replace (Derive (fun x0 => A x0) t) with dA by (symmetry; exact (is_derive_unique _ _ _ HA)).
    replace (Derive (fun x0 => B x0) t) with dB by (symmetry; exact (is_derive_unique _ _ _ HB)). Req. ring. }
  clear HA HB. generalize (B t) (A t). intros Bt At.
  split; [auto_derive; [trivial|Req; ring]|]. split; [auto_derive; [trivial|Req; ring]|]. split; [auto_derive; [trivial|Req; ring]|].
  split; [auto_derive; [trivial|Req; ring]|]. split; [auto_derive; [trivial|Req; ring]|]. split; [auto_derive; [trivial|Req; ring]|].
  field.
Qed.

Lemma expectation_ext k th xi rho g g' f f' : (forall x v j, g x v j = g' x v j) -> (forall t x v j, f t x v j = f' t x v j) ->
  expectation_of k th xi rho g f -> expectation_of k th xi rho g' f'.
Proof.
  intros Eg Ef [H0 (ft & fx & fxx & fv & fvv & fxv & fj & H)]. split. { intros. now rewrite <- Ef, H0, Eg. }
  exists ft, fx, fxx, fv, fvv, fxv, fj. intros t x v j Ht. destruct (H t x v j Ht) as (X1 & X2 & X3 & X4 & X5 & X6 & X7 & X8).
  split; [eapply is_derive_ext; [|exact X1]; intros; apply Ef|].
  split; [eapply is_derive_ext; [|exact X2]; intros; apply Ef|]. split; [exact X3|].
  split; [eapply is_derive_ext; [|exact X4]; intros; apply Ef|]. split; [exact X5|]. split; [exact X6|].
  split; [eapply is_derive_ext; [|exact X7]; intros; apply Ef|exact X8].
Qed.

(** ** integrated-variance transform *)
Section LogMgf.
Variables (k th xi u : R).
Hypothesis (Hk : 0 < k) (Hxi : xi <> 0) (Hu : 2 * u * xi ^ 2 < k ^ 2).
Let c := mkCir xi k th.
Let g := sqrt (k ^ 2 - 2 * u * xi ^ 2).
Definition lmB (t : R) : R := 2 * u * (exp (g * t) - 1) / (2 * g + (k + g) * (exp (g * t) - 1)).
Definition lmA (t : R) : R := k * th / xi ^ 2 * ((k + g) * t - 2 * ln (1 + (k + g) / (2 * g) * (exp (g * t) - 1))).
Lemma lm_eq t v : cir_log_mgf c u t v = lmA t + lmB t * v. Proof. reflexivity. Qed.
Lemma g_pos : 0 < g. Proof. apply sqrt_lt_R0. lra. Qed.
Lemma g_sq : g ^ 2 = k ^ 2 - 2 * u * xi ^ 2. Proof. apply pow2_sqrt. lra. Qed.
Lemma lm_den t : 0 <= t -> 0 < 2 * g + (k + g) * (exp (g * t) - 1).
Proof.
  intros Ht. pose proof g_pos. assert (1 <= exp (g * t)). { rewrite <- exp_0 at 1. apply exp_le. nra. }
  assert (0 <= (k + g) * (exp (g * t) - 1)) by (apply Rmult_le_pos; lra). lra.
Qed.
Lemma lmB_ode t : 0 <= t -> is_derive lmB t (u - k * lmB t + / 2 * xi ^ 2 * lmB t ^ 2).
Proof.
  intros Ht. pose proof (lm_den t Ht) as D. pose proof g_pos. pose proof g_sq as G. unfold lmB. auto_derive; [lra|]. Req.
  set (e := exp (g * t)) in *.
  assert (EU : u = (k ^ 2 - g ^ 2) / (2 * xi ^ 2)) by (rewrite G; field; auto). rewrite EU. field. repeat split; try lra; auto.
Qed.
Lemma lmA_ode t : 0 <= t -> is_derive lmA t (k * th * lmB t).
Proof.
  intros Ht. pose proof (lm_den t Ht) as D. pose proof g_pos. pose proof g_sq as G. unfold lmA, lmB.
  assert (P : 0 < 1 + (k + g) / (2 * g) * (exp (g * t) - 1)).
  { replace (1 + (k + g) / (2 * g) * (exp (g * t) - 1)) with ((2 * g + (k + g) * (exp (g * t) - 1)) / (2 * g)) by (field; lra).
    apply Rdiv_lt_0_compat; lra. }
  auto_derive; [exact P|]. Req. set (e := exp (g * t)) in *.
  assert (EU : u = (k ^ 2 - g ^ 2) / (2 * xi ^ 2)) by (rewrite G; field; auto). rewrite EU.
  field. repeat split; try lra; auto.
Qed.
Lemma log_mgf_expect rho : expectation_of k th xi rho (fun x v j => exp (u * j)) (fun t x v j => exp (cir_log_mgf c u t v + u * j)).
Proof.
  pose proof g_pos.
  assert (X : expectation_of k th xi rho (fun x v j => exp (0 * x + 0 * v + u * j)) (fun t x v j => exp (lmA t + lmB t * v + 0 * x + u * j))).
  { apply (affine_backward k th xi rho 0 u 0 lmA lmB).
    - unfold lmA. rewrite (Rmult_0_r g), exp_0. replace (1 + (k + g) / (2 * g) * (1 - 1)) with 1 by ring. rewrite ln_1. ring.
    - unfold lmB. rewrite (Rmult_0_r g), exp_0. unfold Rdiv. ring.
    - exact lmA_ode.
    - intros t Ht. eapply is_derive_eq; [apply (lmB_ode t Ht)|]. field. }
  eapply expectation_ext; [| |exact X]; intros; cbv beta; rewrite ?lm_eq; f_equal; ring.
Qed.
End LogMgf.

(** ** transition law: transform of the scaled non-central chi-square draw *)
(** mean of exp(u V) for V = scale * chi'^2(df, nonc), heston.py:104-106 *)
Definition ncx2_mgf (scale df nonc u : R) : R := exp (- (df / 2) * ln (1 - 2 * scale * u) + nonc * scale * u / (1 - 2 * scale * u)).
Section Transition.
Variables (k th xi u : R).
Hypothesis (Hk : 0 < k) (Hxi : xi <> 0) (Hu : u <= 0).
Let c := mkCir xi k th.
Definition alph (t : R) : R := xi ^ 2 * (1 - exp (- (k * t))) / (4 * k).
Lemma alph_eq t : 0 < t -> cir_exp_h c t / cir_phi c t = alph t.
Proof.
  intros Ht. unfold cir_phi, cir_exp_h, alph, c; cbn [c_xi c_mr c_theta].
  replace (- (k * t)) with (- (k * t / 2) + - (k * t / 2)) by field. rewrite exp_plus. set (h := exp (- (k * t / 2))).
  assert (Hh : 0 < h < 1). { split; [apply exp_pos|]. apply exp_lt_1. assert (0 < k * t) by now apply Rmult_lt_0_compat. lra. }
  field. repeat split; try lra; auto. nra.
Qed.
Lemma alph_nonneg t : 0 <= t -> 0 <= alph t.
Proof.
  intros Ht. unfold alph. assert (exp (- (k * t)) <= 1). { rewrite <- exp_0. apply exp_le. nra. }
  apply Rmult_le_pos; [apply Rmult_le_pos; [apply pow2_ge_0|lra]|]. left. apply Rinv_0_lt_compat. lra.
Qed.
Definition trB (t : R) : R := u * exp (- (k * t)) / (1 - 2 * alph t * u).
Definition trA (t : R) : R := - (2 * k * th / xi ^ 2) * ln (1 - 2 * alph t * u).
Lemma tr_den t : 0 <= t -> 0 < 1 - 2 * alph t * u.
Proof. intros Ht. pose proof (alph_nonneg t Ht). nra. Qed.
Lemma trA_ode t : 0 <= t -> is_derive trA t (k * th * trB t).
Proof.
  intros Ht. pose proof (tr_den t Ht) as D. unfold trA, trB. unfold alph in *. auto_derive. { unfold Rdiv in D. rewrite ?Rmult_assoc in *. unfold Rminus in D. lra. }
  Req. unfold Rdiv, Rminus in *. set (e := exp _) in *.
  assert (D2 : 0 < 4 * k + - (2 * (xi ^ 2 * (1 + - e)) * u)).
  { replace (4 * k + - (2 * (xi ^ 2 * (1 + - e)) * u)) with (4 * k * (1 + - (2 * (xi ^ 2 * (1 + - e) * / (4 * k)) * u))) by (field; lra).
    apply Rmult_lt_0_compat; lra. }
  field. repeat split; try lra; auto.
Qed.
Lemma trB_ode t : 0 <= t -> is_derive trB t (- k * trB t + / 2 * xi ^ 2 * trB t ^ 2).
Proof.
  intros Ht. pose proof (tr_den t Ht) as D. unfold trB. unfold alph in *. auto_derive. { unfold Rdiv, Rminus in D. lra. }
  Req. unfold Rdiv, Rminus in *. set (e := exp _) in *.
  assert (D2 : 0 < 4 * k + - (2 * (xi ^ 2 * (1 + - e)) * u)).
  { replace (4 * k + - (2 * (xi ^ 2 * (1 + - e)) * u)) with (4 * k * (1 + - (2 * (xi ^ 2 * (1 + - e) * / (4 * k)) * u))) by (field; lra).
    apply Rmult_lt_0_compat; lra. }
  field. repeat split; try lra; auto.
Qed.
Lemma transition_expect rho :
  exists f, expectation_of k th xi rho (fun x v j => exp (u * v)) f /\
   forall t x v j, 0 < t -> f t x v j = (let '(scale, df, nonc) := cir_ncx2_args c t v in ncx2_mgf scale df nonc u).
Proof.
  exists (fun t x v j => exp (trA t + trB t * v)). split.
  - eapply expectation_ext; [| |apply (affine_backward k th xi rho 0 0 u trA trB)].
    + intros; cbv beta; f_equal; ring.
    + intros; cbv beta; f_equal; ring.
    + unfold trA, alph. rewrite (Rmult_0_r k), Ropp_0, exp_0. replace (1 - 2 * (xi ^ 2 * (1 - 1) / (4 * k)) * u) with 1 by (field; lra). rewrite ln_1. ring.
    + unfold trB, alph. rewrite (Rmult_0_r k), Ropp_0, exp_0. field. lra.
    + apply trA_ode.
    + intros t Ht. eapply is_derive_eq; [apply (trB_ode t Ht)|]. field.
  - intros t x v j Ht. unfold cir_ncx2_args, ncx2_mgf.
    assert (HP : 0 < cir_phi c t /\ 0 < cir_exp_h c t).
    { split; [|apply exp_pos]. unfold cir_phi, c; cbn [c_xi c_mr c_theta].
      assert (Hh : 0 < exp (- (k * t / 2)) < 1). { split; [apply exp_pos|]. apply exp_lt_1. assert (0 < k * t) by now apply Rmult_lt_0_compat. lra. }
      apply Rdiv_lt_0_compat. { apply Rdiv_lt_0_compat; [lra|]. apply pow2_gt_0. exact Hxi. }
      apply Rlt_Rminus. apply (Rlt_trans _ 1); [lra|]. rewrite <- Rinv_1 at 1. apply Rinv_lt_contravar; lra. }
    replace (v * cir_exp_h c t * cir_phi c t * (cir_exp_h c t / cir_phi c t) * u) with (v * (cir_exp_h c t * cir_exp_h c t) * u) by (field; lra).
    rewrite (alph_eq t Ht). f_equal. unfold trA, trB, c; cbn [c_xi c_mr c_theta].
    replace (cir_exp_h (mkCir xi k th) t * cir_exp_h (mkCir xi k th) t) with (exp (- (k * t))).
    2:{ unfold cir_exp_h; cbn [c_mr]. rewrite <- exp_plus. f_equal. field. }
    pose proof (tr_den t (Rlt_le _ _ Ht)) as D. field. split; [lra|exact Hxi].
Qed.
(** Poisson mixture of Gamma draws: same transform *)
Lemma pois_series (I w : R) : is_series (fun n => exp (- I) * I ^ n / INR (fact n) * w ^ n) (exp (I * (w - 1))).
Proof.
  pose proof (is_exp_Reals (I * w)) as H. unfold is_pseries in H.
  replace (exp (I * (w - 1))) with (scal (V := R_NormedModule) (exp (- I)) (exp (I * w))).
  2:{ unfold scal; cbn. unfold mult; cbn. rewrite <- exp_plus. f_equal. ring. }
  apply (is_series_ext (fun n => scal (V := R_NormedModule) (exp (- I)) (scal (pow_n (I * w) n) (/ INR (fact n))))).
  { intros n. rewrite pow_n_pow. unfold scal; cbn. unfold mult; cbn. rewrite Rpow_mult_distr. unfold Rdiv. ring. }
  apply (is_series_scal (V := R_NormedModule) (exp (- I))). exact H.
Qed.
Lemma pois_gamma_transition t v : 0 < t -> 0 <= v ->
  let '(scale2, shape, inten) := cir_pois_gamma_args c t v in
  let '(scale, df, nonc) := cir_ncx2_args c t v in
  is_series (fun n => exp (- inten) * inten ^ n / INR (fact n) * exp (- (shape + INR n) * ln (1 - scale2 * u)))
    (ncx2_mgf scale df nonc u).
Proof.
  intros Ht Hv. unfold cir_pois_gamma_args, cir_ncx2_args. rewrite (alph_eq t Ht). 
  pose proof (tr_den t (Rlt_le _ _ Ht)) as D. set (al := alph t) in *. set (nonc := v * cir_exp_h c t * cir_phi c t).
  set (shape := 4 * c_mr c * c_theta c / c_xi c ^ 2 / 2).
  replace (1 - al * 2 * u) with (1 - 2 * al * u) by ring.
  set (D1 := 1 - 2 * al * u) in *.
  unfold ncx2_mgf. replace (4 * c_mr c * c_theta c / c_xi c ^ 2 / 2) with shape by reflexivity. fold D1.
  rewrite exp_plus.
  replace (nonc * al * u / D1) with (nonc / 2 * (/ D1 - 1)). 2:{ assert (EU : 2 * al * u = 1 - D1) by (unfold D1; ring). 
    replace (nonc * al * u / D1) with (nonc / 2 * (2 * al * u) / D1) by (field; lra). rewrite EU. field. lra. }
  apply (is_series_ext (fun n => scal (V := R_NormedModule) (exp (- shape * ln D1)) (exp (- (nonc / 2)) * (nonc / 2) ^ n / INR (fact n) * (/ D1) ^ n))).
  2:{ apply (is_series_scal (V := R_NormedModule) (exp (- shape * ln D1))). apply pois_series. }
  intros n. unfold scal; cbn. unfold mult; cbn.
  replace (- (shape + INR n) * ln D1) with (- shape * ln D1 + INR n * - ln D1) by ring. rewrite exp_plus, exp_n, (exp_Ropp (ln D1)), exp_ln by lra. ring.
Qed.
End Transition.

(** ** composition of steps *)
Lemma cir_mean_compose c s t v : cir_mean c s (cir_mean c t v) = cir_mean c (t + s) v.
Proof. unfold cir_mean. replace (- (c_mr c * (t + s))) with (- (c_mr c * t) + - (c_mr c * s)) by ring. rewrite exp_plus. ring. Qed.
Lemma cir_var_compose c s t v : c_mr c <> 0 ->
  cir_var c (t + s) v = cir_var c s (cir_mean c t v) + exp (- (c_mr c * s)) ^ 2 * cir_var c t v.
Proof.
  destruct c as [xi k th]. cbn [c_mr]. intros Hk. rewrite cir_mean_eq. rewrite !cir_var_eq by exact Hk. unfold wV, mV.
  replace (- (k * (t + s))) with (- (k * t) + - (k * s)) by ring. rewrite exp_plus. field. exact Hk.
Qed.
(** second moment composes: E[V_{t+s}^2] is the expectation of the one-step second moment *)
Lemma cir_avg_mean_compose c s t v : c_mr c <> 0 ->
  (t + s) * cir_avg_mean c (t + s) v = t * cir_avg_mean c t v + s * cir_avg_mean c s (cir_mean c t v).
Proof.
  destruct c as [xi k th]. cbn [c_mr]. intros Hk. rewrite cir_mean_eq. rewrite !cir_avg_mean_eq by exact Hk. unfold mJ, mV.
  replace (- (k * (t + s))) with (- (k * t) + - (k * s)) by ring. rewrite exp_plus. field. exact Hk.
Qed.
Lemma cir_avg_mean_integral c T v : c_mr c <> 0 -> T * cir_avg_mean c T v = RInt (fun t => cir_mean c t v) 0 T.
Proof.
  destruct c as [xi k th]. cbn [c_mr]. intros Hk. rewrite cir_avg_mean_eq by exact Hk.
  symmetry. apply is_RInt_unique.
  replace (mJ k th T v) with (minus (mJ k th T v) (mJ k th 0 v)). 2:{ rewrite mJ_0 by exact Hk. unfold minus, plus, opp; cbn. ring. }
  apply (is_RInt_derive (fun t => mJ k th t v)).
  - intros x _. apply der_mJ_t; exact Hk.
  - intros x _. apply ex_derive_continuous_R. unfold cir_mean; cbn. auto_derive. trivial.
Qed.
Lemma cir_var_nonneg c t v : 0 < c_mr c -> 0 <= c_theta c -> 0 <= t -> 0 <= v -> 0 <= cir_var c t v.
Proof.
  destruct c as [xi k th]. cbn [c_mr c_theta]. intros Hk Hth Ht Hv. rewrite cir_var_eq by lra. unfold wV.
  assert (Hkt : 0 <= k * t) by nra.
  assert (E : exp (- (k * t)) <= 1). { rewrite <- exp_0. apply exp_le. lra. }
  pose proof (exp_pos (- (k * t))).
  apply Rmult_le_pos; [apply Rmult_le_pos; [|lra]|].
  - apply Rmult_le_pos; [apply pow2_ge_0|left; now apply Rinv_0_lt_compat].
  - apply Rplus_le_le_0_compat; [nra|]. apply Rmult_le_pos; [nra|lra].
Qed.
Lemma cir_var_pos c t v : 0 < c_mr c -> 0 <= c_theta c -> c_xi c <> 0 -> 0 < t -> 0 < v -> 0 < cir_var c t v.
Proof.
  destruct c as [xi k th]. cbn [c_mr c_theta c_xi]. intros Hk Hth Hx Ht Hv. rewrite cir_var_eq by lra. unfold wV.
  assert (E : exp (- (k * t)) < 1). { apply exp_lt_1. nra. }
  pose proof (exp_pos (- (k * t))).
  apply Rmult_lt_0_compat; [apply Rmult_lt_0_compat; [|lra]|].
  - apply Rdiv_lt_0_compat; [now apply pow2_gt_0|lra].
  - apply Rplus_lt_le_0_compat; [nra|]. apply Rmult_le_pos; [nra|lra].
Qed.
Lemma cir_mean_pos c t v : 0 <= c_theta c -> 0 <= c_mr c -> 0 <= t -> 0 < v -> 0 < cir_mean c t v.
Proof.
  intros Hth Hk Ht Hv. unfold cir_mean. pose proof (exp_pos (- (c_mr c * t))).
  assert (exp (- (c_mr c * t)) <= 1). { rewrite <- exp_0. apply exp_le. nra. } nra.
Qed.

(** ** the coded Euler step has no sqrt(dt) *)
Lemma euler_no_dt c v0 z : 0 < v0 -> 0 < c_xi c -> 0 < z -> v0 < cir_euler c false 0 v0 z.
Proof.
  intros Hv Hx Hz. unfold cir_euler. assert (0 < sqrt v0) by now apply sqrt_lt_R0.
  eapply Rlt_le_trans; [|apply Rmax_l].
  assert (0 < sqrt v0 * c_xi c * z) by (apply Rmult_lt_0_compat; [apply Rmult_lt_0_compat|]; assumption). lra.
Qed.
Lemma euler_unit_dt c v0 z mil : cir_euler c mil 1 v0 z =
  Rmax (v0 + c_mr c * (c_theta c - v0) * 1 + sqrt v0 * c_xi c * (sqrt 1 * z) + (if mil then c_xi c ^ 2 / 4 * 1 * (z ^ 2 - 1) else 0)) 0.
Proof. unfold cir_euler. rewrite sqrt_1. destruct mil; f_equal; field. Qed.

(** ** draw_from_mv, log-normal branch *)
Lemma dfm_ln_moments mean vs : 0 <= vs ->
  gauss_expect (dfm_ln mean vs) mean /\ gauss_expect (fun z => dfm_ln mean vs z ^ 2) (mean ^ 2 * (1 + vs)).
Proof.
  intros Hv. set (s := sqrt (ln (1 + vs))).
  assert (HL : 0 <= ln (1 + vs)). { rewrite <- ln_1. apply ln_le_R; lra. }
  assert (S2 : s * s = ln (1 + vs)) by (apply sqrt_sqrt; exact HL).
  split.
  - apply (gauss_expect_ext (fun z => mean * exp (- (s * s / 2)) * exp (s * z))).
    { intros z. unfold dfm_ln. fold s. rewrite Rmult_assoc, <- exp_plus. f_equal. f_equal. field. }
    pose proof (gauss_expect_scal _ _ (mean * exp (- (s * s / 2))) (gauss_mgf s)) as H.
    replace (mean * exp (- (s * s / 2)) * exp (s * s / 2)) with mean in H; [exact H|].
    rewrite Rmult_assoc, <- exp_plus. replace (- (s * s / 2) + s * s / 2) with 0 by ring. rewrite exp_0. ring.
  - apply (gauss_expect_ext (fun z => mean ^ 2 * exp (- (s * s)) * exp (2 * s * z))).
    { intros z. unfold dfm_ln. fold s. rewrite Rpow_mult_distr, Rmult_assoc, <- exp_plus. f_equal.
      replace (- (s * s) + 2 * s * z) with (INR 2 * (s * (z - s / 2))) by (cbn [INR]; field). apply exp_n. }
    pose proof (gauss_expect_scal _ _ (mean ^ 2 * exp (- (s * s))) (gauss_mgf (2 * s))) as H.
    replace (mean ^ 2 * exp (- (s * s)) * exp (2 * s * (2 * s) / 2)) with (mean ^ 2 * (1 + vs)) in H; [exact H|].
    rewrite Rmult_assoc, <- exp_plus. replace (- (s * s) + 2 * s * (2 * s) / 2) with (s * s) by field. rewrite S2, exp_ln by lra. ring.
Qed.

(** ** discretely monitored variance swap *)
Lemma geom_sum (E : R) n : E <> 1 -> rsum n (fun i => E ^ i) = (1 - E ^ n) / (1 - E).
Proof.
  intros H. induction n; [cbn; unfold Rdiv; ring|]. cbn [rsum]. rewrite IHn. cbn [pow]. field. lra.
Qed.
Lemma var_swap_sum (p : svp) (r q T : R) (n : nat) :
  0 < v_mr p -> v_vov p <> 0 -> 0 < T -> (0 < n)%nat ->
  let dt := T / INR n in let c := heston_cir p in
  let h v := let pv := mkSv v (v_vov p) (v_rho p) (v_mr p) (v_theta p) in
     heston_logp_var pv dt + (heston_logp_mean pv dt + (r - q) * dt) ^ 2 in
  exists a0 a1 a2, (forall v, h v = a0 + a1 * v + a2 * v ^ 2) /\
   heston_var_swap p r q T dt = / T * rsum n (fun i => a0 + a1 * cir_mean c (INR i * dt) (v_sigma p)
       + a2 * (cir_mean c (INR i * dt) (v_sigma p) ^ 2 + cir_var c (INR i * dt) (v_sigma p))).
Proof.
  destruct p as [v0 xi rho k th]. intros Hk Hx HT Hn dt c h. cbn [v_mr v_vov v_sigma v_rho v_theta] in Hk, Hx, h |- *.
  assert (Pn : 0 < INR n) by (apply lt_0_INR; lia).
  assert (Hdt : 0 < dt) by (apply Rdiv_lt_0_compat; lra).
  set (E := exp (- (k * dt))).
  assert (HE : 0 < E < 1). { split; [apply exp_pos|]. apply exp_lt_1. nra. }
  set (mu := r - q) in *.
  set (B := (1 - E) / k). set (A := th * dt - th * B).
  set (x1c := xi / k * (B - dt * E)). set (x0c := xi / k * (th * (dt - B)) - th * x1c).
  set (w1c := xi ^ 2 / k ^ 2 * (- 2 * E * dt + (1 + E) * (1 - E) / k)).
  set (w0c := xi ^ 2 / k ^ 2 * ((th + 2 * th * E) * dt + (- 5 / 2 * th - th / 2 * E) * (1 - E) / k)).
  exists (A + w0c / 4 - rho * x0c + (mu * dt - A / 2) ^ 2), (B + w1c / 4 - rho * x1c - (mu * dt - A / 2) * B), (B ^ 2 / 4).
  split.
  - intros v. unfold h. rewrite logp_var_eq by lra. rewrite logp_mean_eq by lra. unfold wX, mJ, wJ, cXJ. fold E. cbv zeta.
    unfold A, w0c, w1c, x0c, x1c, B. field. lra.
  - assert (Ee : forall i, exp (- (k * (INR i * dt))) = E ^ i).
    { intros i. unfold E. rewrite <- exp_n. f_equal. ring. }
    assert (En : exp (- (k * T)) = E ^ n). { rewrite <- Ee. do 2 f_equal. unfold dt. field. lra. }
    set (a0 := A + _ - _ + _). set (a1 := B + w1c / 4 - _ - _). set (a2 := B ^ 2 / 4).
    set (s0 := a0 + a1 * th + a2 * (th ^ 2 + xi ^ 2 / k * th / 2)).
    set (s1 := a1 * (v0 - th) + a2 * (2 * th * (v0 - th) + xi ^ 2 / k * (v0 - th))).
    set (s2 := a2 * ((v0 - th) ^ 2 - xi ^ 2 / k * (v0 - th / 2))).
    rewrite (rsum_ext _ _ (fun i => s0 + s1 * E ^ i + s2 * (E ^ 2) ^ i)).
    2:{ intros i _. change c with (mkCir xi k th). rewrite cir_mean_eq, cir_var_eq by lra. unfold mV, wV. rewrite Ee.
        rewrite <- pow_mult, Nat.mul_comm, pow_mult. unfold s0, s1, s2. field. lra. }
    rewrite !rsum_plus, !rsum_scal, rsum_const, !geom_sum by nra.
    rewrite <- pow_mult, Nat.mul_comm, pow_mult.
    unfold heston_var_swap. cbn [v_mr v_vov v_sigma v_rho v_theta]. fold E. fold mu.
    rewrite !exprel_eq by lra.
    replace (- 2 * (k * T)) with (- (2 * k * T)) by ring. rewrite (exprel_eq (2 * k) T) by lra.
    replace (exp (- (2 * k * T))) with ((E ^ n) ^ 2). 2:{ rewrite <- En. rewrite <- (exp_n _ 2). f_equal. cbn [INR]. ring. }
    rewrite En. fold E. set (G := E ^ n). 
    assert (HT2 : T = INR n * dt) by (unfold dt; field; lra). rewrite HT2. clearbody dt G E. clear En Ee HT2.
    unfold s0, s1, s2, a0, a1, a2, A, w0c, w1c, x0c, x1c, B. field. repeat split; try lra. nra.
Qed.
