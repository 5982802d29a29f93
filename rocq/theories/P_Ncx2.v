(** The non-central chi-square law in half-scale: y = x/2, l = lambda/2, a = k/2. *)
From Coq Require Import Reals Lra Lia Psatz Arith FunctionalExtensionality.
From Coquelicot Require Import Coquelicot.
From Verif Require Import Base Sums Spec_Cev P_Gamma P_Gamma2 P_Half.
Open Scope R_scope.

Lemma Rpower_mult_distr_inv y l a : 0 < y -> 0 < l -> Rpower (y * / l) a = Rpower y a * / Rpower l a.
Proof. intros Hy Hl. rewrite <- Rpower_Ropp. unfold Rpower. rewrite ln_mult, ln_Rinv by (try apply Rinv_0_lt_compat; assumption). rewrite <- exp_plus. f_equal. ring. Qed.
Section N.
Variable Gam : R -> R.
Hypothesis HG : gamma_function Gam.
Definition bsc (a : R) (j : nat) : R := / (INR (fact j) * Gam (a + INR j)).
Definition Bs (a w : R) : R := PSeries (bsc a) w.
Definition np (a l y : R) : R := exp (- l) * exp (- y) * Rpower y (a - 1) * Bs a (l * y).

Lemma bsc_pos a j : 0 < a -> 0 < bsc a j.
Proof. intros Ha. apply Rinv_0_lt_compat, Rmult_lt_0_compat; [apply fact_pos|apply (Gam_pos Gam HG); pose proof (pos_INR j); lra]. Qed.
Lemma bsc_cv a : 0 < a -> CV_radius (bsc a) = p_infty.
Proof.
  intros Ha. apply (CV_fact _ (/ Gam a + / (a * Gam a))). intros j. rewrite Rabs_right by (left; now apply bsc_pos). unfold bsc. rewrite Rinv_mult, Rmult_comm.
  unfold Rdiv. apply Rmult_le_compat_r; [left; apply Rinv_0_lt_compat, fact_pos|now apply (invGam_bd Gam HG)].
Qed.
Lemma Bs_derive a w : 0 < a -> is_derive (Bs a) w (Bs (a + 1) w).
Proof.
  intros Ha. eapply is_derive_eq; [apply ps_derive; now apply bsc_cv|]. unfold Bs. apply PSeries_ext. intros j. unfold PS_derive, bsc.
  rewrite fact_simpl, mult_INR. replace (a + INR (S j)) with (a + 1 + INR j) by (rewrite S_INR; ring). pose proof (Gam_pos Gam HG (a + 1 + INR j) ltac:(pose proof (pos_INR j); lra)). pose proof (fact_pos j).
  assert (0 < INR (S j)) by (apply lt_0_INR; lia). field. repeat split; lra.
Qed.
Lemma Bs_cont a (w : R) : 0 < a -> continuous (Bs a) w.
Proof. intros Ha. apply ps_cont. now apply bsc_cv. Qed.
Lemma Bs_pos a w : 0 < a -> 0 <= w -> 0 < Bs a w.
Proof.
  intros Ha Hw. unfold Bs, PSeries. pose proof (ps_ex (bsc a) w (bsc_cv a Ha)) as E.
  rewrite Series_incr_1 by exact E. assert (0 <= Series (fun n => bsc a (S n) * w ^ S n)).
  { apply Series_nonneg; [now apply (ex_series_incr_1 (fun n => bsc a n * w ^ n))|]. intros n. apply Rmult_le_pos; [left; now apply bsc_pos|now apply pow_le]. }
  pose proof (bsc_pos a 0 Ha). rewrite pow_O. lra.
Qed.
Lemma Bs_mono a v w : 0 < a -> 0 <= v -> v <= w -> Bs a v <= Bs a w.
Proof. intros Ha Hv Hw. apply (nondecreasing_on (Bs a) (Bs (a + 1))); [exact Hw|intros; now apply Bs_derive|]. intros z Hz. left. apply Bs_pos; lra. Qed.
Lemma Bs_rec a w : 0 < a -> Bs a w = w * Bs (a + 2) w + a * Bs (a + 1) w.
Proof.
  intros Ha. unfold Bs. apply is_pseries_unique.
  assert (I2 : is_pseries (bsc (a + 2)) w (PSeries (bsc (a + 2)) w)) by (apply PSeries_correct, CV_radius_inside; rewrite bsc_cv by lra; exact I).
  assert (I1 : is_pseries (bsc (a + 1)) w (PSeries (bsc (a + 1)) w)) by (apply PSeries_correct, CV_radius_inside; rewrite bsc_cv by lra; exact I).
  apply (is_pseries_ext (PS_plus (PS_incr_1 (bsc (a + 2))) (PS_scal a (bsc (a + 1))))).
  - intros [|m]; unfold PS_plus, PS_scal, PS_incr_1, plus, scal, zero; cbn -[INR bsc]; unfold mult; cbn -[INR bsc]; unfold bsc.
    + cbn [fact INR]. rewrite !Rplus_0_r, (Gam_succ Gam HG) by exact Ha. pose proof (Gam_pos Gam HG a Ha). field. lra.
    + pose proof (pos_INR m). replace (a + INR (S m)) with (a + INR m + 1) by (rewrite S_INR; ring). replace (a + 2 + INR m) with (a + INR m + 1 + 1) by ring. replace (a + 1 + INR (S m)) with (a + INR m + 1 + 1) by (rewrite S_INR; ring).
      rewrite (Gam_succ Gam HG (a + INR m + 1)) by lra. pose proof (Gam_pos Gam HG (a + INR m + 1) ltac:(lra)). rewrite fact_simpl, mult_INR, S_INR. pose proof (fact_pos m). field. repeat split; lra.
  - apply (is_pseries_plus (K := R_AbsRing) (V := R_NormedModule)); [now apply (is_pseries_incr_1 (K := R_AbsRing) (V := R_NormedModule))|].
    apply (is_pseries_scal (K := R_AbsRing) (V := R_NormedModule)); [apply Rmult_comm|exact I1].
Qed.
Lemma np_pos a l y : 0 < a -> 0 <= l -> 0 < y -> 0 < np a l y.
Proof. intros Ha Hl Hy. unfold np. apply Rmult_lt_0_compat; [repeat apply Rmult_lt_0_compat; apply exp_pos|]. apply Bs_pos; nra. Qed.
Lemma np_dy a l y : 0 < a -> 0 < y -> is_derive (fun y => np (a + 1) l y) y (np a l y - np (a + 1) l y).
Proof.
  intros Ha Hy. unfold np. replace (a + 1 - 1) with a by ring. eapply is_derive_eq.
  - apply is_derive_mult_R; [apply is_derive_mult_R; [apply is_derive_scal_R|now apply rpow_derive]|].
    + instantiate (1 := - exp (- y)). auto_derive; [exact I|ring].
    + apply (is_derive_comp_R (Bs (a + 1)) (fun y => l * y) y); [apply Bs_derive; lra|]. instantiate (1 := l). auto_derive; [exact I|ring].
  - replace (a + 1 + 1) with (a + 2) by ring. rewrite (Bs_rec a (l * y) Ha). rewrite <- (Rpower_succ a y Hy). ring.
Qed.
Lemma np_dl a l y : 0 < a -> 0 < y -> is_derive (fun l => np a l y) l (np (a + 1) l y - np a l y).
Proof.
  intros Ha Hy. unfold np. replace (a + 1 - 1) with a by ring. eapply is_derive_eq.
  - apply is_derive_mult_R.
    + instantiate (1 := - exp (- l) * exp (- y) * Rpower y (a - 1)). auto_derive; [exact I|ring].
    + apply (is_derive_comp_R (Bs a) (fun l => l * y) l); [apply Bs_derive; lra|]. instantiate (1 := y). auto_derive; [exact I|ring].
  - rewrite <- (Rpower_succ a y Hy). ring.
Qed.
(** exchange and three-term recurrence *)
Lemma np_exchange a l y : 0 < l -> 0 < y -> np (a + 1) l y = Rpower (y / l) a * np (a + 1) y l.
Proof.
  intros Hl Hy. unfold np. replace (a + 1 - 1) with a by ring. rewrite (Rmult_comm y l). unfold Rdiv. rewrite Rpower_mult_distr_inv by assumption. field. apply Rgt_not_eq, exp_pos.
Qed.
Lemma np_rec a l y : 0 < a -> 0 < y -> l * np (a + 2) l y + a * np (a + 1) l y = y * np a l y.
Proof.
  intros Ha Hy. unfold np. replace (a + 2 - 1) with (a + 1) by ring. replace (a + 1 - 1) with a by ring. rewrite (Bs_rec a (l * y) Ha), <- (Rpower_succ a y Hy), <- (Rpower_succ (a + 1) y Hy).
  replace (a + 1 - 1) with a by ring. rewrite <- (Rpower_succ a y Hy). ring.
Qed.
End N.
