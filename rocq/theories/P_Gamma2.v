(** Consequences of the definition of the gamma function, and existence of a gamma function. *)
From Coq Require Import Reals Lra Lia Psatz Arith FunctionalExtensionality Classical_Prop.
From Coquelicot Require Import Coquelicot.
From Verif Require Import Base Sums Spec_Cev P_Gamma P_Half.
Open Scope R_scope.

Lemma lim_scal_at0 (f : R -> R) c : filterlim f (at_right 0) (locally 0) -> filterlim (fun x => c * f x) (at_right 0) (locally 0).
Proof. intros H. replace 0 with (c * 0) at 2 by ring. apply lim_mult_R; [typeclasses eauto|apply filterlim_const|exact H]. Qed.
Lemma lim_plus_at0 (f g : R -> R) (u v : R) : filterlim f (at_right 0) (locally u) -> filterlim g (at_right 0) (locally v) -> filterlim (fun x => f x + g x) (at_right 0) (locally (u + v)).
Proof. intros H G. exact (filterlim_comp_2 f g plus H G (filterlim_plus (u : R_NormedModule) v)). Qed.
Lemma pe_lim_p a : 0 < a -> is_lim (fun x => Rpower x a * exp (- x)) p_infty 0.
Proof. intros H. apply (is_lim_ext (fun x => Rpower x a * exp (- (1) * x))); [intros; f_equal; f_equal; ring|]. apply powexp_lim_p; lra. Qed.
Lemma pe_lim_0 a : 0 < a -> filterlim (fun x => Rpower x a * exp (- x)) (at_right 0) (locally 0).
Proof. intros H. apply (filterlim_ext (fun x => Rpower x a * exp (- (1) * x))); [intros; f_equal; f_equal; ring|]. apply powexp_lim_0; lra. Qed.
Section G.
Variable Gam : R -> R.
Hypothesis HG : gamma_function Gam.
Lemma Gam_pos a : 0 < a -> 0 < Gam a. Proof. intros H. apply (HG a H). Qed.
Lemma Gam_succ a : 0 < a -> Gam (a + 1) = a * Gam a.
Proof.
  intros Ha. destruct (HG a Ha) as [G0 [P (P1 & P2 & P3)]]. destruct (HG (a + 1) ltac:(lra)) as [G1 [Q (Q1 & Q2 & Q3)]].
  assert (L : is_lim (fun x => Rpower x a * exp (- x)) p_infty 0) by exact (pe_lim_p a Ha).
  assert (E : forall x, 0 < x -> Gam (a + 1) * Q x = a * Gam a * P x + - (Rpower x a * exp (- x))).
  { apply (half_unique (fun x => Gam (a + 1) * Q x) (fun x => a * Gam a * P x + - (Rpower x a * exp (- x))) (fun x => Rpower x a * exp (- x)) 0).
    - intros x Hx. eapply is_derive_eq; [apply is_derive_scal_R; apply Q1; exact Hx|]. unfold gamma_pdf. replace (a + 1 - 1) with a by ring. field. lra.
    - intros x Hx. eapply is_derive_eq.
      + apply is_derive_plus_R; [apply is_derive_scal_R; apply P1; exact Hx|]. apply (is_derive_opp (K := R_AbsRing) (V := R_NormedModule) (fun x => Rpower x a * exp (- x))).
        apply is_derive_mult_R; [now apply rpow_derive|]. instantiate (1 := - exp (- x)). auto_derive; [exact I|ring].
      + unfold gamma_pdf, opp; cbn. pose proof (Rpower_succ a x Hx) as PX.
        replace (a * Gam a * (Rpower x (a - 1) * exp (- x) / Gam a)) with (a * Rpower x (a - 1) * exp (- x)) by (field; lra). ring_simplify. rewrite <- PX. ring.
    - now apply lim_scal_at0.
    - replace 0 with (0 + - 0) at 2 by ring. apply lim_plus_at0; [now apply lim_scal_at0|]. apply (filterlim_comp _ _ _ (fun x => Rpower x a * exp (- x)) Ropp _ (locally 0)); [exact (pe_lim_0 a Ha)|exact (filterlim_opp (0 : R_NormedModule))]. }
  assert (L1 : is_lim (fun x => Gam (a + 1) * Q x) p_infty (Gam (a + 1))).
  { replace (Finite (Gam (a + 1))) with (Rbar_mult (Gam (a + 1)) 1) by (cbn; f_equal; ring). now apply is_lim_scal_l. }
  assert (L2 : is_lim (fun x => a * Gam a * P x + - (Rpower x a * exp (- x))) p_infty (a * Gam a)).
  { replace (Finite (a * Gam a)) with (Rbar_plus (Rbar_mult (a * Gam a) 1) (Rbar_opp 0)) by (cbn; f_equal; ring).
    apply (is_lim_plus _ _ p_infty (Rbar_mult (a * Gam a) 1) (Rbar_opp 0)); [now apply is_lim_scal_l|now apply is_lim_opp|reflexivity]. }
  assert (L3 : is_lim (fun x => Gam (a + 1) * Q x) p_infty (a * Gam a)). { eapply is_lim_ext_loc; [|exact L2]. exists 0. intros x Hx. symmetry. now apply E. }
  apply is_lim_unique in L1. apply is_lim_unique in L3. rewrite L1 in L3. now injection L3.
Qed.
Lemma Gam_ge a m : 0 < a -> a * Gam a * INR (fact m) <= Gam (a + INR m + 1).
Proof.
  intros Ha. pose proof (Gam_pos a Ha). induction m.
  - cbn [fact INR]. rewrite Rplus_0_r, Gam_succ by exact Ha. lra.
  - pose proof (pos_INR m). replace (a + INR (S m) + 1) with ((a + INR m + 1) + 1) by (rewrite S_INR; ring). rewrite Gam_succ by lra.
    rewrite fact_simpl, mult_INR, S_INR. pose proof (Gam_pos (a + INR m + 1) ltac:(lra)). pose proof (fact_pos m).
    assert (0 < a * Gam a * INR (fact m)) by (apply Rmult_lt_0_compat; [nra|assumption]). nra.
Qed.
Lemma invGam_le a m : 0 < a -> 0 < / Gam (a + INR m + 1) <= / (a * Gam a) / INR (fact m).
Proof.
  intros Ha. pose proof (Gam_pos a Ha). pose proof (fact_pos m). pose proof (pos_INR m). split; [apply Rinv_0_lt_compat, Gam_pos; lra|].
  unfold Rdiv. rewrite <- Rinv_mult. apply Rinv_le_contravar; [|now apply Gam_ge]. apply Rmult_lt_0_compat; [nra|assumption].
Qed.
Lemma invGam_bd a j : 0 < a -> 0 < / Gam (a + INR j) <= / Gam a + / (a * Gam a).
Proof.
  intros Ha. pose proof (Gam_pos a Ha) as G. pose proof (pos_INR j). split; [apply Rinv_0_lt_compat, Gam_pos; lra|].
  assert (0 < / Gam a) by now apply Rinv_0_lt_compat. assert (0 < / (a * Gam a)) by (apply Rinv_0_lt_compat; nra).
  destruct j; [cbn [INR]; rewrite Rplus_0_r; lra|]. rewrite S_INR, <- Rplus_assoc. pose proof (invGam_le a j Ha) as [_ B].
  assert (/ (a * Gam a) / INR (fact j) <= / (a * Gam a)); [|lra]. unfold Rdiv. rewrite <- (Rmult_1_r (/ (a * Gam a))) at 2. apply Rmult_le_compat_l; [lra|].
  rewrite <- Rinv_1. apply Rinv_le_contravar; [lra|]. change 1 with (INR 1). apply le_INR. pose proof (lt_O_fact j). lia.
Qed.
End G.

(** Existence: the lower incomplete gamma integral as a series, its limit at infinity is the gamma function. *)
Fixpoint rise (a : R) (m : nat) : R := match m with O => a | S k => (a + INR (S k)) * rise a k end.
Lemma rise_ge a m : 0 < a -> a * INR (fact m) <= rise a m.
Proof.
  intros Ha. induction m; [cbn; lra|]. cbn [rise]. rewrite fact_simpl, mult_INR. pose proof (fact_pos m). assert (0 < INR (S m)) by (apply lt_0_INR; lia).
  assert (0 < a * INR (fact m)) by now apply Rmult_lt_0_compat. nra.
Qed.
Lemma rise_pos a m : 0 < a -> 0 < rise a m.
Proof. intros Ha. pose proof (rise_ge a m Ha). pose proof (fact_pos m). assert (0 < a * INR (fact m)) by now apply Rmult_lt_0_compat. lra. Qed.
Lemma rise_cv a : 0 < a -> CV_radius (fun m => / rise a m) = p_infty.
Proof.
  intros Ha. apply (CV_fact _ (/ a)). intros m. pose proof (rise_pos a m Ha). pose proof (fact_pos m). rewrite Rabs_right by (left; now apply Rinv_0_lt_compat).
  unfold Rdiv. rewrite <- Rinv_mult. apply Rinv_le_contravar; [now apply Rmult_lt_0_compat|now apply rise_ge].
Qed.
Definition ginc (a x : R) : R := hform a (fun m => / rise a m) x.
Lemma ginc_derive a x : 0 < a -> 0 < x -> is_derive (ginc a) x (Rpower x (a - 1) * exp (- x)).
Proof.
  intros Ha Hx. eapply is_derive_eq; [apply hform_derive; [now apply rise_cv|exact Hx]|]. unfold hform.
  rewrite (PSeries_ext _ (fun m => match m with O => 1 | S _ => 0 end)).
  - unfold PSeries. rewrite (is_series_unique _ 1); [ring|]. unfold is_series. apply (filterlim_ext (fun _ => 1)); [|apply filterlim_const].
    intros n. induction n; [rewrite sum_O; cbn; ring|rewrite sum_Sn, <- IHn; unfold plus; cbn; ring].
  - intros [|m]; unfold hcoef.
    + cbn. field. lra.
    + change (rise a (S m)) with ((a + INR (S m)) * rise a m). pose proof (rise_pos a m Ha). pose proof (pos_INR (S m)). field. split; lra.
Qed.
Lemma ginc_lim0 a : 0 < a -> filterlim (ginc a) (at_right 0) (locally 0).
Proof. intros Ha. apply hform_lim0; [exact Ha|now apply rise_cv]. Qed.
Lemma inc_half (f d : R -> R) : (forall x, 0 < x -> is_derive f x (d x)) -> (forall x, 0 < x -> 0 <= d x) -> forall x y, 0 < x -> x <= y -> f x <= f y.
Proof. intros H1 H2 x y Hx Hy. destruct (Req_dec x y) as [->|N]; [lra|]. apply (nondecreasing_on f d x y); [lra| |]; intros t Ht; [apply H1|apply H2]; lra. Qed.
Lemma lim0_le (f g : R -> R) (u v : R) : (forall x, 0 < x -> f x <= g x) -> filterlim f (at_right 0) (locally u) -> filterlim g (at_right 0) (locally v) -> u <= v.
Proof.
  intros H Hf Hg. apply (filterlim_le (F := at_right 0) f g (Finite u) (Finite v)); [|exact Hf|exact Hg]. exists (mkposreal 1 Rlt_0_1). intros y _ Hy. now apply H.
Qed.
(** f' <= g' on the half line and the same limit at 0 *)
Lemma half_compare (f g df dg : R -> R) (l : R) : (forall x, 0 < x -> is_derive f x (df x)) -> (forall x, 0 < x -> is_derive g x (dg x)) -> (forall x, 0 < x -> df x <= dg x) ->
  filterlim f (at_right 0) (locally l) -> filterlim g (at_right 0) (locally l) -> forall x, 0 < x -> f x <= g x.
Proof.
  intros Hf Hg Hd Lf Lg x Hx.
  assert (M : forall y z, 0 < y -> y <= z -> g y - f y <= g z - f z).
  { apply (inc_half (fun y => g y - f y) (fun y => dg y - df y)); [intros; apply is_derive_minus_R; auto|intros y Hy; specialize (Hd y Hy); lra]. }
  assert (0 <= g x - f x); [|lra]. apply (filterlim_le (F := at_right 0) (fun y => g y - f y) (fun _ => g x - f x) (Finite 0) (Finite (g x - f x))).
  - exists (mkposreal x Hx). intros y Hy Hy0. change (Rabs (y - 0) < x) in Hy. rewrite Rminus_0_r, Rabs_right in Hy by lra. apply M; lra.
  - change (filterlim (fun y => g y - f y) (at_right 0) (locally 0)). replace 0 with (l - l) at 2 by ring. exact (filterlim_comp_2 g (fun y => opp (f y)) plus Lg (filterlim_comp _ _ _ f opp _ _ _ Lf (filterlim_opp (l : R_NormedModule))) (filterlim_plus (l : R_NormedModule) (opp l))).
  - apply filterlim_const.
Qed.
Lemma Series_zero : Series (fun _ => 0) = 0.
Proof. apply is_series_unique. unfold is_series. apply (filterlim_ext (fun _ => 0)); [|apply filterlim_const]. intros n. induction n; [now rewrite sum_O|rewrite sum_Sn, <- IHn; unfold plus; cbn; ring]. Qed.
Lemma Series_nonneg (f : nat -> R) : ex_series f -> (forall n, 0 <= f n) -> 0 <= Series f.
Proof. intros E P. rewrite <- Series_zero. apply Series_le; [intros n; split; [lra|apply P]|exact E]. Qed.
Lemma ginc_pos a x : 0 < a -> 0 < x -> 0 < ginc a x.
Proof.
  intros Ha Hx. unfold ginc, hform. apply Rmult_lt_0_compat; [apply Rmult_lt_0_compat; apply exp_pos|].
  pose proof (ps_ex (fun m => / rise a m) x (rise_cv a Ha)) as E. unfold PSeries.
  assert (P : forall n, 0 < / rise a n * x ^ n) by (intros n; apply Rmult_lt_0_compat; [apply Rinv_0_lt_compat, rise_pos, Ha|now apply pow_lt]).
  rewrite Series_incr_1 by exact E. apply Rplus_lt_le_0_compat; [apply P|]. apply Series_nonneg; [apply (ex_series_incr_1 (fun n => / rise a n * x ^ n)); exact E|intros n; left; apply P].
Qed.
(** bounded: x^(a-1) e^{-x} <= C e^{-x/2} for x >= 1 *)
Lemma powexp_bd s : exists C, 0 < C /\ forall x, 1 <= x -> Rpower x s * exp (- x) <= C * exp (- / 2 * x).
Proof.
  destruct (nfloor_ex (Rabs s) (Rabs_pos s)) as [n0 [_ Hn]]. set (n := S n0). assert (Hn' : INR n >= Rabs s) by (unfold n; rewrite S_INR; lra). clearbody n. exists (INR (fact n) * 2 ^ n). pose proof (fact_pos n). assert (0 < 2 ^ n) by (apply pow_lt; lra). split; [now apply Rmult_lt_0_compat|].
  intros x Hx. assert (A : Rpower x s <= x ^ n). { rewrite <- Rpower_pow by lra. apply Rle_Rpower; [lra|]. pose proof (Rle_abs s). lra. }
  assert (B : (/ 2 * x) ^ n / INR (fact n) <= exp (/ 2 * x)).
  { pose proof (exp_series (/ 2 * x)) as E. apply is_series_unique in E. rewrite <- E. replace ((/ 2 * x) ^ n / INR (fact n)) with (/ INR (fact n) * (/ 2 * x) ^ n) by (unfold Rdiv; ring).
    assert (Hp : forall k, 0 <= / INR (fact k) * (/ 2 * x) ^ k) by (intros k; apply Rmult_le_pos; [left; apply Rinv_0_lt_compat, fact_pos|apply pow_le; lra]).
    assert (Ex : ex_series (fun k => / INR (fact k) * (/ 2 * x) ^ k)) by (eexists; apply exp_series).
    rewrite (Series_incr_n _ (S n)) by (try lia; exact Ex). cbn [pred].
    assert (0 <= Series (fun k => / INR (fact (S n + k)) * (/ 2 * x) ^ (S n + k))). { apply Series_nonneg; [apply (ex_series_incr_n (fun k => / INR (fact k) * (/ 2 * x) ^ k) (S n)); exact Ex|intros; apply Hp]. }
    assert (/ INR (fact n) * (/ 2 * x) ^ n <= sum_f_R0 (fun k => / INR (fact k) * (/ 2 * x) ^ k) n); [|lra].
    destruct n; [cbn; lra|]. cbn [sum_f_R0]. pose proof (cond_pos_sum _ n Hp). lra. }
  rewrite Rpow_mult_distr in B. replace (- x) with (- / 2 * x + - / 2 * x) by field. rewrite exp_plus, <- Rmult_assoc. apply Rmult_le_compat_r; [left; apply exp_pos|].
  replace (- / 2 * x) with (- (/ 2 * x)) by ring. rewrite exp_Ropp. apply Rmult_le_reg_r with (exp (/ 2 * x)); [apply exp_pos|]. rewrite Rmult_assoc, Rinv_l by (apply Rgt_not_eq, exp_pos). rewrite Rmult_1_r.
  eapply Rle_trans; [exact A|]. apply Rmult_le_reg_r with (/ 2 ^ n * / INR (fact n)); [apply Rmult_lt_0_compat; now apply Rinv_0_lt_compat|].
  replace (x ^ n * (/ 2 ^ n * / INR (fact n))) with ((/ 2) ^ n * x ^ n / INR (fact n)) by (rewrite pow_inv; unfold Rdiv; ring). eapply Rle_trans; [exact B|]. right. field. split; lra.
Qed.
Lemma ginc_bounded a : 0 < a -> exists M, forall x, 0 < x -> ginc a x <= M.
Proof.
  intros Ha. destruct (powexp_bd (a - 1)) as (C & HC & HB). exists (ginc a 1 + 2 * C). intros x Hx.
  assert (M1 : forall y z, 0 < y -> y <= z -> ginc a y <= ginc a z). { apply (inc_half (ginc a) (fun x => Rpower x (a - 1) * exp (- x))); [intros; now apply ginc_derive|intros; apply Rmult_le_pos; left; apply exp_pos]. }
  destruct (Rle_dec x 1) as [H|H]; [specialize (M1 x 1 Hx H); lra|].
  assert (D : ginc a x + 2 * C * exp (- / 2 * x) <= ginc a 1 + 2 * C * exp (- / 2 * 1)).
  { assert (E : - (ginc a 1 + 2 * C * exp (- / 2 * 1)) <= - (ginc a x + 2 * C * exp (- / 2 * x))); [|lra].
    apply (nondecreasing_on (fun x => - (ginc a x + 2 * C * exp (- / 2 * x))) (fun x => - (Rpower x (a - 1) * exp (- x) + 2 * C * (- / 2 * exp (- / 2 * x))))); [lra| |].
    - intros t Ht. apply (is_derive_opp (K := R_AbsRing) (V := R_NormedModule) (fun x => ginc a x + 2 * C * exp (- / 2 * x))). apply is_derive_plus_R; [apply ginc_derive; lra|]. apply is_derive_scal_R. auto_derive; [exact I|ring].
    - intros t Ht. specialize (HB t ltac:(lra)). lra. }
  pose proof (exp_pos (- / 2 * x)). assert (exp (- / 2 * 1) <= 1) by (left; apply exp_lt_1; lra). nra.
Qed.
Lemma mono_lim (f : R -> R) (M : R) : (forall x y, 0 < x -> x <= y -> f x <= f y) -> (forall x, 0 < x -> f x <= M) -> exists l : R, is_lim f p_infty l /\ forall x, 0 < x -> f x <= l.
Proof.
  intros H1 H2. destruct (completeness (fun v => exists x, 0 < x /\ v = f x)) as [l [L1 L2]].
  - exists M. intros v (x & Hx & ->). now apply H2.
  - exists (f 1). exists 1. split; [lra|reflexivity].
  - exists l. split; [|intros x Hx; apply L1; exists x; auto].
    apply is_lim_spec. intros e. assert (N : exists x, 0 < x /\ l - e < f x).
    { apply Classical_Prop.NNPP. intros Hn. assert (l <= l - e); [|destruct e; cbn in *; lra]. apply L2. intros v (x & Hx & ->). destruct (Rle_dec (f x) (l - e)); [assumption|]. exfalso. apply Hn. exists x. split; [exact Hx|lra]. }
    destruct N as (x & Hx & Hl). exists x. intros y Hy. assert (f y <= l) by (apply L1; exists y; split; [lra|reflexivity]). pose proof (H1 x y Hx ltac:(lra)). apply Rabs_def1; destruct e; cbn in *; lra.
Qed.
Lemma gamma_exists : exists Gam, gamma_function Gam.
Proof.
  exists (fun a => real (Lim (ginc a) p_infty)). intros a Ha.
  assert (M1 : forall y z, 0 < y -> y <= z -> ginc a y <= ginc a z). { apply (inc_half (ginc a) (fun x => Rpower x (a - 1) * exp (- x))); [intros; now apply ginc_derive|intros; apply Rmult_le_pos; left; apply exp_pos]. }
  destruct (ginc_bounded a Ha) as [M HM]. destruct (mono_lim (ginc a) M M1 HM) as (l & L & Hl). rewrite (is_lim_unique _ _ _ L). cbn.
  assert (l0 : 0 < l) by (pose proof (Hl 1 Rlt_0_1); pose proof (ginc_pos a 1 Ha Rlt_0_1); lra). split; [exact l0|].
  exists (fun x => / l * ginc a x). split; [|split].
  - intros x Hx. eapply is_derive_eq; [apply is_derive_scal_R, ginc_derive; assumption|]. unfold gamma_pdf. rewrite (is_lim_unique _ _ _ L). cbn. unfold Rdiv. ring.
  - apply lim_scal_at0, ginc_lim0, Ha.
  - replace (Finite 1) with (Rbar_mult (/ l) l) by (cbn; f_equal; field; lra). now apply is_lim_scal_l.
Qed.
