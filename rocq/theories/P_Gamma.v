(** Gamma function and gamma / non-central chi-square laws through power series. *)
From Coq Require Import Reals Lra Lia Psatz Arith FunctionalExtensionality.
From Coquelicot Require Import Coquelicot.
From Verif Require Import Base Sums Spec_Cev.
Open Scope R_scope.

Lemma CV_all (c : nat -> R) : (forall x, 0 < x -> ex_series (fun n => Rabs (c n) * x ^ n)) -> CV_radius c = p_infty.
Proof.
  intros H. pose proof (CV_radius_ge_0 c) as G. destruct (CV_radius c) as [r| |] eqn:E; [|reflexivity|now cbn in G].
  exfalso. apply (CV_disk_outside c (Rabs r + 1)).
  - rewrite E. cbn. rewrite (Rabs_right (Rabs r + 1)) by (pose proof (Rabs_pos r); lra). pose proof (Rle_abs r). lra.
  - apply ex_series_lim_0. apply ex_series_Rabs. eapply ex_series_ext; [|apply (H (Rabs r + 1) ltac:(pose proof (Rabs_pos r); lra))].
    intros n. cbv beta. rewrite Rabs_mult, (Rabs_right ((Rabs r + 1) ^ n)); [reflexivity|]. apply Rle_ge, pow_le. pose proof (Rabs_pos r). lra.
Qed.
Lemma fact_pos n : 0 < INR (fact n). Proof. apply INR_fact_lt_0. Qed.
Lemma exp_series x : is_series (fun n => / INR (fact n) * x ^ n) (exp x).
Proof. pose proof (is_exp_Reals x) as H. apply is_pseries_R in H. exact H. Qed.
(** coefficients dominated by C / n! *)
Lemma CV_fact (c : nat -> R) C : (forall n, Rabs (c n) <= C / INR (fact n)) -> CV_radius c = p_infty.
Proof.
  intros H. apply CV_all. intros x Hx. apply (ex_series_le (fun n => Rabs (c n) * x ^ n) (fun n => C * (/ INR (fact n) * x ^ n))).
  - intros n. change (norm (Rabs (c n) * x ^ n)) with (Rabs (Rabs (c n) * x ^ n)). rewrite Rabs_mult, Rabs_Rabsolu, (Rabs_right (x ^ n)) by (apply Rle_ge, pow_le; lra).
    replace (C * (/ INR (fact n) * x ^ n)) with (C / INR (fact n) * x ^ n) by (unfold Rdiv; ring). apply Rmult_le_compat_r; [apply pow_le; lra|apply H].
  - exists (C * exp x). apply (is_series_scal C (fun n => / INR (fact n) * x ^ n)). apply exp_series.
Qed.
Lemma ps_derive c x : CV_radius c = p_infty -> is_derive (PSeries c) x (PSeries (PS_derive c) x).
Proof. intros H. apply is_derive_PSeries. rewrite H. exact I. Qed.
Lemma ps_ex c x : CV_radius c = p_infty -> ex_series (fun n => c n * x ^ n).
Proof. intros H. assert (E : ex_pseries c x) by (apply CV_radius_inside; rewrite H; exact I). apply ex_pseries_R in E. exact E. Qed.
Lemma ps_cont c (x : R) : CV_radius c = p_infty -> continuous (PSeries c) x.
Proof. intros H. apply (ex_derive_continuous (K := R_AbsRing) (V := R_NormedModule) (PSeries c)). eexists. now apply ps_derive. Qed.

(** two antiderivatives on the half line with the same limit at 0 coincide *)
Lemma half_unique (f g d : R -> R) (l : R) : (forall x, 0 < x -> is_derive f x (d x)) -> (forall x, 0 < x -> is_derive g x (d x)) ->
  filterlim f (at_right 0) (locally l) -> filterlim g (at_right 0) (locally l) -> forall x, 0 < x -> f x = g x.
Proof.
  intros Hf Hg Lf Lg x Hx.
  assert (K : forall y, 0 < y -> f y - g y = f x - g x).
  { intros y Hy. assert (A : forall a b, 0 < a -> a <= b -> f b - g b = f a - g a).
    { intros a b Ha Hab. destruct (Req_dec a b) as [->|N]; [reflexivity|].
      symmetry. apply (eq_is_derive (fun t => f t - g t) a b); [|lra]. intros t Ht. evar_last; [apply @is_derive_minus; [apply Hf|apply Hg]; lra|]. apply minus_eq_zero. }
    destruct (Rle_dec x y); [now apply A|symmetry; apply A; lra]. }
  assert (L0 : filterlim (fun y => f y - g y) (at_right 0) (locally (l - l))).
  { exact (filterlim_comp_2 f (fun y => opp (g y)) plus Lf (filterlim_comp _ _ _ g opp _ _ _ Lg (filterlim_opp (l : R_NormedModule))) (filterlim_plus (l : R_NormedModule) (opp l))). }
  assert (L1 : filterlim (fun y => f y - g y) (at_right 0) (locally (f x - g x))).
  { apply (filterlim_ext_loc (fun _ => f x - g x)); [|apply filterlim_const]. exists (mkposreal 1 Rlt_0_1). intros y _ Hy. symmetry. now apply K. }
  assert (f x - g x = l - l); [|lra]. exact (filterlim_locally_unique _ _ _ L1 L0).
Qed.
Lemma pow_lim0 a : 0 < a -> filterlim (fun x => Rpower x a) (at_right 0) (locally 0).
Proof.
  intros Ha. apply filterlim_locally. intros e. set (d := Rpower e (/ a)). assert (D0 : 0 < d) by apply exp_pos. exists (mkposreal d D0). intros y Hy Hy0.
  change (Rabs (y - 0) < d) in Hy. rewrite Rminus_0_r, Rabs_right in Hy by lra.
  change (Rabs (Rpower y a - 0) < e). rewrite Rminus_0_r, Rabs_right by (left; apply exp_pos).
  replace (pos e) with (Rpower d a) by (unfold d; rewrite Rpower_mult, Rinv_l, Rpower_1 by (try apply cond_pos; lra); reflexivity).
  apply Rlt_Rpower_l; lra.
Qed.
Lemma rpow_derive a x : 0 < x -> is_derive (fun y => Rpower y a) x (a * Rpower x (a - 1)).
Proof.
  intros Hx. unfold Rpower. auto_derive; [exact Hx|]. replace ((a - 1) * ln x) with (a * ln x - ln x) by ring. unfold Rminus. rewrite exp_plus, exp_Ropp, exp_ln by exact Hx. field. lra.
Qed.
(** x^a e^{-x} PSeries c x on the half line *)
Definition hform (a : R) (c : nat -> R) (x : R) : R := Rpower x a * exp (- x) * PSeries c x.
Lemma at_right_cont (f : R -> R) : continuous f 0 -> filterlim f (at_right 0) (locally (f 0)).
Proof. intros C P HP. apply filter_le_within. exact (C P HP). Qed.
Lemma lim_mult_R {T} (F : (T -> Prop) -> Prop) {FF : Filter F} (f g : T -> R) (x y : R) : filterlim f F (locally x) -> filterlim g F (locally y) -> filterlim (fun t => f t * g t) F (locally (x * y)).
Proof. intros A B. exact (filterlim_comp_2 f g mult A B (filterlim_mult (K := R_AbsRing) x y)). Qed.
Lemma hform_lim0 a c : 0 < a -> CV_radius c = p_infty -> filterlim (hform a c) (at_right 0) (locally 0).
Proof.
  intros Ha Hc. replace 0 with (0 * (exp (- 0) * PSeries c 0)) at 2 by ring. unfold hform.
  apply (filterlim_ext (fun x => Rpower x a * (exp (- x) * PSeries c x))); [intros; ring|].
  apply lim_mult_R; [typeclasses eauto|now apply pow_lim0|]. apply (at_right_cont (fun x => exp (- x) * PSeries c x)).
  apply (continuous_mult (fun x => exp (- x)) (PSeries c)); [|now apply ps_cont]. apply (ex_derive_continuous (K := R_AbsRing) (V := R_NormedModule) (fun x => exp (- x))). auto_derive. exact I.
Qed.
(** its derivative: x^(a-1) e^{-x} PSeries d x with d 0 = a c 0, d (m+1) = (a+m+1) c (m+1) - c m *)
Definition hcoef (a : R) (c : nat -> R) (m : nat) : R := match m with O => a * c O | S k => (a + INR (S k)) * c (S k) - c k end.
Lemma hform_derive a c x : CV_radius c = p_infty -> 0 < x -> is_derive (hform a c) x (hform (a - 1) (hcoef a c) x).
Proof.
  intros Hc Hx. unfold hform.
  assert (P1 : is_derive (PSeries c) x (PSeries (PS_derive c) x)) by now apply ps_derive.
  evar_last.
  - apply (is_derive_mult (fun y => Rpower y a * exp (- y)) (PSeries c) x); [|exact P1|exact Rmult_comm].
    apply (is_derive_mult (fun y => Rpower y a) (fun y => exp (- y)) x (a * Rpower x (a - 1)) (- exp (- x))); [now apply rpow_derive| |exact Rmult_comm]. auto_derive; [exact I|ring].
  - change (((a * Rpower x (a - 1)) * exp (- x) + Rpower x a * - exp (- x)) * PSeries c x + Rpower x a * exp (- x) * PSeries (PS_derive c) x = Rpower x (a - 1) * exp (- x) * PSeries (hcoef a c) x).
    assert (PX : Rpower x a = Rpower x (a - 1) * x). { rewrite <- (Rpower_1 x Hx) at 3. rewrite <- Rpower_plus. f_equal. ring. }
    rewrite PX. replace (((a * Rpower x (a - 1)) * exp (- x) + Rpower x (a - 1) * x * - exp (- x)) * PSeries c x + Rpower x (a - 1) * x * exp (- x) * PSeries (PS_derive c) x)
      with (Rpower x (a - 1) * exp (- x) * (a * PSeries c x - x * PSeries c x + x * PSeries (PS_derive c) x)) by ring. f_equal.
    symmetry. apply is_pseries_unique.
    assert (I0 : is_pseries c x (PSeries c x)) by (apply PSeries_correct, CV_radius_inside; rewrite Hc; exact I).
    assert (I1 : is_pseries (PS_derive c) x (PSeries (PS_derive c) x)) by (apply PSeries_correct, CV_radius_inside; rewrite CV_radius_derive, Hc; exact I).
    apply (is_pseries_ext (PS_plus (PS_minus (PS_scal a c) (PS_incr_1 c)) (PS_incr_1 (PS_derive c)))).
    + intros [|m]; unfold PS_plus, PS_minus, PS_opp, PS_scal, PS_incr_1, PS_derive, hcoef, plus, opp, scal, zero; cbn -[INR]; unfold mult; cbn -[INR]; ring.
    + apply (is_pseries_plus (K := R_AbsRing) (V := R_NormedModule)); [|now apply (is_pseries_incr_1 (K := R_AbsRing) (V := R_NormedModule))].
      apply (is_pseries_minus (K := R_AbsRing) (V := R_NormedModule)); [|now apply (is_pseries_incr_1 (K := R_AbsRing) (V := R_NormedModule))].
      apply (is_pseries_scal (K := R_AbsRing) (V := R_NormedModule)); [apply Rmult_comm|exact I0].
Qed.
