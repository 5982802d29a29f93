(** Proofs about Bsm (model in M_Opt.v). *)
From Coq Require Import Reals Lra Psatz List ZArith.
From Coquelicot Require Import Coquelicot.
From Verif Require Import Base Gauss P_Black Spec_Opt M_Opt.
Import ListNotations.
Open Scope R_scope.

Lemma eps_pos : 0 < eps.
Proof. unfold eps. apply Rinv_0_lt_compat. apply pow_lt. lra. Qed.

Lemma sigma_std_pos s T : 0 < sigma_std s T.
Proof. unfold sigma_std. eapply Rlt_le_trans; [apply eps_pos | apply Rmax_r]. Qed.

Lemma sigma_std_big s T : eps <= s * sqrt T -> sigma_std s T = s * sqrt T.
Proof. intros H. unfold sigma_std. now apply Rmax_left. Qed.

Definition mF (m : opt) (S T : R) := FWD (intr m) (divr m) (is_fwd m) S T.
Definition mD (m : opt) (T : R) := DF (intr m) T.

Lemma mD_pos m T : 0 < mD m T.
Proof. apply exp_pos. Qed.

Lemma mF_pos m S T : 0 < S -> 0 < mF m S T.
Proof.
  intros H. unfold mF, FWD. destruct (is_fwd m); [exact H|].
  apply Rmult_lt_0_compat; [exact H | apply exp_pos].
Qed.

Lemma fdd_eq m S T :
  fwd_df_divf m S T = (mF m S T, mD m T, if is_fwd m then 1 else exp (- (divr m * T))).
Proof.
  unfold fwd_df_divf, mF, mD, FWD, DF.
  replace (- intr m * T) with (- (intr m * T)) by ring.
  destruct (is_fwd m); [reflexivity|].
  replace (- divr m * T) with (- (divr m * T)) by ring.
  f_equal. f_equal. unfold Rdiv. rewrite Rmult_assoc. f_equal.
  rewrite <- exp_Ropp, <- exp_plus. f_equal. ring.
Qed.

Lemma forward_eq m S T : forward m S T = mF m S T.
Proof. reflexivity. Qed.

Lemma bsm_price_eq m K S T cp :
  bsm_price m K S T cp = mD m T * black (sigma_std (sigma m) T) (mF m S T) K cp.
Proof.
  unfold bsm_price, bsm_price_formula, black.
  assert (E : S * (if is_fwd m then 1 else exp (- T * divr m) / exp (- T * intr m)) = mF m S T).
  { unfold mF, FWD. destruct (is_fwd m); [ring|].
    f_equal. rewrite <- exp_sub. f_equal. ring. }
  rewrite E. unfold mD, DF. replace (- T * intr m) with (- (intr m * T)) by ring.
  replace (/ 2 * sigma_std (sigma m) T) with (sigma_std (sigma m) T / 2) by field.
  ring.
Qed.

Lemma bsm_d1_eq m K F T :
  bsm_d1 m K F T = ln (F / K) / sigma_std (sigma m) T + sigma_std (sigma m) T / 2.
Proof. unfold bsm_d1. f_equal. field. Qed.
Lemma bsm_d2_eq m K F T :
  bsm_d2 m K F T = ln (F / K) / sigma_std (sigma m) T - sigma_std (sigma m) T / 2.
Proof. unfold bsm_d2. unfold Rminus. f_equal. f_equal. field. Qed.

(** C01 *)
Lemma bsm_parity m K S T :
  bsm_price m K S T 1 - bsm_price m K S T (-1) = DF (intr m) T * (FWD (intr m) (divr m) (is_fwd m) S T - K).
Proof.
  rewrite !bsm_price_eq. rewrite <- Rmult_minus_distr_l, black_parity. reflexivity.
Qed.

(** C02 *)
Lemma bsm_bounds m K S T cp : call_or_put cp -> 0 < K -> 0 < S ->
  DF (intr m) T * payoff cp K (FWD (intr m) (divr m) (is_fwd m) S T) < bsm_price m K S T cp
  /\ bsm_price m K S T cp
     < DF (intr m) T * (if Rlt_dec 0 cp then FWD (intr m) (divr m) (is_fwd m) S T else K).
Proof.
  intros Hcp HK HS. rewrite bsm_price_eq.
  pose proof (mF_pos m S T HS) as HF. pose proof (mD_pos m T) as HD.
  pose proof (sigma_std_pos (sigma m) T) as Hs. fold (mD m T) (mF m S T).
  split; apply Rmult_lt_compat_l; try exact HD.
  - unfold payoff. now apply black_lower.
  - now apply black_upper.
Qed.

(** C03 *)
Lemma bsm_mono_sigma m s1 s2 K S T cp : call_or_put cp -> 0 < K -> 0 < S ->
  eps <= s2 * sqrt T -> s1 * sqrt T < s2 * sqrt T ->
  bsm_price (set_sigma m s1) K S T cp <= bsm_price (set_sigma m s2) K S T cp
  /\ (eps < s2 * sqrt T -> bsm_price (set_sigma m s1) K S T cp < bsm_price (set_sigma m s2) K S T cp).
Proof.
  intros Hcp HK HS He H12. rewrite !bsm_price_eq.
  change (mF (set_sigma m s1) S T) with (mF m S T). change (mF (set_sigma m s2) S T) with (mF m S T).
  change (mD (set_sigma m s1) T) with (mD m T). change (mD (set_sigma m s2) T) with (mD m T).
  cbn [sigma set_sigma].
  pose proof (mF_pos m S T HS) as HF. pose proof (mD_pos m T) as HD.
  assert (Hle : sigma_std s1 T <= sigma_std s2 T).
  { unfold sigma_std. apply Rmax_lub; [|apply Rmax_r]. eapply Rle_trans; [|apply Rmax_l]. lra. }
  split.
  - apply Rmult_le_compat_l; [lra|]. destruct Hle as [Hlt| ->]; [|lra].
    left. apply black_incr_s; auto. apply sigma_std_pos.
  - intros He'. apply Rmult_lt_compat_l; [exact HD|]. apply black_incr_s; auto; [apply sigma_std_pos|].
    rewrite (sigma_std_big s2) by exact He. unfold sigma_std. apply Rmax_lub_lt; assumption.
Qed.

Lemma bsm_mono_strike m K1 K2 S T : 0 < K1 -> K1 < K2 -> 0 < S ->
  bsm_price m K2 S T 1 < bsm_price m K1 S T 1 /\ bsm_price m K1 S T (-1) < bsm_price m K2 S T (-1).
Proof.
  intros H1 H12 HS. rewrite !bsm_price_eq.
  destruct (black_mono_K (sigma_std (sigma m) T) (mF m S T) K1 K2) as [A B]; auto using sigma_std_pos, mF_pos.
  pose proof (mD_pos m T). split; apply Rmult_lt_compat_l; assumption.
Qed.

Lemma bsm_convex_strike m K1 K2 l S T cp : call_or_put cp -> 0 < K1 -> 0 < K2 -> 0 < S -> 0 <= l <= 1 ->
  bsm_price m (l * K1 + (1 - l) * K2) S T cp <= l * bsm_price m K1 S T cp + (1 - l) * bsm_price m K2 S T cp.
Proof.
  intros Hcp H1 H2 HS Hl. rewrite !bsm_price_eq.
  pose proof (black_convex_K (sigma_std (sigma m) T) (mF m S T) K1 K2 l cp Hcp
                (sigma_std_pos _ _) (mF_pos m S T HS) H1 H2 Hl) as H.
  pose proof (mD_pos m T) as HD. apply (Rmult_le_compat_l (mD m T)) in H; [|lra]. lra.
Qed.

Lemma mF_lt m S1 S2 T : S1 < S2 -> mF m S1 T < mF m S2 T.
Proof.
  intros H. unfold mF, FWD. destruct (is_fwd m); [exact H|].
  apply Rmult_lt_compat_r; [apply exp_pos | exact H].
Qed.

Lemma bsm_mono_spot m K S1 S2 T : 0 < K -> 0 < S1 -> S1 < S2 ->
  bsm_price m K S1 T 1 < bsm_price m K S2 T 1 /\ bsm_price m K S2 T (-1) < bsm_price m K S1 T (-1).
Proof.
  intros HK H1 H12. rewrite !bsm_price_eq.
  destruct (black_mono_F (sigma_std (sigma m) T) (mF m S1 T) (mF m S2 T) K) as [A B];
    auto using sigma_std_pos, mF_pos, mF_lt.
  pose proof (mD_pos m T). split; apply Rmult_lt_compat_l; assumption.
Qed.

(** C11 *)
Lemma bsm_homog m K S T cp c : 0 < c -> 0 < K -> 0 < S ->
  bsm_price m (c * K) (c * S) T cp = c * bsm_price m K S T cp.
Proof.
  intros Hc HK HS. rewrite !bsm_price_eq.
  replace (mF m (c * S) T) with (c * mF m S T) by (unfold mF, FWD; destruct (is_fwd m); ring).
  rewrite black_homog by (auto using mF_pos). ring.
Qed.

(** ** Greeks *)

(** slope of the forward in spot *)
Definition fslope (m : opt) (T : R) := if is_fwd m then 1 else exp ((intr m - divr m) * T).

Lemma is_derive_mF_S m S T : is_derive (fun x => mF m x T) S (fslope m T).
Proof.
  unfold mF, FWD, fslope. destruct (is_fwd m); [apply is_derive_id_R|].
  auto_derive; [trivial|]. Req. ring.
Qed.

Lemma fslope_divf m T :
  mD m T * fslope m T = if is_fwd m then mD m T else exp (- (divr m * T)).
Proof.
  unfold mD, DF, fslope. destruct (is_fwd m); [ring|]. rewrite <- exp_plus. f_equal. ring.
Qed.

Lemma bsm_delta_derive m K S T cp : call_or_put cp -> 0 < K -> 0 < S ->
  is_derive (fun x => bsm_price m K x T cp) S (bsm_delta m K S T cp).
Proof.
  intros Hcp HK HS.
  apply (is_derive_ext (fun x => mD m T * black (sigma_std (sigma m) T) (mF m x T) K cp)).
  { intros x. now rewrite bsm_price_eq. }
  eapply is_derive_eq.
  - apply is_derive_scal_R.
    apply (black_total (fun _ => sigma_std (sigma m) T) (fun x => mF m x T) (fun _ => K) S 0 (fslope m T) 0 cp Hcp);
      auto using is_derive_const_R, is_derive_mF_S, sigma_std_pos, mF_pos.
  - unfold bsm_delta. rewrite fdd_eq. rewrite bsm_d1_eq.
    pose proof (fslope_divf m T) as E.
    replace (if is_fwd m then mD m T else if is_fwd m then 1 else exp (- (divr m * T)))
      with (mD m T * fslope m T) by (rewrite E; destruct (is_fwd m); reflexivity).
    ring.
Qed.

Lemma bsm_delta_eq m K S T cp :
  bsm_delta m K S T cp = cp * Phi (cp * (ln (mF m S T / K) / sigma_std (sigma m) T + sigma_std (sigma m) T / 2))
                         * (mD m T * fslope m T).
Proof.
  unfold bsm_delta. rewrite fdd_eq, bsm_d1_eq. f_equal.
  rewrite fslope_divf. destruct (is_fwd m); reflexivity.
Qed.

Lemma is_derive_ln_ratio_F (F K : R) : 0 < F -> 0 < K -> is_derive (fun x => ln (x / K)) F (/ F).
Proof.
  intros HF HK. pose proof (Rdiv_lt_0_compat F K HF HK). auto_derive; [unfold Rdiv in *; lra|].
  rfield. lra.
Qed.

Lemma bsm_delta_gamma m K S T cp : call_or_put cp -> 0 < K -> 0 < S ->
  100 * eps <= sigma m * sqrt T ->
  is_derive (fun x => bsm_delta m K x T cp) S (bsm_gamma m K S T cp).
Proof.
  intros Hcp HK HS He. pose proof eps_pos as Hep.
  pose proof (mF_pos m S T HS) as HF. pose proof (mD_pos m T) as HD.
  apply (is_derive_ext (fun x => (mD m T * fslope m T) * (cp *
      Phi (cp * (ln (mF m x T / K) / sigma_std (sigma m) T + sigma_std (sigma m) T / 2))))).
  { intros x. rewrite bsm_delta_eq. Req. ring. }
  set (s := sigma_std (sigma m) T).
  assert (Hs : 0 < s) by apply sigma_std_pos.
  assert (Hd : is_derive (fun x => cp * (ln (mF m x T / K) / s + s / 2)) S
                 (cp * (fslope m T * / mF m S T / s))).
  { apply is_derive_scal_R. eapply is_derive_eq.
    - apply is_derive_plus_R; [|apply is_derive_const_R].
      apply (is_derive_ext (fun x => / s * ln (mF m x T / K))); [intros; unfold Rdiv; Req; ring|].
      apply is_derive_scal_R.
      apply (is_derive_comp_R (fun y => ln (y / K)) (fun x => mF m x T)).
      + now apply is_derive_ln_ratio_F.
      + apply is_derive_mF_S.
    - dfield. lra. }
  eapply is_derive_eq.
  - apply is_derive_scal_R, is_derive_scal_R.
    apply (is_derive_Phi_comp (fun x => cp * (ln (mF m x T / K) / s + s / 2))). exact Hd.
  - cbv beta. rewrite npdf_cp by exact Hcp.
    unfold bsm_gamma. rewrite fdd_eq.
    replace (Rmax (sigma m * sqrt T) (100 * eps)) with s.
    2:{ unfold s, sigma_std. rewrite !Rmax_left; lra. }
    replace (/ 2 * s) with (s / 2) by field.
    set (N := npdf (ln (mF m S T / K) / s + s / 2)).
    replace (mD m T * fslope m T * (cp * (cp * (fslope m T * / mF m S T / s) * N)))
      with ((cp * cp) * (mD m T * N / mF m S T / s * (fslope m T) ^ 2)) by (field; lra).
    rewrite (cp_sq cp Hcp).
    pose proof (fslope_divf m T) as E.
    destruct (is_fwd m) eqn:Ef.
    + unfold fslope. rewrite Ef. ring.
    + rewrite <- E. replace (mD m T * fslope m T / mD m T) with (fslope m T) by (field; lra). ring.
Qed.

(** price as a function of sigma near a point above the floor *)
Lemma sigma_std_loc s T : eps < s * sqrt T ->
  locally s (fun u => sigma_std u T = u * sqrt T).
Proof.
  intros H. pose proof (sqrt_pos T) as HT.
  destruct HT as [HT|HT].
  2:{ rewrite <- HT in H. pose proof eps_pos. lra. }
  assert (Hd : 0 < (s - eps / sqrt T)).
  { apply (Rmult_lt_reg_r (sqrt T)); [exact HT|]. rewrite Rmult_minus_distr_r.
    unfold Rdiv. rewrite Rmult_assoc, Rinv_l by lra. lra. }
  exists (mkposreal _ Hd). intros u Hu. apply sigma_std_big.
  unfold ball in Hu; simpl in Hu. unfold AbsRing_ball, abs, minus, plus, opp in Hu; simpl in Hu.
  apply Rabs_def2 in Hu. destruct Hu as [_ Hu].
  assert (Hu' : eps / sqrt T <= u) by lra.
  apply (Rmult_le_compat_r (sqrt T)) in Hu'; [|lra].
  unfold Rdiv in Hu'. rewrite Rmult_assoc, Rinv_l in Hu' by lra. lra.
Qed.

Lemma bsm_vega_derive m K S T cp : call_or_put cp -> 0 < K -> 0 < S ->
  eps < sigma m * sqrt T ->
  is_derive (fun u => bsm_price (set_sigma m u) K S T cp) (sigma m) (bsm_vega m K S T cp).
Proof.
  intros Hcp HK HS He. pose proof eps_pos as Hep.
  pose proof (mF_pos m S T HS) as HF.
  apply (is_derive_ext_loc (fun u => mD m T * black (u * sqrt T) (mF m S T) K cp)).
  { apply (filter_imp (fun u => sigma_std u T = u * sqrt T)); [|apply sigma_std_loc, He].
    intros u Hu. rewrite bsm_price_eq. cbn [sigma set_sigma]. rewrite Hu. reflexivity. }
  eapply is_derive_eq.
  - apply is_derive_scal_R.
    apply (black_total (fun u => u * sqrt T) (fun _ => mF m S T) (fun _ => K) (sigma m) (sqrt T) 0 0 cp Hcp);
      auto using is_derive_const_R.
    + auto_derive; [trivial|]. Req. ring.
    + lra.
  - unfold bsm_vega. rewrite fdd_eq. rewrite bsm_d1_eq, (sigma_std_big (sigma m) T) by lra. ring.
Qed.

Lemma bsm_vega2_derive m K S T cp : call_or_put cp -> 0 < K -> 0 < S ->
  eps < sigma m * sqrt T ->
  is_derive (fun u => bsm_vega (set_sigma m u) K S T cp) (sigma m) (sqrt T * bsm_vega2 m K S T cp).
Proof.
  intros Hcp HK HS He. pose proof eps_pos as Hep.
  pose proof (mF_pos m S T HS) as HF.
  set (L := ln (mF m S T / K)).
  apply (is_derive_ext_loc (fun u => mD m T * mF m S T * sqrt T * npdf (L / (u * sqrt T) + u * sqrt T / 2))).
  { apply (filter_imp (fun u => sigma_std u T = u * sqrt T)); [|apply sigma_std_loc, He].
    intros u Hu. unfold bsm_vega. rewrite fdd_eq. rewrite bsm_d1_eq. cbn [sigma set_sigma]. rewrite Hu.
    change (mF (set_sigma m u) S T) with (mF m S T). change (mD (set_sigma m u) T) with (mD m T).
    fold L. Req. ring. }
  assert (Hsq : 0 < sqrt T).
  { pose proof (sqrt_pos T) as [H|H]; [exact H|]. rewrite <- H in He. lra. }
  assert (Hsig : 0 < sigma m) by nra.
  eapply is_derive_eq.
  - apply is_derive_scal_R.
    apply (is_derive_comp_R npdf (fun u => L / (u * sqrt T) + u * sqrt T / 2)).
    + apply is_derive_npdf.
    + auto_derive; [nra|]. reflexivity.
  - unfold bsm_vega2. rewrite fdd_eq, bsm_d1_eq, bsm_d2_eq, (sigma_std_big (sigma m) T) by lra. fold L.
    set (N := npdf (L / (sigma m * sqrt T) + sigma m * sqrt T / 2)).
    dfield. lra.
Qed.

Lemma is_derive_exp_lin (a T : R) : is_derive (fun t => exp (- (a * t))) T (- a * exp (- (a * T))).
Proof. auto_derive; [trivial|]. Req. ring. Qed.

Lemma is_derive_mF_T m S T :
  is_derive (fun t => mF m S t) T ((if is_fwd m then 0 else intr m - divr m) * mF m S T).
Proof.
  unfold mF, FWD. destruct (is_fwd m).
  - eapply is_derive_eq; [apply is_derive_const_R|]. ring.
  - auto_derive; [trivial|]. Req. ring.
Qed.

Lemma sqrtT_pos s T : eps < s * sqrt T -> 0 < sqrt T.
Proof. intros He. pose proof eps_pos. pose proof (sqrt_pos T) as [H'|H']; [exact H'|]. rewrite <- H' in He. lra. Qed.
Lemma T_pos s T : eps < s * sqrt T -> 0 < T.
Proof.
  intros He. pose proof (sqrtT_pos s T He) as H. destruct (Rlt_le_dec 0 T) as [H'|H']; [exact H'|].
  rewrite sqrt_neg_0 in H by exact H'. lra.
Qed.

Lemma sigma_std_loc_T s T : eps < s * sqrt T ->
  locally T (fun t => sigma_std s t = s * sqrt t).
Proof.
  intros H. pose proof (T_pos s T H) as HT.
  assert (Hc : continuous (fun t => s * sqrt t) T).
  { apply ex_derive_continuous_R. auto_derive. exact HT. }
  assert (Ho : locally T (fun t => eps < s * sqrt t)).
  { apply (Hc (fun y => eps < y)). apply (open_gt eps). exact H. }
  apply (filter_imp _ _ (fun t Ht => sigma_std_big s t (Rlt_le _ _ Ht)) Ho).
Qed.

(** theta = - dPrice/dT *)
Lemma bsm_theta_derive m K S T cp : call_or_put cp -> 0 < K -> 0 < S ->
  eps < sigma m * sqrt T ->
  is_derive (fun t => bsm_price m K S t cp) T (- bsm_theta m K S T cp).
Proof.
  intros Hcp HK HS He. pose proof eps_pos as Hep.
  pose proof (mF_pos m S T HS) as HF. pose proof (T_pos _ _ He) as HT. pose proof (sqrtT_pos _ _ He) as Hq.
  apply (is_derive_ext_loc (fun t => mD m t * black (sigma m * sqrt t) (mF m S t) K cp)).
  { apply (filter_imp (fun t => sigma_std (sigma m) t = sigma m * sqrt t)); [|apply sigma_std_loc_T, He].
    intros t Ht. rewrite bsm_price_eq, Ht. reflexivity. }
  assert (Hs : is_derive (fun t => sigma m * sqrt t) T (sigma m / (2 * sqrt T))).
  { auto_derive; [exact HT|]. rfield. lra. }
  eapply is_derive_eq.
  - apply is_derive_mult_R; [apply is_derive_exp_lin|].
    apply (black_total (fun t => sigma m * sqrt t) (fun t => mF m S t) (fun _ => K) T
             (sigma m / (2 * sqrt T)) _ 0 cp Hcp Hs (is_derive_mF_T m S T) (is_derive_const_R K T)); auto; lra.
  - unfold bsm_theta. rewrite bsm_price_eq, bsm_delta_eq. unfold bsm_vega. rewrite fdd_eq, bsm_d1_eq.
    rewrite (sigma_std_big (sigma m) T) by lra. cbv beta.
    fold (DF (intr m) T). change (DF (intr m) T) with (mD m T).
    set (s := sigma m * sqrt T). set (B := black s (mF m S T) K cp).
    set (P1 := Phi (cp * (ln (mF m S T / K) / s + s / 2))).
    set (P2 := Phi (cp * (ln (mF m S T / K) / s - s / 2))).
    set (N := npdf (ln (mF m S T / K) / s + s / 2)).
    assert (EF : (if is_fwd m then 0 else (intr m - divr m) * S * (cp * P1 * (mD m T * fslope m T)))
                 = mD m T * (if is_fwd m then 0 else intr m - divr m) * mF m S T * (cp * P1)).
    { unfold fslope, mF, FWD. destruct (is_fwd m); ring. }
    rewrite EF.
    assert (ET : sigma m / (2 * sqrt T) = sigma m / (2 * T) * sqrt T).
    { rewrite <- (sqrt_sqrt T) at 2 by lra. field. lra. }
    rewrite ET. ring.
Qed.

(** C05 *)
Lemma bsm_cdf_strike_derive m K S T cp : call_or_put cp -> 0 < K -> 0 < S ->
  is_derive (fun k => bsm_price m k S T cp) K (- cp * DF (intr m) T * bsm_cdf m K S T cp).
Proof.
  intros Hcp HK HS.
  apply (is_derive_ext (fun k => mD m T * black (sigma_std (sigma m) T) (mF m S T) k cp)).
  { intros x. now rewrite bsm_price_eq. }
  eapply is_derive_eq.
  - apply is_derive_scal_R. apply is_derive_black_K; auto using sigma_std_pos, mF_pos.
  - unfold bsm_cdf. rewrite fdd_eq, bsm_d2_eq. unfold mD. ring.
Qed.

Lemma bsm_cdf_sum m K S T :
  bsm_cdf m K S T 1 + bsm_cdf m K S T (-1) = 1 /\ 0 < bsm_cdf m K S T 1 < 1.
Proof.
  unfold bsm_cdf. rewrite fdd_eq. set (d := bsm_d2 m K (mF m S T) T).
  rewrite Rmult_1_l. replace (-1 * d) with (- d) by ring. split; [apply Phi_sym | apply Phi_bounds].
Qed.

(** ** Second and third derivatives *)

Lemma locally_pos S : 0 < S -> locally S (fun y => 0 < y).
Proof. intros H. apply (locally_gt (fun y => y) 0 S); [apply continuous_id | exact H]. Qed.

Lemma bsm_gamma_derive2 m K S T cp : call_or_put cp -> 0 < K -> 0 < S ->
  100 * eps <= sigma m * sqrt T ->
  is_derive_n (fun x => bsm_price m K x T cp) 2 S (bsm_gamma m K S T cp).
Proof.
  intros Hcp HK HS He. apply (is_derive_n_2 _ (fun x => bsm_delta m K x T cp)).
  - apply (filter_imp (fun y => 0 < y)); [|now apply locally_pos].
    intros y Hy. now apply bsm_delta_derive.
  - now apply bsm_delta_gamma.
Qed.

Lemma locally_floor s T : eps < s * sqrt T -> locally s (fun u => eps < u * sqrt T).
Proof.
  intros H. apply (locally_gt (fun u => u * sqrt T) eps s); [|exact H].
  apply ex_derive_continuous_R. auto_derive. trivial.
Qed.

Lemma bsm_vega2_derive2 m K S T cp : call_or_put cp -> 0 < K -> 0 < S ->
  eps < sigma m * sqrt T ->
  is_derive_n (fun u => bsm_price (set_sigma m u) K S T cp) 2 (sigma m) (sqrt T * bsm_vega2 m K S T cp).
Proof.
  intros Hcp HK HS He. apply (is_derive_n_2 _ (fun u => bsm_vega (set_sigma m u) K S T cp)).
  - apply (filter_imp (fun u => eps < u * sqrt T)); [|now apply locally_floor].
    intros u Hu. exact (bsm_vega_derive (set_sigma m u) K S T cp Hcp HK HS Hu).
  - now apply bsm_vega2_derive.
Qed.

Section VarDerivs.
  Variables (L a : R).
  Hypothesis Ha : 0 < a.
  Let d1f (u : R) := L / (u * a) + u * a / 2.
  Let d2f (u : R) := L / (u * a) - u * a / 2.

  Lemma vd_d1 u : 0 < u -> is_derive d1f u (- d2f u / u).
  Proof. intros Hu. unfold d1f, d2f. auto_derive; [nra|]. rfield. lra. Qed.
  Lemma vd_d2 u : 0 < u -> is_derive d2f u (- d1f u / u).
  Proof. intros Hu. unfold d1f, d2f. auto_derive; [nra|]. rfield. lra. Qed.
  Lemma vd_n u : 0 < u -> is_derive (fun v => npdf (d1f v)) u (d1f u * d2f u / u * npdf (d1f u)).
  Proof.
    intros Hu. eapply is_derive_eq.
    - apply (is_derive_comp_R npdf d1f); [apply is_derive_npdf | now apply vd_d1].
    - field. lra.
  Qed.
  Lemma vd_g1 u : 0 < u ->
    is_derive (fun v => npdf (d1f v) * / v) u (npdf (d1f u) * (d1f u * d2f u - 1) / u ^ 2).
  Proof.
    intros Hu. eapply is_derive_eq.
    - apply is_derive_mult_R; [now apply vd_n|]. auto_derive; [lra|]. reflexivity.
    - cbv beta. field. lra.
  Qed.
  Lemma vd_g2 u : 0 < u ->
    is_derive (fun v => npdf (d1f v) * ((d1f v * d2f v - 1) * / v ^ 3)) u
      (npdf (d1f u) * ((d1f u * d2f u - 1) * (d1f u * d2f u - 3) - (d1f u ^ 2 + d2f u ^ 2)) / u ^ 4).
  Proof.
    intros Hu. eapply is_derive_eq.
    - apply is_derive_mult_R; [now apply vd_n|].
      apply is_derive_mult_R.
      + apply is_derive_minus_R; [|apply is_derive_const_R].
        apply is_derive_mult_R; [now apply vd_d1 | now apply vd_d2].
      + assert (HU : 0 < u ^ 3) by (apply pow_lt; lra).
        apply (is_derive_inv (fun v => v ^ 3)); [auto_derive; [trivial|reflexivity] | lra].
    - dfield. lra.
  Qed.
  Lemma vd_sqrt (f : R -> R) (v df : R) : 0 < v -> is_derive f (sqrt v) df ->
    is_derive (fun w => f (sqrt w)) v (df / (2 * sqrt v)).
  Proof.
    intros Hv Hf. pose proof (sqrt_lt_R0 v Hv). eapply is_derive_eq.
    - apply (is_derive_comp_R f sqrt); [exact Hf|]. auto_derive; [exact Hv|]. reflexivity.
    - dfield. lra.
  Qed.
End VarDerivs.

(** price as a function of variance v: sigma = sqrt v *)
Definition price_of_var (m : opt) (K S T cp : R) (v : R) := bsm_price (set_sigma m (sqrt v)) K S T cp.

Section VarPrice.
  Variables (m : opt) (K S T cp : R).
  Hypotheses (Hcp : call_or_put cp) (HK : 0 < K) (HS : 0 < S).
  Let L := ln (mF m S T / K).
  Let C := mD m T * mF m S T * sqrt T.
  Let d1f (u : R) := L / (u * sqrt T) + u * sqrt T / 2.
  Let d2f (u : R) := L / (u * sqrt T) - u * sqrt T / 2.
  Let f1 (v : R) := C / 2 * (npdf (d1f (sqrt v)) * / sqrt v).
  Let f2 (v : R) := C / 4 * (npdf (d1f (sqrt v)) * ((d1f (sqrt v) * d2f (sqrt v) - 1) * / (sqrt v) ^ 3)).

  Lemma var_d1 v : 0 < v -> eps < sqrt v * sqrt T ->
    is_derive (price_of_var m K S T cp) v (f1 v).
  Proof.
    intros Hv He. pose proof (sqrt_lt_R0 v Hv) as Hq.
    pose proof (bsm_vega_derive (set_sigma m (sqrt v)) K S T cp Hcp HK HS He) as H.
    cbn [sigma set_sigma] in H.
    apply (is_derive_ext (fun w => (fun u => bsm_price (set_sigma (set_sigma m (sqrt v)) u) K S T cp) (sqrt w))).
    { intros; reflexivity. }
    eapply is_derive_eq; [apply (vd_sqrt (fun u => bsm_price (set_sigma (set_sigma m (sqrt v)) u) K S T cp)); [exact Hv | exact H]|].
    unfold bsm_vega. rewrite fdd_eq, bsm_d1_eq. cbn [sigma set_sigma].
    rewrite sigma_std_big by lra.
    change (mF (set_sigma m (sqrt v)) S T) with (mF m S T).
    change (mD (set_sigma m (sqrt v)) T) with (mD m T).
    unfold f1, C, d1f, L. field. lra.
  Qed.

  Lemma var_loc v : 0 < v -> eps < sqrt v * sqrt T ->
    locally v (fun w => 0 < w /\ eps < sqrt w * sqrt T).
  Proof.
    intros Hv He. apply filter_and.
    - now apply locally_pos.
    - apply (locally_gt (fun w => sqrt w * sqrt T)); [|exact He].
      apply ex_derive_continuous_R. auto_derive. exact Hv.
  Qed.

  Lemma var_f1 v : 0 < v -> 0 < sqrt T -> is_derive f1 v (f2 v).
  Proof.
    intros Hv HT. pose proof (sqrt_lt_R0 v Hv) as Hq. unfold f1. eapply is_derive_eq.
    - apply is_derive_scal_R. apply (vd_sqrt (fun u => npdf (d1f u) * / u)); [exact Hv|].
      apply (vd_g1 L (sqrt T) HT). exact Hq.
    - unfold f2. fold (d1f (sqrt v)) (d2f (sqrt v)). field. lra.
  Qed.

  Lemma var_d2 v : 0 < v -> eps < sqrt v * sqrt T -> is_derive_n (price_of_var m K S T cp) 2 v (f2 v).
  Proof.
    intros Hv He. apply (is_derive_n_2 _ f1).
    - apply (filter_imp (fun w => 0 < w /\ eps < sqrt w * sqrt T)); [|now apply var_loc].
      intros w [H1 H2]. now apply var_d1.
    - apply var_f1; [exact Hv|]. eapply sqrtT_pos; exact He.
  Qed.

  Lemma var_d3 v : 0 < v -> eps < sqrt v * sqrt T ->
    is_derive_n (price_of_var m K S T cp) 3 v
      (C / 8 * (npdf (d1f (sqrt v)) * ((d1f (sqrt v) * d2f (sqrt v) - 1) * (d1f (sqrt v) * d2f (sqrt v) - 3)
         - (d1f (sqrt v) ^ 2 + d2f (sqrt v) ^ 2)) / (sqrt v) ^ 5)).
  Proof.
    intros Hv He. pose proof (sqrtT_pos _ _ He) as HT. pose proof (sqrt_lt_R0 v Hv) as Hq.
    apply (is_derive_n_3 _ f1 f2).
    - apply (filter_imp (fun w => 0 < w /\ eps < sqrt w * sqrt T)); [|now apply var_loc].
      intros w [H1 H2]. now apply var_d1.
    - apply (filter_imp (fun w => 0 < w)); [|now apply locally_pos]. intros w Hw. now apply var_f1.
    - unfold f2. eapply is_derive_eq.
      + apply is_derive_scal_R.
        apply (vd_sqrt (fun u => npdf (d1f u) * ((d1f u * d2f u - 1) * / u ^ 3))); [exact Hv|].
        apply (vd_g2 L (sqrt T) HT). exact Hq.
      + fold (d1f (sqrt v)) (d2f (sqrt v)). field. lra.
  Qed.
End VarPrice.

(** The coded d2_var / d3_var are the true derivatives times spot/forward. *)
Lemma bsm_d2_var_derive m K S T cp : call_or_put cp -> 0 < K -> 0 < S ->
  0 < sigma m -> eps < sigma m * sqrt T ->
  is_derive_n (price_of_var m K S T cp) 2 (sigma m ^ 2)
    (mF m S T / S * bsm_d2_var m K S T cp).
Proof.
  intros Hcp HK HS Hs He.
  assert (E : sqrt (sigma m ^ 2) = sigma m) by (rewrite <- Rsqr_pow2; apply sqrt_Rsqr; lra).
  pose proof (var_d2 m K S T cp Hcp HK HS (sigma m ^ 2) ltac:(apply pow_lt; lra)) as H.
  cbv zeta beta in H. rewrite E in H. specialize (H He).
  match type of H with is_derive_n _ _ _ ?x => replace (mF m S T / S * bsm_d2_var m K S T cp) with x; [exact H|] end.
  unfold bsm_d2_var. rewrite fdd_eq, bsm_d1_eq, bsm_d2_eq, sigma_std_big by lra.
  pose proof (sqrtT_pos _ _ He). field. lra.
Qed.

Lemma bsm_d3_var_derive m K S T cp : call_or_put cp -> 0 < K -> 0 < S ->
  0 < sigma m -> eps < sigma m * sqrt T ->
  is_derive_n (price_of_var m K S T cp) 3 (sigma m ^ 2)
    (mF m S T / S * bsm_d3_var m K S T cp).
Proof.
  intros Hcp HK HS Hs He.
  assert (E : sqrt (sigma m ^ 2) = sigma m) by (rewrite <- Rsqr_pow2; apply sqrt_Rsqr; lra).
  pose proof (var_d3 m K S T cp Hcp HK HS (sigma m ^ 2) ltac:(apply pow_lt; lra)) as H.
  cbv zeta beta in H. rewrite E in H. specialize (H He).
  match type of H with is_derive_n _ _ _ ?x => replace (mF m S T / S * bsm_d3_var m K S T cp) with x; [exact H|] end.
  unfold bsm_d3_var. rewrite fdd_eq, bsm_d1_eq, bsm_d2_eq, sigma_std_big by lra.
  set (d1 := ln (mF m S T / K) / (sigma m * sqrt T) + sigma m * sqrt T / 2).
  set (d2 := ln (mF m S T / K) / (sigma m * sqrt T) - sigma m * sqrt T / 2).
  field. lra.
Qed.
