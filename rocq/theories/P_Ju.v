(** Moments implied by call prices: Black's formula plus a correction of Ju's form. *)
From Coq Require Import Reals Lra Lia Arith List Psatz.
From Coquelicot Require Import Coquelicot.
From Verif Require Import Base Gauss Sums Spec_Expect Spec_Opt Spec_Dist P_Black P_Expect P_Conv P_Gmom P_Asian6 P_Half P_Dist5.
Open Scope R_scope.

Section Implied.
Variables (F s : R).
Hypotheses (HF : 0 < F) (Hs : 0 < s).
Variable k : nat.
Let kk := INR k.
Let Mk := F ^ k * exp (kk * (kk - 1) / 2 * (s * s)).
Definition d2f (K : R) : R := ln (F / K) / s - s / 2.
Let D (K : R) : R := d2f K + kk * s.
Definition pden (K : R) : R := npdf (d2f K) / s.
Lemma d2f_ln K : 0 < K -> d2f K = (ln F - ln K) / s - s / 2.
Proof using HF. intros HK. unfold d2f, Rdiv at 2. rewrite ln_mult, ln_Rinv by (try assumption; now apply Rinv_0_lt_compat). reflexivity. Qed.
Lemma d2f_exp K : 0 < K -> K = F * exp (- (s * (d2f K + s / 2))).
Proof using HF Hs.
  intros HK. rewrite d2f_ln by exact HK. replace (- (s * ((ln F - ln K) / s - s / 2 + s / 2))) with (ln K + - ln F) by (field; lra).
  rewrite exp_plus, exp_Ropp, !exp_ln by assumption. field. lra.
Qed.
Lemma pow_npdf K : 0 < K -> K ^ k * npdf (d2f K) = Mk * npdf (D K).
Proof using HF Hs.
  intros HK. unfold Mk, D. rewrite (d2f_exp K HK) at 1. set (d := d2f K). rewrite Rpow_mult_distr, <- exp_n. fold kk.
  replace (npdf (d + kk * s)) with (npdf (d - - (kk * s))) by (f_equal; ring). rewrite <- npdf_shift.
  replace (F ^ k * exp (kk * - (s * (d + s / 2))) * npdf d) with (F ^ k * npdf d * exp (kk * - (s * (d + s / 2)))) by ring.
  replace (F ^ k * exp (kk * (kk - 1) / 2 * (s * s)) * (exp (- (kk * s) * d - - (kk * s) * - (kk * s) / 2) * npdf d))
    with (F ^ k * npdf d * (exp (kk * (kk - 1) / 2 * (s * s)) * exp (- (kk * s) * d - - (kk * s) * - (kk * s) / 2))) by ring.
  rewrite <- exp_plus. f_equal. f_equal. field.
Qed.
Lemma d2f_derive (K : R) : 0 < K -> is_derive d2f K (- / (K * s)).
Proof using HF Hs.
  intros HK. unfold d2f. auto_derive.
  - split; [lra|]. split; [apply Rdiv_lt_0_compat; assumption|exact I].
  - Req. field. lra.
Qed.
(** tail bounds *)
Lemma lnX_pow m : gauss_expect (fun z => (F * exp (s * z - s * s / 2)) ^ m) (F ^ m * exp (INR m * (INR m - 1) / 2 * (s * s))).
Proof using.
  pose proof (gauss_expect_scal _ _ (F ^ m * exp (- (INR m * (s * s) / 2))) (gauss_mgf (INR m * s))) as H.
  replace (F ^ m * exp (INR m * (INR m - 1) / 2 * (s * s))) with (F ^ m * exp (- (INR m * (s * s) / 2)) * exp (INR m * s * (INR m * s) / 2)).
  - eapply gauss_expect_ext; [|exact H]. intros z. cbv beta. rewrite Rpow_mult_distr, <- exp_n. rewrite !Rmult_assoc, <- exp_plus. f_equal. f_equal. field.
  - rewrite Rmult_assoc, <- exp_plus. f_equal. f_equal. field.
Qed.
Lemma call_tail m K : 0 < K -> K ^ m * black s F K 1 <= F ^ S m * exp (INR (S m) * (INR (S m) - 1) / 2 * (s * s)).
Proof using HF Hs.
  intros HK. refine (ge_le _ _ _ _ (gauss_expect_scal _ _ (K ^ m) (black_expect s F K Hs HF HK 1 (or_introl eq_refl))) (lnX_pow (S m)) _).
  intros z. cbv beta. set (X := F * exp (s * z - s * s / 2)). assert (HX : 0 < X) by (apply Rmult_lt_0_compat; [exact HF|apply exp_pos]). clearbody X.
  unfold payoff, Rmax. destruct (Rle_dec (1 * (X - K)) 0) as [L|L].
  - rewrite Rmult_0_r. apply pow_le. lra.
  - cbn [pow]. rewrite Rmult_comm. apply Rmult_le_compat; [lra|apply pow_le; lra|lra|]. apply pow_incr. lra.
Qed.
Lemma prob_tail m K : 0 < K -> K ^ m * Phi (d2f K) <= F ^ m * exp (INR m * (INR m - 1) / 2 * (s * s)).
Proof using HF Hs.
  intros HK. pose proof (ge_refl _ _ (gauss_ind (d2f K))) as I. cbv beta in I.
  refine (ge_le _ _ _ _ (gauss_expect_scal _ _ (K ^ m) I) (lnX_pow m) _).
  intros z. cbv beta. destruct (Rle_dec (- z) (d2f K)) as [L|L].
  - rewrite Rmult_1_r. apply pow_incr. split; [lra|]. rewrite (d2f_exp K HK) at 1. apply Rmult_le_compat_l; [lra|]. apply exp_le. nra.
  - rewrite Rmult_0_r. apply pow_le. left. apply Rmult_lt_0_compat; [exact HF|apply exp_pos].
Qed.
Lemma D_0 : filterlim D (at_right 0) (Rbar_locally p_infty).
Proof using HF Hs.
  apply (filterlim_ext_loc (fun K => (ln F / s - s / 2 + kk * s) + - / s * ln K)).
  - exists (mkposreal 1 Rlt_0_1). intros K _ HK. unfold D. rewrite d2f_ln by exact HK. field. lra.
  - assert (L : filterlim (fun K => - / s * ln K) (at_right 0) (Rbar_locally p_infty)).
    { apply (filterlim_comp _ _ _ ln (fun y => - / s * y) _ (Rbar_locally m_infty)); [exact is_lim_ln_0|].
      intros P (B & HB). exists (- (s * B)). intros y Hy. apply HB. assert (0 < / s) by now apply Rinv_0_lt_compat.
      apply (Rmult_lt_reg_l s); [exact Hs|]. replace (s * (- / s * y)) with (- y) by (field; lra). lra. }
    intros P (B & HB). specialize (L (fun y => P (ln F / s - s / 2 + kk * s + y))). apply L.
    exists (B - (ln F / s - s / 2 + kk * s)). intros y Hy. apply HB. lra.
Qed.
Lemma D_inf : filterlim D (Rbar_locally p_infty) (Rbar_locally m_infty).
Proof using HF Hs.
  apply (filterlim_ext_loc (fun K => (ln F / s - s / 2 + kk * s) + - / s * ln K)).
  - exists 0. intros K HK. unfold D. rewrite d2f_ln by exact HK. field. lra.
  - assert (L : filterlim (fun K => - / s * ln K) (Rbar_locally p_infty) (Rbar_locally m_infty)).
    { apply (filterlim_comp _ _ _ ln (fun y => - / s * y) _ (Rbar_locally p_infty)); [exact is_lim_ln_p|].
      intros P (B & HB). exists (- (s * B)). intros y Hy. apply HB. assert (0 < / s) by now apply Rinv_0_lt_compat.
      apply (Rmult_lt_reg_l s); [exact Hs|]. replace (s * (- / s * y)) with (- y) by (field; lra). lra. }
    intros P (B & HB). specialize (L (fun y => P (ln F / s - s / 2 + kk * s + y))). apply L.
    exists (B - (ln F / s - s / 2 + kk * s)). intros y Hy. apply HB. lra.
Qed.
Variables (z1 z2 z3 : R).
Hypothesis Hk : (2 <= k)%nat.
Let W := 1 + kk * (kk - 1) * (z1 - kk * z2 + kk ^ 2 * z3).
Let c0 := kk * (kk - 1) * (z2 / s - z3 * (2 * kk / s)).
Let c1 := kk * (kk - 1) * z3 / s ^ 2.
Let G1 (K : R) := kk * K ^ (k - 1) * black s F K 1 + K ^ k * Phi (d2f K).
Let G2 (x : R) := Mk * (W * (1 - Phi x) + (c0 + c1 * x) * npdf x).
Definition ju_form (K : R) : R := black s F K 1 + K * (z1 * pden K + z2 * (pden K * d2f K / s) + z3 * (pden K * (d2f K ^ 2 - 1) / s ^ 2)).
Let g (K : R) := kk * (kk - 1) * K ^ (k - 2) * ju_form K.
Lemma G_derive (K : R) : 0 < K -> is_derive (fun K => G1 K + G2 (D K)) K (g K).
Proof using HF Hs Hk.
  intros HK.
  assert (D1 : is_derive G1 K (kk * (kk - 1) * K ^ (k - 2) * black s F K 1 - K ^ (k - 1) * npdf (d2f K) / s)).
  { unfold G1. eapply is_derive_eq.
    - apply (is_derive_plus (fun K => kk * K ^ (k - 1) * black s F K 1) (fun K => K ^ k * Phi (d2f K))).
      + apply (is_derive_mult_R (fun K => kk * K ^ (k - 1)) (fun K => black s F K 1) K (kk * (INR (k - 1) * K ^ (k - 2))) (- (1) * Phi (1 * (ln (F / K) / s - s / 2)))).
        * apply (is_derive_scal_R (fun K => K ^ (k - 1)) kk). replace (k - 2)%nat with (pred (k - 1)) by lia. auto_derive; [trivial|]. Req. ring.
        * exact (is_derive_black_K s F K 1 (or_introl eq_refl) Hs HF HK).
      + apply (is_derive_mult_R (fun K => K ^ k) (fun K => Phi (d2f K)) K (kk * K ^ (k - 1)) (- / (K * s) * npdf (d2f K))).
        * replace (k - 1)%nat with (pred k) by lia. unfold kk. auto_derive; [trivial|]. Req. ring.
        * apply (is_derive_comp Phi d2f K); [apply is_derive_Phi|now apply d2f_derive].
    - unfold plus; cbn. cbv beta. Req. rewrite minus_INR by lia. fold kk. replace (INR 1) with 1 by reflexivity.
      replace (1 * (ln (F / K) / s - s / 2)) with (d2f K) by (unfold d2f; ring).
      replace (K ^ k) with (K * K ^ (k - 1)) by (replace k with (S (k - 1)) at 2 by lia; reflexivity).
      field. lra. }
  assert (D2 : forall x : R, is_derive G2 x (Mk * (npdf x * (- W + c1 - c0 * x - c1 * x ^ 2)))).
  { intros x. unfold G2. eapply is_derive_eq.
    - apply (is_derive_scal_R (fun x => W * (1 - Phi x) + (c0 + c1 * x) * npdf x) Mk).
      apply (is_derive_plus (fun x => W * (1 - Phi x)) (fun x => (c0 + c1 * x) * npdf x)).
      + apply (is_derive_scal_R (fun x => 1 - Phi x) W). apply (is_derive_minus_R (fun _ => 1) Phi x 0 (npdf x)); [apply (is_derive_const (V := R_NormedModule) 1 x)|apply is_derive_Phi].
      + apply (is_derive_mult_R (fun x => c0 + c1 * x) npdf x c1 (- x * npdf x)); [auto_derive; [trivial|Req; ring]|apply is_derive_npdf].
    - unfold plus; cbn. Req. ring. }
  eapply is_derive_eq.
  - refine (is_derive_plus G1 (fun K => G2 (D K)) K _ _ D1 _). refine (is_derive_comp G2 D K (Mk * (npdf (D K) * (- W + c1 - c0 * D K - c1 * D K ^ 2))) (- / (K * s)) (D2 _) _).
    unfold D. eapply is_derive_eq; [apply (is_derive_plus d2f (fun _ => kk * s) K _ 0 (d2f_derive K HK) (is_derive_const (V := R_NormedModule) (kk * s) K))|]. unfold plus; cbn. Req. ring.
  - transitivity ((kk * (kk - 1) * K ^ (k - 2) * black s F K 1 - K ^ (k - 1) * npdf (d2f K) / s) + - / (K * s) * (Mk * (npdf (D K) * (- W + c1 - c0 * D K - c1 * D K ^ 2)))); [reflexivity|].
    pose proof (pow_npdf K HK) as P.
    assert (EK : K ^ k = K ^ 2 * K ^ (k - 2)) by (rewrite <- pow_add; f_equal; lia).
    assert (EK1 : K ^ (k - 1) = K * K ^ (k - 2)) by (replace (k - 1)%nat with (S (k - 2)) by lia; reflexivity).
    replace (Mk * (npdf (D K) * (- W + c1 - c0 * D K - c1 * D K ^ 2))) with ((Mk * npdf (D K)) * (- W + c1 - c0 * D K - c1 * D K ^ 2)) by ring.
    rewrite <- P, EK, EK1. unfold g, ju_form, pden, W, c0, c1, D. set (d := d2f K). set (nd := npdf d). set (B := black s F K 1). set (Q := K ^ (k - 2)).
    clearbody d nd B Q kk. clear - HK Hs. field. lra.
Qed.
Lemma g_cont (K : R) : 0 < K -> continuous g K.
Proof using HF Hs.
  intros HK. apply ex_derive_continuous_R. unfold g, ju_form, pden.
  assert (E1 : ex_derive (fun K => black s F K 1) K) by (eexists; exact (is_derive_black_K s F K 1 (or_introl eq_refl) Hs HF HK)).
  assert (E2 : ex_derive d2f K) by (eexists; now apply d2f_derive).
  assert (E3 : ex_derive npdf (d2f K)) by (eexists; apply is_derive_npdf).
  set (Bf := fun K => black s F K 1) in *. change (ex_derive (fun K => kk * (kk - 1) * K ^ (k - 2) * (Bf K + K * (z1 * (npdf (d2f K) / s) + z2 * (npdf (d2f K) / s * d2f K / s) + z3 * (npdf (d2f K) / s * (d2f K ^ 2 - 1) / s ^ 2)))) K).
  change (ex_derive Bf K) in E1. clearbody Bf. assert (S0 : s <> 0) by lra. auto_derive. repeat match goal with |- _ /\ _ => split end; try assumption; try exact I.
Qed.
Lemma G1_0 : filterlim G1 (at_right 0) (locally 0).
Proof using HF Hs Hk.
  apply (filterlim_le_le (F := at_right 0) (fun _ => 0) G1 (fun K => kk * F * K + K) 0).
  - exists (mkposreal 1 Rlt_0_1). intros K HB HK. unfold ball in HB; cbn in HB. unfold AbsRing_ball, abs, minus, plus, opp in HB; cbn in HB. apply Rabs_def2 in HB.
    pose proof (black_call_pos s F K Hs HF HK) as B0. pose proof (black_upper s F K 1 (or_introl eq_refl) Hs HF HK) as B1. destruct (Rlt_dec 0 1) as [_|C]; [|lra].
    pose proof (Phi_pos (d2f K)) as P0. pose proof (Phi_lt_1 (d2f K)) as P1. assert (Hkk : 0 <= kk) by apply pos_INR.
    assert (K1 : 0 <= K ^ (k - 1) <= K). { split; [apply pow_le; lra|]. replace (k - 1)%nat with (S (k - 2)) by lia. cbn [pow]. assert (K ^ (k - 2) <= 1) by (rewrite <- (pow1 (k - 2)); apply pow_incr; lra). assert (0 <= K ^ (k - 2)) by (apply pow_le; lra). nra. }
    assert (K2 : 0 <= K ^ k <= K). { split; [apply pow_le; lra|]. replace k with (S (k - 1)) by lia. cbn [pow]. nra. }
    unfold G1. split.
    + apply Rplus_le_le_0_compat; apply Rmult_le_pos; try lra. apply Rmult_le_pos; lra.
    + apply Rplus_le_compat; [|nra]. rewrite !Rmult_assoc. apply Rmult_le_compat_l; [exact Hkk|]. rewrite (Rmult_comm F). apply Rmult_le_compat; lra.
  - apply filterlim_const.
  - assert (C : continuous (fun K => kk * F * K + K) 0) by (apply ex_derive_continuous_R; auto_derive; trivial). unfold continuous in C.
    assert (E : kk * F * 0 + 0 = 0) by ring. rewrite E in C. intros P HP. specialize (C P HP). destruct C as [e He]. exists e. intros y Hy _. apply He, Hy.
Qed.
Lemma G1_inf : is_lim G1 p_infty 0.
Proof using HF Hs Hk.
  set (A := F ^ S k * exp (INR (S k) * (INR (S k) - 1) / 2 * (s * s))).
  apply (is_lim_le_le_loc (fun _ => 0) (fun K => (kk * A + A) * / K) G1 p_infty 0).
  - exists 0. intros K HK. pose proof (call_tail k K HK) as T1. pose proof (prob_tail (S k) K HK) as T2. fold A in T1, T2. cbn [pow] in T2.
    pose proof (black_call_pos s F K Hs HF HK) as B0. pose proof (Phi_pos (d2f K)) as P0. assert (Hkk : 0 <= kk) by apply pos_INR.
    assert (K1 : 0 <= K ^ (k - 1)) by (apply pow_le; lra). assert (K2 : 0 <= K ^ k) by (apply pow_le; lra). unfold G1. split.
    + apply Rplus_le_le_0_compat; apply Rmult_le_pos; try lra. apply Rmult_le_pos; lra.
    + apply (Rmult_le_reg_l K); [exact HK|]. replace (K * ((kk * A + A) * / K)) with (kk * A + A) by (field; lra).
      replace (K * (kk * K ^ (k - 1) * black s F K 1 + K ^ k * Phi (d2f K))) with (kk * (K ^ k * black s F K 1) + K * K ^ k * Phi (d2f K)).
      2:{ replace (K ^ k) with (K * K ^ (k - 1)) at 1 by (replace k with (S (k - 1)) at 2 by lia; reflexivity). ring. }
      apply Rplus_le_compat; [apply Rmult_le_compat_l; assumption|exact T2].
  - apply is_lim_const.
  - replace (Finite 0) with (Rbar_mult (kk * A + A) 0) by (cbn; f_equal; ring). apply is_lim_scal_l. replace (Finite 0) with (Rbar_inv p_infty) by reflexivity. apply is_lim_inv; [apply is_lim_id|discriminate].
Qed.
Lemma G2_p : is_lim G2 p_infty 0.
Proof using.
  unfold G2. replace (Finite 0) with (Rbar_mult Mk 0) by (cbn; f_equal; ring). apply is_lim_scal_l. replace (Finite 0) with (Finite (W * (1 - 1) + 0)) by (f_equal; ring).
  apply is_lim_plus'; [|apply lin_npdf_p]. apply (is_lim_scal_l (fun x => 1 - Phi x) W p_infty (1 - 1)). apply is_lim_minus'; [apply is_lim_const|exact Phi_lim_p].
Qed.
Lemma G2_m : is_lim G2 m_infty (Mk * W).
Proof using.
  unfold G2. apply (is_lim_scal_l (fun x => W * (1 - Phi x) + (c0 + c1 * x) * npdf x) Mk m_infty W). replace (Finite W) with (Finite (W * (1 - 0) + 0)) by (f_equal; ring).
  apply is_lim_plus'; [|apply lin_npdf_m]. apply (is_lim_scal_l (fun x => 1 - Phi x) W m_infty (1 - 0)). apply is_lim_minus'; [apply is_lim_const|exact Phi_lim_m].
Qed.
(** the k-th moment implied by the corrected call prices *)
Lemma ju_implied : half_line g (Mk * W).
Proof using HF Hs Hk.
  replace (Mk * W) with ((0 + Mk * W) - (0 + 0)) by ring. apply (half_line_anti (fun K => G1 K + G2 (D K))).
  - exact G_derive.
  - exact g_cont.
  - exact (filterlim_comp_2 _ _ Rplus G1_0 (filterlim_comp _ _ _ D G2 _ _ _ D_0 G2_p) (filterlim_plus (V := R_NormedModule) 0 0)).
  - apply is_lim_plus'; [exact G1_inf|]. exact (filterlim_comp _ _ _ D G2 _ _ _ D_inf G2_m).
Qed.
End Implied.
