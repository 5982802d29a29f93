(** The shift 5/6 of the lognormal in SabrMixtureChoi is the one that reproduces the conditional skewness to leading order in the vol-of-vol. *)
From Coq Require Import Reals Lra Lia.
From Coquelicot Require Import Coquelicot.
From Verif Require Import Base Sums M_Opt M_Sabr M_Dist M_SabrMix.
Open Scope R_scope.

Definition skew_of (m : R * R * R * R) : R := snd (fst m).
(** the skewness of the distribution mixchoi_inner takes its nodes from *)
Definition mixchoi_fit (lam v z : R) : lnd := let '(m, vs, _, _) := cond_avgvar_mvsk v z in ln_fit2 m vs lam.
Definition skew_ratio (lam z w : R) : R :=
  sqrt (/ lam ^ 2 * (/ 3 - (6 - z ^ 2) / 45 * w) / (108 / 25 - 4 / 875 * (51 * z ^ 2 - 716) * w)) * (w * (/ 3 - (6 - z ^ 2) / 45 * w) / lam ^ 2 + 3).
Lemma skew_ratio_eq (lam z v : R) : 0 < lam -> 0 < v < / 10 -> v * (1 + z ^ 2) < 1 ->
  skew_of (ln_mvsk (mixchoi_fit lam v z)) / skew_of (cond_avgvar_mvsk v z) = skew_ratio lam z (v ^ 2).
Proof.
  intros Hl [V0 V1] Vz. unfold mixchoi_fit, cond_avgvar_mvsk. destruct (cond_mnc cond_avgvar_mfn v z) as [[[m1 n2] n3] n4]. cbv zeta.
  assert (V2 : v ^ 2 < / 100) by nra. destruct (Rlt_dec (v ^ 2) (/ 100)) as [_|N]; [|contradiction].
  assert (W0 : 0 < v ^ 2) by nra. assert (Wz : v ^ 2 * (1 + z ^ 2) < / 10) by nra. pose proof (pow2_ge_0 z) as Z0. set (w := v ^ 2) in *.
  unfold skew_of, ln_mvsk, ln_fit2, skew_ratio. cbn [ln_sig ln_lam ln_mu fst snd].
  set (a := / 3 - (6 - z ^ 2) / 45 * w). set (b := 108 / 25 - 4 / 875 * (51 * z ^ 2 - 716) * w).
  assert (A : 0 < a) by (unfold a; nra). assert (B : 0 < b) by (unfold b; nra).
  assert (L2 : 0 < lam ^ 2) by nra. assert (Q : 0 < w * a / lam ^ 2) by (apply Rdiv_lt_0_compat; [nra|exact L2]).
  rewrite <- Rsqr_pow2, Rsqr_sqrt by (rewrite <- ln_1; apply ln_le_R; lra). rewrite exp_ln by lra.
  replace (1 + w * a / lam ^ 2 - 1) with (w * a / lam ^ 2) by ring.
  replace (/ lam ^ 2 * a / b) with (w * a / lam ^ 2 / (w * b)) by (field; repeat split; nra).
  rewrite (sqrt_div (w * a / lam ^ 2)) by nra. assert (S : 0 < sqrt (w * b)) by (apply sqrt_lt_R0; nra). field. lra.
Qed.
Lemma skew_limit (lam z : R) : 0 < lam ->
  filterlim (fun v => skew_of (ln_mvsk (mixchoi_fit lam v z)) / skew_of (cond_avgvar_mvsk v z)) (at_right 0) (locally (5 / (6 * lam))).
Proof.
  intros Hl. apply (filterlim_ext_loc (fun v => skew_ratio lam z (v ^ 2))).
  - assert (D : 0 < Rmin (/ 10) (/ (1 + z ^ 2))). { apply Rmin_pos; [lra|]. apply Rinv_0_lt_compat. nra. }
    unfold at_right, within, locally. exists (mkposreal _ D). intros v Hv V0. change (Rabs (v - 0) < Rmin (/ 10) (/ (1 + z ^ 2))) in Hv.
    rewrite Rminus_0_r, Rabs_right in Hv by lra.
    symmetry. apply skew_ratio_eq; [exact Hl|split; [exact V0|eapply Rlt_le_trans; [exact Hv|apply Rmin_l]]|].
    assert (Z : 0 < 1 + z ^ 2) by nra. apply (Rmult_lt_reg_r (/ (1 + z ^ 2))); [apply Rinv_0_lt_compat, Z|].
    rewrite Rmult_assoc, Rinv_r, Rmult_1_r, Rmult_1_l by lra. eapply Rlt_le_trans; [exact Hv|apply Rmin_r].
  - assert (K : filter_le (at_right 0) (locally 0)) by (intros P [e He]; exists e; intros y Hy _; apply He, Hy).
    apply (filterlim_filter_le_1 _ K). clear K.
    assert (L2 : 0 < lam ^ 2) by nra.
    assert (E : skew_ratio lam z (0 ^ 2) = 5 / (6 * lam)).
    { unfold skew_ratio. replace (0 ^ 2) with 0 by ring. rewrite !Rmult_0_r, !Rmult_0_l. replace (0 / lam ^ 2) with 0 by (field; lra).
      replace (/ lam ^ 2 * (/ 3 - 0) / (108 / 25 - 0)) with ((5 / (18 * lam)) * (5 / (18 * lam))) by (field; lra).
      rewrite sqrt_square by (apply Rlt_le, Rdiv_lt_0_compat; lra). field. lra. }
    rewrite <- E. change (continuous (fun v => skew_ratio lam z (v ^ 2)) 0).
    apply (ex_derive_continuous (V := R_NormedModule)). unfold skew_ratio. auto_derive.
    replace (0 ^ 2) with 0 by ring. rewrite ?Rmult_0_r, ?Rmult_0_l.
    repeat split; try lra; try nra. rewrite !Rmult_0_r. replace (lam * (lam * 1)) with (lam ^ 2) by ring.
    apply Rmult_lt_0_compat; [apply Rmult_lt_0_compat; [apply Rinv_0_lt_compat, L2|lra]|apply Rinv_0_lt_compat; lra].
Qed.

Lemma mixchoi_skew (z : R) :
  (forall v zw1, mixchoi_inner v z zw1 = ln_quad (mixchoi_fit sln_lam v z) zw1) /\
  filterlim (fun v => skew_of (ln_mvsk (mixchoi_fit sln_lam v z)) / skew_of (cond_avgvar_mvsk v z)) (at_right 0) (locally 1).
Proof.
  split. { intros v zw1. unfold mixchoi_inner, mixchoi_fit. destruct (cond_avgvar_mvsk v z) as [[[m vs] sk] ku]. reflexivity. }
  assert (L : 0 < sln_lam) by (unfold sln_lam; lra). pose proof (skew_limit sln_lam z L) as H.
  replace (5 / (6 * sln_lam)) with 1 in H by (unfold sln_lam; field). exact H.
Qed.
