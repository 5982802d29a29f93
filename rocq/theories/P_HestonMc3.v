(** The Bessel distribution of the Poisson index, and the law of total variance over it. *)
From Coq Require Import Reals Lra Lia Arith Psatz.
From Coquelicot Require Import Coquelicot.
From Verif Require Import Base Sums M_Heston P_Cir P_KlSum M_HestonMc Spec_Dist Spec_Cev Spec_CevMc Spec_HestonMc P_Gamma P_Gamma2 P_Half P_Ncx2 P_HestonMc P_HestonMc2.
Open Scope R_scope.

Lemma series_shift (b : nat -> R) (l : R) : b 0%nat = 0 -> is_series (fun n => b (S n)) l -> is_series b l.
Proof. intros E H. apply series_rsum. apply series_rsum in H. apply is_lim_seq_incr_1. eapply is_lim_seq_ext; [|exact H]. intros n. rewrite rsum_shift, E. ring. Qed.

Section B.
Variable Gam : R -> R.
Hypothesis HG : gamma_function Gam.
Lemma Bs_series al w : 0 < al -> is_series (fun n => bsc Gam al n * w ^ n) (Bs Gam al w).
Proof. intros Ha. unfold Bs, PSeries. apply Series_correct. apply ps_ex. now apply bsc_cv. Qed.
Lemma bsc_S al n : 0 < al -> INR (S n) * bsc Gam al (S n) = bsc Gam (al + 1) n.
Proof.
  intros Ha. unfold bsc. rewrite fact_simpl, mult_INR. replace (al + INR (S n)) with (al + 1 + INR n) by (rewrite S_INR; ring).
  pose proof (Gam_pos Gam HG (al + 1 + INR n) ltac:(pose proof (pos_INR n); lra)). pose proof (fact_pos n).
  assert (0 < INR (S n)) by (apply lt_0_INR; lia). field. repeat split; lra.
Qed.
Lemma Bs_m1 al w : 0 < al -> is_series (fun n => INR n * (bsc Gam al n * w ^ n)) (w * Bs Gam (al + 1) w).
Proof.
  intros Ha. apply series_shift; [simpl; ring|]. eapply series_ext; [apply series_scal, (Bs_series (al + 1)); lra|].
  intros n. cbv beta. rewrite <- bsc_S by exact Ha. simpl pow. ring.
Qed.
Lemma Bs_m2 al w : 0 < al -> is_series (fun n => INR n ^ 2 * (bsc Gam al n * w ^ n)) (w ^ 2 * Bs Gam (al + 2) w + w * Bs Gam (al + 1) w).
Proof.
  intros Ha. apply series_shift; [simpl; ring|].
  replace (w ^ 2 * Bs Gam (al + 2) w + w * Bs Gam (al + 1) w) with (w * (w * Bs Gam (al + 1 + 1) w) + w * Bs Gam (al + 1) w).
  2:{ replace (al + 1 + 1) with (al + 2) by ring. ring. }
  eapply series_ext; [apply series_plus; [apply series_scal, (Bs_m1 (al + 1)); lra|apply series_scal, (Bs_series (al + 1)); lra]|].
  intros n. cbv beta. rewrite <- bsc_S by exact Ha. rewrite S_INR. simpl pow. ring.
Qed.
Lemma bI_term nu z n : bessel_I_term Gam nu z n = Rpower (z / 2) nu * (bsc Gam (nu + 1) n * ((z / 2) ^ 2) ^ n).
Proof. unfold bessel_I_term, bsc, Rdiv. rewrite pow_mult. replace (INR n + nu + 1) with (nu + 1 + INR n) by ring. ring. Qed.
Lemma bI_series nu z : -1 < nu -> is_series (bessel_I_term Gam nu z) (Rpower (z / 2) nu * Bs Gam (nu + 1) ((z / 2) ^ 2)).
Proof. intros Hn. eapply series_ext; [apply series_scal, (Bs_series (nu + 1)); lra|]. intros n. symmetry. apply bI_term. Qed.
Lemma bI_eq nu z : -1 < nu -> bessel_I Gam nu z = Rpower (z / 2) nu * Bs Gam (nu + 1) ((z / 2) ^ 2).
Proof. intros Hn. apply is_series_unique. now apply bI_series. Qed.
Lemma bI_pos nu z : -1 < nu -> 0 < bessel_I Gam nu z.
Proof. intros Hn. rewrite bI_eq by exact Hn. apply Rmult_lt_0_compat; [apply exp_pos|]. apply Bs_pos; [exact HG|lra|apply pow2_ge_0]. Qed.
Lemma bpmf_eq nu z n : -1 < nu -> bessel_pmf Gam nu z n = / Bs Gam (nu + 1) ((z / 2) ^ 2) * (bsc Gam (nu + 1) n * ((z / 2) ^ 2) ^ n).
Proof.
  intros Hn. unfold bessel_pmf. rewrite bI_eq, bI_term by exact Hn. assert (0 < Rpower (z / 2) nu) by apply exp_pos.
  pose proof (Bs_pos Gam HG (nu + 1) ((z / 2) ^ 2) ltac:(lra) (pow2_ge_0 _)). field. lra.
Qed.
Lemma bpmf_pos nu z n : -1 < nu -> z <> 0 -> 0 < bessel_pmf Gam nu z n.
Proof.
  intros Hn Hz. rewrite bpmf_eq by exact Hn. apply Rmult_lt_0_compat; [apply Rinv_0_lt_compat, Bs_pos; [exact HG|lra|apply pow2_ge_0]|].
  apply Rmult_lt_0_compat; [apply bsc_pos; [exact HG|lra]|]. apply pow_lt. apply pow2_gt_0. lra.
Qed.
Lemma bpmf_sum nu z : -1 < nu -> is_series (bessel_pmf Gam nu z) 1.
Proof.
  intros Hn. pose proof (Bs_pos Gam HG (nu + 1) ((z / 2) ^ 2) ltac:(lra) (pow2_ge_0 _)).
  replace 1 with (/ Bs Gam (nu + 1) ((z / 2) ^ 2) * Bs Gam (nu + 1) ((z / 2) ^ 2)) by (field; lra).
  eapply series_ext; [apply series_scal, (Bs_series (nu + 1)); lra|]. intros n. symmetry. now apply bpmf_eq.
Qed.
(** moments *)
Lemma bpmf_m1 nu z : -1 < nu -> 0 < z -> is_series (fun n => bessel_pmf Gam nu z n * INR n) (z / 2 * (bessel_I Gam (nu + 1) z / bessel_I Gam nu z)).
Proof.
  intros Hn Hz. pose proof (Bs_pos Gam HG (nu + 1) ((z / 2) ^ 2) ltac:(lra) (pow2_ge_0 _)).
  replace (z / 2 * (bessel_I Gam (nu + 1) z / bessel_I Gam nu z)) with (/ Bs Gam (nu + 1) ((z / 2) ^ 2) * ((z / 2) ^ 2 * Bs Gam (nu + 1 + 1) ((z / 2) ^ 2))).
  2:{ rewrite !bI_eq by lra. rewrite Rpower_plus, Rpower_1 by lra. assert (0 < Rpower (z / 2) nu) by apply exp_pos. set (b1 := Bs Gam (nu + 1) _) in *. set (b2 := Bs Gam (nu + 1 + 1) _). field. lra. }
  eapply series_ext; [apply series_scal, (Bs_m1 (nu + 1)); lra|]. intros n. cbv beta. rewrite bpmf_eq by exact Hn. ring.
Qed.
Lemma bpmf_m2 nu z : -1 < nu -> 0 < z -> is_series (fun n => bessel_pmf Gam nu z n * INR n ^ 2)
  ((z / 2) ^ 2 * (bessel_I Gam (nu + 2) z / bessel_I Gam nu z) + z / 2 * (bessel_I Gam (nu + 1) z / bessel_I Gam nu z)).
Proof.
  intros Hn Hz. pose proof (Bs_pos Gam HG (nu + 1) ((z / 2) ^ 2) ltac:(lra) (pow2_ge_0 _)).
  match goal with |- is_series _ ?v => replace v with (/ Bs Gam (nu + 1) ((z / 2) ^ 2) * (((z / 2) ^ 2) ^ 2 * Bs Gam (nu + 1 + 2) ((z / 2) ^ 2) + (z / 2) ^ 2 * Bs Gam (nu + 1 + 1) ((z / 2) ^ 2))) end.
  2:{ rewrite !bI_eq by lra. rewrite !Rpower_plus, Rpower_1 by lra. replace (Rpower (z / 2) 2) with ((z / 2) ^ 2) by (rewrite <- (Rpower_pow 2) by lra; f_equal; simpl; ring).
      replace (nu + 2 + 1) with (nu + 1 + 2) by ring.
      assert (0 < Rpower (z / 2) nu) by apply exp_pos. set (b1 := Bs Gam (nu + 1) _) in *. set (b2 := Bs Gam (nu + 1 + 1) _). set (b3 := Bs Gam (nu + 1 + 2) _). field. lra. }
  eapply series_ext; [apply series_scal, (Bs_m2 (nu + 1)); lra|]. intros n. cbv beta. rewrite bpmf_eq by exact Hn. ring.
Qed.

Section Eta.
Variable ive : R -> R -> R.
Hypothesis Hive : forall nu z, -1 < nu -> 0 < z -> ive nu z = exp (- z) * bessel_I Gam nu z.
Variables (c : cir) (dt v0 vt : R).
Hypothesis (Hxi : 0 < c_xi c) (Hmr : 0 < c_mr c) (Hth : 0 < c_theta c) (Hdt : 0 < dt) (Hv0 : 0 < v0) (Hvt : 0 < vt).
Lemma phi_pos : 0 < cir_phi c dt.
Proof.
  unfold cir_phi. assert (0 < c_mr c * dt) by now apply Rmult_lt_0_compat.
  assert (Hh : 0 < exp (- (c_mr c * dt / 2)) < 1). { split; [apply exp_pos|]. rewrite <- exp_0 at 1. apply exp_increasing. lra. }
  set (h := exp _) in *. cbv zeta. apply Rdiv_lt_0_compat. { apply Rdiv_lt_0_compat; [lra|now apply pow_lt]. }
  assert (1 < / h) by (rewrite <- Rinv_1 at 1; apply Rinv_lt_contravar; lra). lra.
Qed.
Lemma zz_pos : 0 < eta_zz c dt v0 vt.
Proof. unfold eta_zz. apply Rmult_lt_0_compat; [apply sqrt_lt_R0; now apply Rmult_lt_0_compat|apply phi_pos]. Qed.
Lemma chi_pos : 0 < chi_dim c.
Proof. unfold chi_dim. apply Rdiv_lt_0_compat; [|now apply pow_lt]. assert (0 < c_theta c * c_mr c) by now apply Rmult_lt_0_compat. lra. Qed.
Lemma nu_gt : -1 < eta_nu c. Proof. unfold eta_nu. pose proof chi_pos. lra. Qed.
Lemma eta_fst : fst (eta_mv ive c dt v0 vt) = eta_zz c dt v0 vt / 2 * (bessel_I Gam (eta_nu c + 1) (eta_zz c dt v0 vt) / bessel_I Gam (eta_nu c) (eta_zz c dt v0 vt)).
Proof.
  pose proof nu_gt. pose proof zz_pos. unfold eta_mv. cbn [fst]. rewrite !Hive by lra. pose proof (bI_pos (eta_nu c) (eta_zz c dt v0 vt) H). pose proof (exp_pos (- eta_zz c dt v0 vt)). field. lra.
Qed.
Lemma eta_fst_pos : 0 < fst (eta_mv ive c dt v0 vt).
Proof.
  pose proof nu_gt. pose proof zz_pos. rewrite eta_fst. pose proof (bI_pos (eta_nu c) (eta_zz c dt v0 vt) H). pose proof (bI_pos (eta_nu c + 1) (eta_zz c dt v0 vt) ltac:(lra)).
  apply Rmult_lt_0_compat; [lra|]. now apply Rdiv_lt_0_compat.
Qed.
Lemma eta_moments : let '(m, vs) := eta_mv ive c dt v0 vt in
  is_series (fun n => bessel_pmf Gam (eta_nu c) (eta_zz c dt v0 vt) n * INR n) m /\
  is_series (fun n => bessel_pmf Gam (eta_nu c) (eta_zz c dt v0 vt) n * INR n ^ 2) (vs * m ^ 2 + m ^ 2).
Proof.
  pose proof nu_gt as N. pose proof zz_pos as Z. pose proof eta_fst as E. pose proof eta_fst_pos as P.
  assert (ES : snd (eta_mv ive c dt v0 vt) * fst (eta_mv ive c dt v0 vt) ^ 2 + fst (eta_mv ive c dt v0 vt) ^ 2 =
    (eta_zz c dt v0 vt / 2) ^ 2 * (bessel_I Gam (eta_nu c + 2) (eta_zz c dt v0 vt) / bessel_I Gam (eta_nu c) (eta_zz c dt v0 vt)) +
    eta_zz c dt v0 vt / 2 * (bessel_I Gam (eta_nu c + 1) (eta_zz c dt v0 vt) / bessel_I Gam (eta_nu c) (eta_zz c dt v0 vt))).
  { unfold eta_mv in *. cbn [fst snd] in *. rewrite !Hive in * by lra.
    pose proof (bI_pos (eta_nu c) (eta_zz c dt v0 vt) N). pose proof (bI_pos (eta_nu c + 1) (eta_zz c dt v0 vt) ltac:(lra)). pose proof (exp_pos (- eta_zz c dt v0 vt)).
    field. repeat split; lra. }
  destruct (eta_mv ive c dt v0 vt) as [m vs]. cbn [fst snd] in *. split.
  - rewrite E. now apply bpmf_m1.
  - rewrite ES. now apply bpmf_m2.
Qed.
(** law of total expectation and variance: conditioning on the index, then averaging over it *)
Lemma cond_tower kk :
  let '(m, vs) := cond_avgvar_mv ive c dt v0 vt None kk in
  let mn n := fst (cond_avgvar_mv ive c dt v0 vt (Some (INR n)) kk) in
  let vn n := snd (cond_avgvar_mv ive c dt v0 vt (Some (INR n)) kk) * mn n ^ 2 in
  is_series (fun n => bessel_pmf Gam (eta_nu c) (eta_zz c dt v0 vt) n * mn n) m /\
  is_series (fun n => bessel_pmf Gam (eta_nu c) (eta_zz c dt v0 vt) n * (vn n + mn n ^ 2)) (vs * m ^ 2 + m ^ 2).
Proof.
  pose proof eta_moments as EM. pose proof eta_fst_pos as EP. pose proof (bpmf_sum (eta_nu c) (eta_zz c dt v0 vt) nu_gt) as S0.
  pose proof (x1star_fst_pos c dt Hxi Hmr Hdt kk) as P1. pose proof (x2star_fst_pos c dt Hxi Hmr Hdt kk) as P2. pose proof chi_pos as CP.
  unfold cond_avgvar_mv. destruct (eta_mv ive c dt v0 vt) as [me ve]. destruct (x1star c dt kk) as [mx vx]. destruct (x2star c dt kk) as [mz vz]. cbn [fst snd] in *.
  destruct EM as [S1 S2]. set (pm := bessel_pmf Gam (eta_nu c) (eta_zz c dt v0 vt)) in *. set (d2 := chi_dim c / 2).
  assert (HP : forall k : R, 0 <= k -> 0 < mx * (v0 + vt) + mz * (2 * k + d2)).
  { intros k Hk. assert (0 < d2) by (unfold d2; lra). apply Rplus_lt_le_0_compat; [apply Rmult_lt_0_compat; lra|apply Rmult_le_pos; lra]. }
  split.
  - replace (mx * (v0 + vt) + mz * (2 * me + d2)) with ((mx * (v0 + vt) + mz * d2) * 1 + 2 * mz * me) by ring.
    eapply series_ext; [apply series_plus; [apply series_scal, S0|apply series_scal, S1]|]. intros n. cbv beta. fold pm. ring.
  - pose proof (HP me ltac:(lra)) as HM.
    replace ((vx * mx ^ 2 * (v0 + vt) + vz * mz ^ 2 * (2 * me + d2) + ve * me ^ 2 * (2 * mz) ^ 2) / (mx * (v0 + vt) + mz * (2 * me + d2)) ^ 2 * (mx * (v0 + vt) + mz * (2 * me + d2)) ^ 2
      + (mx * (v0 + vt) + mz * (2 * me + d2)) ^ 2) with
      ((vx * mx ^ 2 * (v0 + vt) + vz * mz ^ 2 * d2 + (mx * (v0 + vt) + mz * d2) ^ 2) * 1 +
       ((2 * vz * mz ^ 2 + 4 * mz * (mx * (v0 + vt) + mz * d2)) * me + 4 * mz ^ 2 * (ve * me ^ 2 + me ^ 2))) by (field; lra).
    eapply series_ext; [apply series_plus; [apply series_scal, S0|apply series_plus; [apply series_scal, S1|apply series_scal, S2]]|]. intros n. cbv beta. fold pm.
    pose proof (HP (INR n) (pos_INR n)). field. lra.
Qed.
End Eta.
End B.
