(** Proofs about M_Mgf.v: normalisation, Levy property, stale corrections. *)
From Coq Require Import Reals Lra Lia List.
From Coquelicot Require Import Coquelicot.
From Verif Require Import Base M_Params M_Mgf M_Opt.
Open Scope R_scope.

Lemma exp_0_iff x : exp x = 1 <-> x = 0.
Proof. split; [apply exp_eq_1|intros ->; apply exp_0]. Qed.
Lemma vg_new_inv s n t o : vg_new s n t = Some o ->
  s_sigma o = s /\ s_nu o = n /\ s_theta o = t /\ 0 < 1 - t * n - / 2 * s ^ 2 * n /\
  s_corr o = - ln (1 - t * n - / 2 * s ^ 2 * n).
Proof.
  unfold vg_new, vg_post. destruct (Rle_dec _ _); [discriminate|]. intros [= <-]; simpl. repeat split; lra.
Qed.
Lemma nig_new_inv s n t o : nig_new s n t = Some o ->
  s_sigma o = s /\ s_nu o = n /\ s_theta o = t /\ 0 < 1 - 2 * t * n - s ^ 2 * n /\
  s_corr o = 1 - sqrt (1 - 2 * t * n - s ^ 2 * n).
Proof.
  unfold nig_new, nig_post. destruct (Rle_dec _ _); [discriminate|]. intros [= <-]; simpl. repeat split; lra.
Qed.

Lemma vg_mgf_0 o T : vg_mgf o 0 T = 1.
Proof. unfold vg_mgf. replace (1 + _ * 0) with 1 by ring. rewrite ln_1. apply exp_0_iff. ring. Qed.
Lemma vg_mgf_1 s n t o T : vg_new s n t = Some o -> vg_mgf o 1 T = 1.
Proof.
  intros H. apply vg_new_inv in H. destruct H as (E1 & E2 & E3 & Hp & E4).
  unfold vg_mgf. rewrite E1, E2, E3, E4. replace (1 + _ * 1) with (1 - t * n - / 2 * s ^ 2 * n) by ring.
  apply exp_0_iff. ring.
Qed.
Lemma nig_mgf_0 o T : nig_mgf o 0 T = 1.
Proof. unfold nig_mgf. replace (1 + _ * 0) with 1 by ring. rewrite sqrt_1. apply exp_0_iff. ring. Qed.
Lemma nig_mgf_1 s n t o T : nig_new s n t = Some o -> nig_mgf o 1 T = 1.
Proof.
  intros H. apply nig_new_inv in H. destruct H as (E1 & E2 & E3 & Hp & E4).
  unfold nig_mgf. rewrite E1, E2, E3, E4. replace (1 + _ * 1) with (1 - 2 * t * n - s ^ 2 * n) by ring.
  apply exp_0_iff. ring.
Qed.
Lemma cgmy_mgf_0 gam C G M Y o T : cgmy_new gam C G M Y = Some o -> cgmy_mgf o 0 T = 1.
Proof.
  unfold cgmy_new. destruct (cgmy_accepts C G M Y); [|discriminate]. intros [= <-]. unfold cgmy_mgf; simpl.
  rewrite Rminus_0_r, Rplus_0_r. apply exp_0_iff. ring.
Qed.
Lemma cgmy_mgf_1 gam C G M Y o T : cgmy_new gam C G M Y = Some o -> cgmy_mgf o 1 T = 1.
Proof.
  unfold cgmy_new. destruct (cgmy_accepts C G M Y); [|discriminate]. intros [= <-]. unfold cgmy_mgf; simpl.
  apply exp_0_iff. ring.
Qed.
Lemma bsm_mgf_01 m T : bsm_logp_mgf m 0 T = 1 /\ bsm_logp_mgf m 1 T = 1.
Proof. unfold bsm_logp_mgf. split; apply exp_0_iff; ring. Qed.

(** Levy property: independent increments *)
Lemma vg_mgf_add o u T1 T2 : vg_mgf o u (T1 + T2) = vg_mgf o u T1 * vg_mgf o u T2.
Proof. unfold vg_mgf. rewrite <- exp_plus. f_equal. unfold Rdiv. ring. Qed.
Lemma nig_mgf_add o u T1 T2 : nig_mgf o u (T1 + T2) = nig_mgf o u T1 * nig_mgf o u T2.
Proof. unfold nig_mgf. rewrite <- exp_plus. f_equal. unfold Rdiv. ring. Qed.
Lemma cgmy_mgf_add o u T1 T2 : cgmy_mgf o u (T1 + T2) = cgmy_mgf o u T1 * cgmy_mgf o u T2.
Proof. unfold cgmy_mgf. rewrite <- exp_plus. f_equal. ring. Qed.

(** stale correction: exact condition for the martingale property after obj.sigma = s2 *)
Lemma vg_stale s n t o s2 T : vg_new s n t = Some o -> n <> 0 -> T <> 0 ->
  0 < 1 - t * n - / 2 * s2 ^ 2 * n ->
  (vg_mgf (sub_set_sigma o s2) 1 T = 1 <-> s2 ^ 2 = s ^ 2).
Proof.
  intros H Hn HT Hp2. apply vg_new_inv in H. destruct H as (E1 & E2 & E3 & Hp & E4).
  unfold vg_mgf, sub_set_sigma; simpl. rewrite E2, E3, E4. rewrite exp_0_iff.
  replace (1 + (- t * n - / 2 * (n * (s2 * (s2 * 1))) * 1) * 1) with (1 - t * n - / 2 * s2 ^ 2 * n) by ring.
  set (a := 1 - t * n - / 2 * s ^ 2 * n) in *. set (b := 1 - t * n - / 2 * s2 ^ 2 * n) in *.
  split; intros E.
  - assert (L : ln a = ln b).
    { apply Rmult_integral in E. destruct E as [E|E]; [|lra].
      exfalso. apply Rmult_integral in E. destruct E as [E|E]; [lra|]. now apply Rinv_neq_0_compat in E. }
    apply ln_inv in L; [|lra|lra]. unfold a, b in L. simpl in L.
    apply (Rmult_eq_reg_l (/ 2 * n)); [simpl|]; nra.
  - assert (a = b) by (unfold a, b; simpl; rewrite E; ring). rewrite H. unfold Rdiv. ring.
Qed.
Lemma nig_stale s n t o s2 T : nig_new s n t = Some o -> n <> 0 -> T <> 0 ->
  0 < 1 - 2 * t * n - s2 ^ 2 * n ->
  (nig_mgf (sub_set_sigma o s2) 1 T = 1 <-> s2 ^ 2 = s ^ 2).
Proof.
  intros H Hn HT Hp2. apply nig_new_inv in H. destruct H as (E1 & E2 & E3 & Hp & E4).
  unfold nig_mgf, sub_set_sigma; simpl. rewrite E2, E3, E4. rewrite exp_0_iff.
  replace (1 + (-2 * t * n - n * (s2 * (s2 * 1)) * 1) * 1) with (1 - 2 * t * n - s2 ^ 2 * n) by ring.
  set (a := 1 - 2 * t * n - s ^ 2 * n) in *. set (b := 1 - 2 * t * n - s2 ^ 2 * n) in *.
  split; intros E.
  - assert (L : sqrt a = sqrt b).
    { apply Rmult_integral in E. destruct E as [E|E]; [|lra].
      exfalso. apply Rmult_integral in E. destruct E as [E|E]; [lra|]. now apply Rinv_neq_0_compat in E. }
    apply sqrt_inj in L; [|lra|lra]. unfold a, b in L. simpl in L.
    apply (Rmult_eq_reg_l n); [simpl|]; nra.
  - assert (a = b) by (unfold a, b; simpl; rewrite E; ring). rewrite H. unfold Rdiv. ring.
Qed.

(** Heston / OUSV / 3/2 / GARCH at u = 0 and u = 1 *)
Lemma heston_dd_pos p u : 0 < heston_beta p u -> u * (1 - u) = 0 -> heston_dd p u = heston_beta p u.
Proof.
  intros Hb Hu. unfold heston_dd. replace (_ + _) with (heston_beta p u ^ 2); [apply sqrt_pow2; lra|].
  rewrite Rmult_assoc, Hu. ring.
Qed.
Lemma heston_mgf_unit p u T : 0 < heston_beta p u -> u * (1 - u) = 0 -> heston_mgf p u T = 1.
Proof.
  intros Hb Hu. unfold heston_mgf, heston_gg. rewrite (heston_dd_pos p u Hb Hu).
  replace ((heston_beta p u - heston_beta p u) / (heston_beta p u + heston_beta p u)) with 0 by (unfold Rdiv; ring).
  replace ((1 - 0 * exp (- heston_beta p u * T)) / (1 - 0)) with 1 by field.
  rewrite ln_1. apply exp_0_iff. unfold Rdiv. ring.
Qed.
Lemma heston_mgf_01 p T : 0 < v_mr p -> v_rho p * v_vov p < v_mr p -> heston_mgf p 0 T = 1 /\ heston_mgf p 1 T = 1.
Proof. intros H0 H1. split; apply heston_mgf_unit; unfold heston_beta; lra. Qed.
(** otherwise the coded expression divides by zero at u = 1 *)
Lemma heston_mgf_1_singular p : v_mr p <= v_rho p * v_vov p -> heston_beta p 1 + heston_dd p 1 = 0.
Proof.
  intros H. unfold heston_dd. replace (_ + _ ^ 2 * 1 * (1 - 1)) with ((- heston_beta p 1) ^ 2) by ring.
  rewrite sqrt_pow2; [ring|]. unfold heston_beta. lra.
Qed.
Lemma ousv_mgf_unit p u T : 0 < ousv_beta p u -> u * (1 - u) = 0 -> ousv_mgf p u T = 1.
Proof.
  intros Hb Hu. unfold ousv_mgf, ousv_logmgf, ousv_gg.
  assert (E : ousv_dd p u = ousv_beta p u).
  { unfold ousv_dd. replace (_ + _) with (ousv_beta p u ^ 2); [apply sqrt_pow2; lra|]. rewrite Rmult_assoc, Hu. ring. }
  rewrite E. replace ((ousv_beta p u - ousv_beta p u) / (ousv_beta p u + ousv_beta p u)) with 0 by (unfold Rdiv; ring).
  rewrite !Rmult_0_l, !Rminus_0_r. replace (1 / 1) with 1 by field. rewrite ln_1. apply exp_0_iff. unfold Rdiv. ring.
Qed.
Lemma ousv_mgf_01 p T : 0 < v_mr p -> v_rho p * v_vov p < v_mr p -> ousv_mgf p 0 T = 1 /\ ousv_mgf p 1 T = 1.
Proof. intros H0 H1. split; apply ousv_mgf_unit; unfold ousv_beta; lra. Qed.
Lemma ousv_mgf_1_singular p : v_mr p <= v_rho p * v_vov p -> ousv_beta p 1 + ousv_dd p 1 = 0.
Proof.
  intros H. unfold ousv_dd. replace (_ + _ * 1 * (1 - 1)) with ((- ousv_beta p 1) ^ 2) by ring.
  rewrite sqrt_pow2; [ring|]. unfold ousv_beta. lra.
Qed.

Lemma hyp_loop_0 b x n : forall kk ret, hyp_loop 0 b x kk 0 ret n = ret.
Proof. induction n as [|n IH]; intros kk ret; simpl; [reflexivity|]. rewrite Rmult_0_l, Rplus_0_r. apply IH. Qed.
Lemma hyp1f1_0 n b x : hyp1f1 n 0 b x = 1.
Proof. unfold hyp1f1. replace (0 / b * x) with 0 by (unfold Rdiv; ring). rewrite Rplus_0_r. apply hyp_loop_0. Qed.
Lemma clip_0 c : 0 <= c -> clip 0 (- c) c = 0.
Proof. intros H. unfold clip. rewrite Rmax_left by lra. apply Rmin_left. lra. Qed.
Lemma sv32_mgf_unit lg n cap p u T : 0 <= cap -> 0 < sv32_mu p u -> u * (1 - u) = 0 -> sv32_mgf lg n cap p u T = 1.
Proof.
  intros Hc Hm Hu. unfold sv32_mgf. rewrite Hu. replace (0 / v_vov p ^ 2) with 0 by (unfold Rdiv; ring).
  rewrite Rplus_0_r, sqrt_pow2 by lra. replace (- sv32_mu p u + sv32_mu p u) with 0 by ring.
  rewrite hyp1f1_0, Rminus_0_r, Rmult_0_l, Rplus_0_r, Rminus_eq_0, clip_0, exp_0 by exact Hc. ring.
Qed.
Lemma sv32_mgf_01 lg n cap p T : 0 <= cap -> 0 <= v_mr p -> v_vov p <> 0 -> v_rho p * v_vov p <= v_mr p ->
  sv32_mgf lg n cap p 0 T = 1 /\ sv32_mgf lg n cap p 1 T = 1.
Proof.
  intros Hc H0 Hv H1. assert (0 < v_vov p ^ 2) by (apply pow2_gt_0; exact Hv).
  split; apply sv32_mgf_unit; try lra; unfold sv32_mu.
  - assert (0 <= (v_mr p - 0 * v_rho p * v_vov p) / v_vov p ^ 2) by (apply Rmult_le_pos; [lra|left; now apply Rinv_0_lt_compat]). lra.
  - assert (0 <= (v_mr p - 1 * v_rho p * v_vov p) / v_vov p ^ 2) by (apply Rmult_le_pos; [lra|left; now apply Rinv_0_lt_compat]). lra.
Qed.

Lemma garch_new_unit p u T : 0 < garch_gg p u -> u * (1 - u) = 0 -> exp (garch_new p u T) = 1.
Proof.
  intros Hg Hu. unfold garch_new. replace (u - u ^ 2) with 0 by (rewrite <- Hu; ring).
  replace (2 * v_vov p ^ 2 * v_theta p * 0 / (garch_dd p u + garch_gg p u)) with 0 by (unfold Rdiv; ring).
  rewrite !Rmult_0_r, !Rmult_0_l, !Rminus_0_r, ln_1. apply exp_0_iff. unfold Rdiv. ring.
Qed.
Lemma garch_new_01 p T : 0 < v_mr p -> 3 / 2 * (v_rho p * v_vov p * sqrt (v_theta p)) < v_mr p ->
  exp (garch_new p 0 T) = 1 /\ exp (garch_new p 1 T) = 1.
Proof. intros. split; apply garch_new_unit; unfold garch_gg; lra. Qed.
