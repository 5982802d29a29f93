(** Milevsky-Posner's law and the conditional prices behind Choi's quadrature. *)
From Coq Require Import Reals Lra Lia Arith List Psatz.
From Coquelicot Require Import Coquelicot.
From Verif Require Import Base Gauss Sums Spec_Expect Spec_Opt Spec_Dist Spec_Cev Spec_Recip Spec_Multi M_Opt M_Params M_Multi P_Black P_Bsm P_Expect P_Conv P_Half P_Multi P_Multi2 P_KlLaw P_Conv2 P_Multi5 P_Recip.
Open Scope R_scope.

Lemma milevsky_law Gam gc o K spot T : gamma_function Gam -> gamma_cdf_routine Gam gc -> 0 < K ->
  let fwd := mk_fwd (bk_m o) spot T in
  0 < mv_m1 o fwd -> 0 < var_of_raw (mv_m1 o fwd) (mv_m2 o fwd T) ->
  exists al be, 2 < al /\ 0 < be /\
  pos_expect (gamma_pdf Gam al) (fun g => be / g) (mv_m1 o fwd) /\
  pos_expect (gamma_pdf Gam al) (fun g => (be / g) ^ 2) (mv_m2 o fwd T) /\
  forall cp, call_or_put cp -> exists c, pos_expect (gamma_pdf Gam al) (fun g => payoff cp K (be / g)) c /\
    milevsky_price gc o K spot T cp = mk_df (bk_m o) T * c.
Proof.
  intros HG HR HK fwd H1 Hv. destruct (milevsky_matched o fwd T H1 Hv) as (Ha & Hb & Hc).
  set (al := 1 / mv_var_scaled o fwd T + 2) in *. set (be := (al - 1) * mv_m1 o fwd) in *.
  assert (Be : 0 < be) by (apply Rmult_lt_0_compat; lra).
  exists al, be. split; [exact Ha|]. split; [exact Be|]. split; [rewrite <- Hb; exact (ig_m1 Gam gc HG HR al be Ha)|]. split.
  - rewrite <- Hc. replace (be ^ 2 / ((al - 1) * (al - 2))) with ((be / (al - 1)) ^ 2 * ((al - 1) / (al - 2))) by (field; lra). exact (ig_m2 Gam gc HG HR al be Ha).
  - intros cp Hcp.
    assert (E : milevsky_price gc o K spot T cp = mk_df (bk_m o) T * (if Rlt_dec 0 cp then be / (al - 1) * gc (al - 1) (be / K) - K * gc al (be / K) else K * (1 - gc al (be / K)) - be / (al - 1) * (1 - gc (al - 1) (be / K)))).
    { unfold milevsky_price. cbv zeta. fold fwd. fold al. fold be. unfold invgam_formula. cbv zeta. rewrite Rmult_0_r, exp_0.
      replace (1 / (K / be)) with (be / K) by (field; lra). rewrite Hb. destruct (Rlt_dec 0 cp); field; lra. }
    rewrite E. destruct Hcp as [->| ->].
    + destruct (Rlt_dec 0 1); [|lra]. eexists. split; [apply (ig_call Gam gc HG HR al be Ha Be K HK)|reflexivity].
    + destruct (Rlt_dec 0 (-1)); [lra|]. eexists. split; [apply (ig_put Gam gc HG HR al be Ha Be K HK)|reflexivity].
Qed.

Section Cond.
Variables (o : bsk) (m : nat) (vm : mat) (spot : vec) (T K : R).
Hypothesis Hn : bn o = S m.
Hypothesis HF : factor_of (bn o) vm (ma_cov (bk_ma o)).
Hypothesis HT : 0 <= T.
Let fwd := mk_fwd (bk_m o) spot T.
Definition first_z (z1 : R) (z : vec) : vec := fun j => match j with O => z1 | S j => z j end.
Let B (z : vec) (z1 : R) : R := ln_basket (bn o) fwd (bk_w o) vm (ma_cov (bk_ma o)) T (first_z z1 z).
Let v1 : vec := fun i => vm i O * sqrt T.
Lemma choi_B z z1 : B z z1 = rsum (bn o) (fun i => choi_f m vm T z i * mv_v o fwd i * exp (v1 i * z1 - v1 i * v1 i / 2)).
Proof using Hn HF HT.
  unfold B, ln_basket. apply rsum_ext. intros i Hi. rewrite <- (HF i i Hi Hi). unfold corr_bm, choi_f, mv_v. rewrite Hn, !rsum_shift. cbn [first_z].
  transitivity (bk_w o i * (fwd i * (exp (rsum m (fun j => z j * (vm i (S j) * sqrt T)) - / 2 * rsum m (fun j => (vm i (S j) * sqrt T) ^ 2)) * exp (v1 i * z1 - v1 i * v1 i / 2)))); [|ring].
  f_equal. f_equal. rewrite <- exp_plus. f_equal.
  rewrite (rsum_ext m (fun j => (vm i (S j) * sqrt T) ^ 2) (fun j => T * (vm i (S j) * vm i (S j)))).
  2:{ intros j _. transitivity (sqrt T * sqrt T * (vm i (S j) * vm i (S j))); [ring|now rewrite (sqrt_sqrt T HT)]. }
  rewrite (rsum_ext m (fun j => z j * (vm i (S j) * sqrt T)) (fun j => sqrt T * (vm i (S j) * z j))) by (intros; ring). rewrite !rsum_scal.
  unfold v1. replace (vm i 0%nat * sqrt T * (vm i 0%nat * sqrt T)) with (vm i 0%nat * vm i 0%nat * T) by (transitivity (vm i 0%nat * vm i 0%nat * (sqrt T * sqrt T)); [now rewrite (sqrt_sqrt T HT)|ring]). field.
Qed.
Lemma choi_cond_call z d : gauss_expect (fun z1 => (B z z1 - K) * when_le (- d) z1) (choi_terms o v1 fwd K 1 (choi_f m vm T z, 1, d)).
Proof using Hn HF HT.
  unfold choi_terms. destruct (Req_EM_T 1 1) as [_|N]; [|contradiction]. rewrite !Rmult_1_l.
  assert (H1 : gauss_expect (fun z1 => B z z1 * when_le (- d) z1) (rsum (bn o) (fun k => choi_f m vm T z k * mv_v o fwd k * choi_nd1 d (v1 k)))).
  { eapply gauss_expect_ext; [|apply (ge_rsum (bn o) (fun i z1 => choi_f m vm T z i * mv_v o fwd i * (exp (v1 i * z1 - v1 i * v1 i / 2) * when_le (- d) z1)))].
    - intros z1. cbv beta. rewrite choi_B, <- rsum_scal_r. apply rsum_ext. intros i _. ring.
    - intros i _. cbv beta. apply gauss_expect_scal. unfold choi_nd1. replace (d + v1 i) with (v1 i - - d) by ring. exact (proj2 (ind_half (v1 i) (- d))). }
  assert (H2 : gauss_expect (when_le (- d)) (Phi d)).
  { pose proof (proj2 (ind_half 0 (- d))) as H. replace (0 - - d) with d in H by ring. eapply gauss_expect_ext; [|exact H]. intros y. cbv beta. replace (0 * y - 0 * 0 / 2) with 0 by field. rewrite exp_0, Rmult_1_l. reflexivity. }
  eapply gauss_expect_ext; [|exact (ge_minus _ _ _ _ H1 (gauss_expect_scal _ _ K H2))]. intros z1. cbv beta. ring.
Qed.
Lemma choi_cond_put z d : gauss_expect (fun z1 => (K - B z z1) * (1 - when_le (- d) z1)) (choi_terms o v1 fwd K (-1) (choi_f m vm T z, 1, d)).
Proof using Hn HF HT.
  assert (H1 : gauss_expect (B z) (rsum (bn o) (fun k => choi_f m vm T z k * mv_v o fwd k))).
  { eapply gauss_expect_ext; [|apply (ge_rsum (bn o) (fun i z1 => choi_f m vm T z i * mv_v o fwd i * exp (v1 i * z1 - v1 i * v1 i / 2)))].
    - intros z1. cbv beta. now rewrite choi_B.
    - intros i _. cbv beta. rewrite <- (Rmult_1_r (choi_f m vm T z i * mv_v o fwd i)) at 1. apply gauss_expect_scal.
      pose proof (gauss_expect_scal _ _ (exp (- (v1 i * v1 i / 2))) (gauss_mgf (v1 i))) as G. rewrite <- exp_plus in G. replace (- (v1 i * v1 i / 2) + v1 i * v1 i / 2) with 0 in G by ring. rewrite exp_0 in G.
      eapply gauss_expect_ext; [|exact G]. intros y. cbv beta. rewrite <- exp_plus. f_equal. ring. }
  pose proof (gauss_expect_plus _ _ _ _ (choi_cond_call z d) (ge_minus _ _ _ _ (gauss_expect_const K) H1)) as H.
  replace (choi_terms o v1 fwd K (-1) (choi_f m vm T z, 1, d)) with (choi_terms o v1 fwd K 1 (choi_f m vm T z, 1, d) + (K - rsum (bn o) (fun k => choi_f m vm T z k * mv_v o fwd k))).
  - eapply gauss_expect_ext; [|exact H]. intros z1. cbv beta. ring.
  - unfold choi_terms. destruct (Req_EM_T 1 1) as [_|N]; [|contradiction]. destruct (Req_EM_T (-1) 1) as [N|_]; [lra|].
    rewrite (rsum_ext (bn o) (fun k => choi_f m vm T z k * mv_v o fwd k * (1 - choi_nd1 d (v1 k))) (fun k => choi_f m vm T z k * mv_v o fwd k - choi_f m vm T z k * mv_v o fwd k * choi_nd1 d (v1 k))) by (intros; ring).
    rewrite rsum_minus. replace (-1 * d) with (- d) by ring. rewrite (Rmult_1_l d), (Phi_opp d). ring.
Qed.
Lemma choi_cond_price z d : (forall z1, - d <= z1 -> K <= B z z1) -> (forall z1, z1 < - d -> B z z1 <= K) ->
  forall cp, call_or_put cp -> gauss_expect (fun z1 => payoff cp K (B z z1)) (choi_terms o v1 fwd K cp (choi_f m vm T z, 1, d)).
Proof using Hn HF HT.
  intros Hu Hd cp [->| ->].
  - eapply gauss_expect_ext; [|apply choi_cond_call]. intros z1. cbv beta. unfold payoff, when_le. destruct (Rle_dec (- d) z1) as [H|H].
    + specialize (Hu z1 H). rewrite Rmax_left by lra. ring.
    + specialize (Hd z1 ltac:(lra)). rewrite Rmax_right by lra. ring.
  - eapply gauss_expect_ext; [|apply choi_cond_put]. intros z1. cbv beta. unfold payoff, when_le. destruct (Rle_dec (- d) z1) as [H|H].
    + specialize (Hu z1 H). rewrite Rmax_right by lra. ring.
    + specialize (Hd z1 ltac:(lra)). rewrite Rmax_left by lra. ring.
Qed.
End Cond.
Lemma choi_f_mean m vm T i : normals_expect m (fun z => choi_f m vm T z i) 1.
Proof.
  pose proof (normals_scal m _ _ (exp (- (nrm2 m (fun j => vm i (S j) * sqrt T) / 2))) (normals_mgf m (fun j => vm i (S j) * sqrt T))) as H.
  rewrite <- exp_plus in H. replace (- (nrm2 m (fun j => vm i (S j) * sqrt T) / 2) + nrm2 m (fun j => vm i (S j) * sqrt T) / 2) with 0 in H by ring. rewrite exp_0 in H.
  eapply normals_ext; [|exact H]. intros z. cbv beta. rewrite <- exp_plus. unfold choi_f, nrm2, lin. f_equal.
  rewrite (rsum_ext m (fun j => (vm i (S j) * sqrt T) ^ 2) (fun j => vm i (S j) * sqrt T * (vm i (S j) * sqrt T))) by (intros; ring).
  rewrite (rsum_ext m (fun j => z j * (vm i (S j) * sqrt T)) (fun j => vm i (S j) * sqrt T * z j)) by (intros; ring). field.
Qed.
