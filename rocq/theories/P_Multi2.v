(** Baskets: Bachelier exact price, true moments of the lognormal basket, parity. *)
From Coq Require Import Reals Lra Lia Psatz List Arith.
From Coquelicot Require Import Coquelicot.
From Verif Require Import Base Gauss Sums Spec_Opt Spec_Expect Spec_Multi M_Opt M_Params M_Fd M_Sabr M_Multi Spec_Multi2 P_Black P_Bsm P_Norm P_Expect P_KlLaw P_Sabr2 P_Conv P_Conv2 P_Multi.
Open Scope R_scope.

Section Factor.
  Variables (n : nat) (l cov : nat -> nat -> R) (t : R).
  Hypotheses (HF : factor_of n l cov) (Ht : 0 <= t).
  Definition ld (i : nat) : nat -> R := fun j => sqrt t * l i j.
  Lemma corr_lin z i : corr_bm n l t z i = lin n (ld i) z.
  Proof using. unfold corr_bm, lin, ld. rewrite <- rsum_scal. apply rsum_ext. intros. ring. Qed.
  Lemma ld_dot i j : (i < n)%nat -> (j < n)%nat -> lin n (ld i) (ld j) = cov i j * t.
  Proof using HF Ht.
    intros Hi Hj. rewrite <- (HF i j Hi Hj), Rmult_comm, <- rsum_scal. unfold lin, ld. apply rsum_ext. intros k _.
    transitivity (sqrt t * sqrt t * (l i k * l j k)); [ring|]. rewrite sqrt_sqrt by exact Ht. reflexivity.
  Qed.
  Lemma ld_nrm i : (i < n)%nat -> nrm2 n (ld i) = cov i i * t.
  Proof using HF Ht. intros. rewrite <- ld_dot by assumption. reflexivity. Qed.
  Lemma cov_sym i j : (i < n)%nat -> (j < n)%nat -> cov i j = cov j i.
  Proof using HF. intros. rewrite <- !HF by assumption. apply rsum_ext. intros. ring. Qed.
  Lemma asset_tilt z i : (i < n)%nat -> exp (corr_bm n l t z i - cov i i * t / 2) = tilt n (ld i) z.
  Proof using HF Ht. intros Hi. unfold tilt. rewrite corr_lin, ld_nrm by exact Hi. reflexivity. Qed.

  (** loading of a weighted sum of the Brownian motions *)
  Definition wl (w : nat -> R) : nat -> R := fun j => rsum n (fun i => w i * ld i j).
  Lemma wl_lin w z : rsum n (fun i => w i * corr_bm n l t z i) = lin n (wl w) z.
  Proof using.
    unfold lin, wl. rewrite (rsum_ext n (fun i => w i * corr_bm n l t z i) (fun i => rsum n (fun j => w i * ld i j * z j))).
    2:{ intros i _. rewrite corr_lin. unfold lin. rewrite <- rsum_scal. apply rsum_ext. intros. ring. }
    rewrite rsum_swap. apply rsum_ext. intros j _. rewrite <- rsum_scal_r. reflexivity.
  Qed.
  Lemma wl_dot w i : (i < n)%nat -> lin n (wl w) (ld i) = t * rsum n (fun j => w j * cov j i).
  Proof using HF Ht.
    intros Hi. unfold lin, wl. rewrite (rsum_ext n _ (fun k => rsum n (fun j => w j * ld j k * ld i k))).
    2:{ intros k _. rewrite <- rsum_scal_r. reflexivity. }
    rewrite rsum_swap, <- rsum_scal. apply rsum_ext. intros j Hj.
    rewrite (rsum_ext n _ (fun k => w j * (ld j k * ld i k))) by (intros; ring). rewrite rsum_scal.
    change (rsum n (fun k => ld j k * ld i k)) with (lin n (ld j) (ld i)). rewrite ld_dot by assumption. ring.
  Qed.
  Lemma wl_nrm w : nrm2 n (wl w) = t * rsum n (fun j => rsum n (fun i => w i * cov i j) * w j).
  Proof using HF Ht.
    change (nrm2 n (wl w)) with (lin n (wl w) (wl w)).
    transitivity (rsum n (fun i => w i * lin n (wl w) (ld i))).
    { unfold lin at 1. unfold wl at 2. rewrite (rsum_ext n _ (fun k => rsum n (fun i => w i * (wl w k * ld i k)))).
      2:{ intros k _. rewrite <- rsum_scal. apply rsum_ext. intros. ring. }
      rewrite rsum_swap. apply rsum_ext. intros i _. rewrite rsum_scal. reflexivity. }
    rewrite <- rsum_scal. apply rsum_ext. intros i Hi. rewrite wl_dot by exact Hi. ring.
  Qed.

  (** products of tilts *)
  Lemma lin_plus_l a b c : lin n (fun i => a i + b i) c = lin n a c + lin n b c.
  Proof using. unfold lin. rewrite <- rsum_plus. apply rsum_ext. intros. ring. Qed.
  Lemma lin_plus_r a b c : lin n c (fun i => a i + b i) = lin n c a + lin n c b.
  Proof using. unfold lin. rewrite <- rsum_plus. apply rsum_ext. intros. ring. Qed.
  Lemma tilt_mul a b z : tilt n a z * tilt n b z = exp (lin n a b) * tilt n (fun i => a i + b i) z.
  Proof using.
    unfold tilt. rewrite <- !exp_plus. f_equal. rewrite lin_plus_l.
    assert (E : nrm2 n (fun i => a i + b i) = nrm2 n a + 2 * lin n a b + nrm2 n b).
    { unfold nrm2, lin. rewrite <- rsum_scal, <- !rsum_plus. apply rsum_ext. intros. ring. }
    rewrite E. field.
  Qed.
  Lemma tilt2 a b : normals_expect n (fun z => tilt n a z * tilt n b z) (exp (lin n a b)).
  Proof using.
    pose proof (normals_scal n _ _ (exp (lin n a b)) (tilt_expect n (fun i => a i + b i))) as H. rewrite Rmult_1_r in H.
    eapply normals_ext; [|exact H]. intros z. cbv beta. now rewrite tilt_mul.
  Qed.
  Lemma tilt3 a b c : normals_expect n (fun z => tilt n a z * tilt n b z * tilt n c z) (exp (lin n a b + lin n a c + lin n b c)).
  Proof using.
    pose proof (normals_scal n _ _ (exp (lin n a b)) (tilt2 (fun i => a i + b i) c)) as H. rewrite <- exp_plus, lin_plus_l in H.
    replace (lin n a b + lin n a c + lin n b c) with (lin n a b + (lin n a c + lin n b c)) by ring.
    eapply normals_ext; [|exact H]. intros z. cbv beta. rewrite (tilt_mul a b z). ring.
  Qed.
  Lemma tilt4 a b c d : normals_expect n (fun z => tilt n a z * tilt n b z * tilt n c z * tilt n d z)
    (exp (lin n a b + lin n a c + lin n a d + lin n b c + lin n b d + lin n c d)).
  Proof using.
    pose proof (normals_scal n _ _ (exp (lin n a b)) (tilt3 (fun i => a i + b i) c d)) as H. rewrite <- exp_plus, !lin_plus_l in H.
    match type of H with normals_expect _ _ (exp ?e) => replace (lin n a b + lin n a c + lin n a d + lin n b c + lin n b d + lin n c d) with e by ring end.
    eapply normals_ext; [|exact H]. intros z. cbv beta. rewrite (tilt_mul a b z). ring.
  Qed.

  Variables (f w : nat -> R).
  Let v i := f i * w i.
  Let B := ln_basket n f w l cov t.
  Let P i j := exp (cov i j * t).
  Lemma B_eq z : B z = rsum n (fun i => v i * tilt n (ld i) z).
  Proof using HF Ht. unfold B, ln_basket. apply rsum_ext. intros i Hi. rewrite asset_tilt by exact Hi. unfold v. ring. Qed.
  Lemma basket_m1 : normals_expect n B (rsum n v).
  Proof using HF Ht.
    eapply normals_ext. { intros z. symmetry. apply B_eq. }
    apply (normals_rsum n n (fun i z => v i * tilt n (ld i) z)). intros i _.
    pose proof (normals_scal n _ _ (v i) (tilt_expect n (ld i))) as H. rewrite Rmult_1_r in H. exact H.
  Qed.
  Lemma basket_m2 : normals_expect n (fun z => B z ^ 2) (rsum n (fun i => rsum n (fun j => v i * v j * P i j))).
  Proof using HF Ht.
    eapply normals_ext with (F := fun z => rsum n (fun i => rsum n (fun j => v i * v j * (tilt n (ld i) z * tilt n (ld j) z)))).
    { intros z. rewrite B_eq. replace (rsum n (fun i => v i * tilt n (ld i) z) ^ 2) with (rsum n (fun i => v i * tilt n (ld i) z) * rsum n (fun i => v i * tilt n (ld i) z)) by ring.
      rewrite rsum_mul. apply rsum_ext. intros. apply rsum_ext. intros. ring. }
    apply (normals_rsum n n (fun i z => rsum n (fun j => v i * v j * (tilt n (ld i) z * tilt n (ld j) z)))). intros i Hi.
    apply (normals_rsum n n (fun j z => v i * v j * (tilt n (ld i) z * tilt n (ld j) z))). intros j Hj.
    apply normals_scal. unfold P. rewrite <- ld_dot by assumption. apply tilt2.
  Qed.
  Lemma basket_m3 : normals_expect n (fun z => B z ^ 3) (rsum n (fun i => rsum n (fun j => rsum n (fun k => v i * v j * v k * (P i j * P i k * P j k))))).
  Proof using HF Ht.
    eapply normals_ext with (F := fun z => rsum n (fun i => rsum n (fun j => rsum n (fun k => v i * v j * v k * (tilt n (ld i) z * tilt n (ld j) z * tilt n (ld k) z))))).
    { intros z. rewrite B_eq. set (s := rsum n (fun i => v i * tilt n (ld i) z)).
      replace (s ^ 3) with (s * (s * s)) by ring. unfold s at 1. rewrite <- rsum_scal_r. apply rsum_ext. intros i _.
      unfold s at 1. rewrite Rmult_comm, <- rsum_scal_r, <- rsum_scal_r. apply rsum_ext. intros j _.
      unfold s. rewrite <- rsum_scal, <- rsum_scal_r. apply rsum_ext. intros. ring. }
    apply (normals_rsum n n (fun i z => rsum n (fun j => rsum n (fun k => v i * v j * v k * (tilt n (ld i) z * tilt n (ld j) z * tilt n (ld k) z))))). intros i Hi.
    apply (normals_rsum n n (fun j z => rsum n (fun k => v i * v j * v k * (tilt n (ld i) z * tilt n (ld j) z * tilt n (ld k) z)))). intros j Hj.
    apply (normals_rsum n n (fun k z => v i * v j * v k * (tilt n (ld i) z * tilt n (ld j) z * tilt n (ld k) z))). intros k Hk.
    apply normals_scal. unfold P. rewrite <- !exp_plus, <- !ld_dot by assumption. apply tilt3.
  Qed.
  Lemma basket_m4 : normals_expect n (fun z => B z ^ 4) (rsum n (fun i => rsum n (fun j => rsum n (fun k => rsum n (fun m =>
     v i * v j * v k * v m * (P i j * P i k * P i m * P j k * P j m * P k m)))))).
  Proof using HF Ht.
    eapply normals_ext with (F := fun z => rsum n (fun i => rsum n (fun j => rsum n (fun k => rsum n (fun m => v i * v j * v k * v m * (tilt n (ld i) z * tilt n (ld j) z * tilt n (ld k) z * tilt n (ld m) z)))))).
    { intros z. rewrite B_eq. set (s := rsum n (fun i => v i * tilt n (ld i) z)).
      replace (s ^ 4) with (s * (s * (s * s))) by ring. unfold s at 1. rewrite <- rsum_scal_r. apply rsum_ext. intros i _.
      unfold s at 1. rewrite Rmult_comm, <- rsum_scal_r, <- rsum_scal_r. apply rsum_ext. intros j _.
      unfold s at 1. rewrite <- rsum_scal_r, <- rsum_scal, <- rsum_scal_r. apply rsum_ext. intros k _.
      unfold s. rewrite <- rsum_scal, <- rsum_scal, <- rsum_scal_r. apply rsum_ext. intros. ring. }
    apply (normals_rsum n n (fun i z => rsum n (fun j => rsum n (fun k => rsum n (fun m => v i * v j * v k * v m * (tilt n (ld i) z * tilt n (ld j) z * tilt n (ld k) z * tilt n (ld m) z)))))). intros i Hi.
    apply (normals_rsum n n (fun j z => rsum n (fun k => rsum n (fun m => v i * v j * v k * v m * (tilt n (ld i) z * tilt n (ld j) z * tilt n (ld k) z * tilt n (ld m) z))))). intros j Hj.
    apply (normals_rsum n n (fun k z => rsum n (fun m => v i * v j * v k * v m * (tilt n (ld i) z * tilt n (ld j) z * tilt n (ld k) z * tilt n (ld m) z)))). intros k Hk.
    apply (normals_rsum n n (fun m z => v i * v j * v k * v m * (tilt n (ld i) z * tilt n (ld j) z * tilt n (ld k) z * tilt n (ld m) z))). intros m Hm.
    apply normals_scal. unfold P. rewrite <- !exp_plus, <- !ld_dot by assumption. apply tilt4.
  Qed.
End Factor.

Section Moments.
  Variables (o : bsk) (l : nat -> nat -> R) (fwd : nat -> R) (T : R).
  Let n := bn o.
  Let cov := ma_cov (bk_ma o).
  Hypotheses (HF : factor_of n l cov) (HT : 0 <= T).
  Lemma P_sym i j : (i < n)%nat -> (j < n)%nat -> mv_P o T i j = mv_P o T j i.
  Proof using HF. intros. unfold mv_P. do 2 f_equal. apply (cov_sym n l cov HF); assumption. Qed.
  Lemma m3_sum : mv_m3 o fwd T = rsum n (fun i => rsum n (fun j => rsum n (fun k =>
    mv_v o fwd i * mv_v o fwd j * mv_v o fwd k * (mv_P o T i j * mv_P o T i k * mv_P o T j k)))).
  Proof using HF.
    unfold mv_m3, msum, matmul. fold n. apply rsum_ext. intros i Hi. apply rsum_ext. intros j Hj. rewrite <- rsum_scal. apply rsum_ext. intros k Hk.
    unfold mv_M2. rewrite (P_sym j k) by assumption. ring.
  Qed.
  Lemma m4_sum : mv_m4 o fwd T = rsum n (fun i => rsum n (fun j => rsum n (fun k => rsum n (fun m =>
    mv_v o fwd i * mv_v o fwd j * mv_v o fwd k * mv_v o fwd m *
      (mv_P o T i j * mv_P o T i k * mv_P o T i m * mv_P o T j k * mv_P o T j m * mv_P o T k m))))).
  Proof using HF.
    unfold mv_m4, msum, mv_H, matmul. fold n. apply rsum_ext. intros i Hi. apply rsum_ext. intros j Hj.
    rewrite <- rsum_scal. apply rsum_ext. intros k Hk. rewrite <- !rsum_scal. apply rsum_ext. intros m Hm.
    unfold mv_N, mv_M2. fold n.
    assert (E1 : ((i * n + j) / n = i)%nat). { rewrite Nat.div_add_l by lia. rewrite Nat.div_small by exact Hj. lia. }
    assert (E2 : ((i * n + j) mod n = j)%nat). { rewrite Nat.add_comm, Nat.mod_add by lia. apply Nat.mod_small, Hj. }
    rewrite E1, E2, (P_sym m k) by assumption. ring.
  Qed.
  Lemma mvsk_moments : let B := ln_basket n fwd (bk_w o) l cov T in
    normals_expect n B (mv_m1 o fwd) /\ normals_expect n (fun z => B z ^ 2) (mv_m2 o fwd T) /\
    normals_expect n (fun z => B z ^ 3) (mv_m3 o fwd T) /\ normals_expect n (fun z => B z ^ 4) (mv_m4 o fwd T).
  Proof using HF HT.
    cbv zeta. split; [|split; [|split]].
    - apply basket_m1; assumption.
    - apply basket_m2; assumption.
    - rewrite m3_sum. apply basket_m3; assumption.
    - rewrite m4_sum. apply basket_m4; assumption.
  Qed.
End Moments.

Lemma mvsk_correct o fwd T : mv_m1 o fwd <> 0 -> 0 < var_of_raw (mv_m1 o fwd) (mv_m2 o fwd T) ->
  let m1 := mv_m1 o fwd in let m2 := mv_m2 o fwd T in let m3 := mv_m3 o fwd T in let m4 := mv_m4 o fwd T in
  price_mvsk o fwd T = (m1, var_of_raw m1 m2 / m1 ^ 2, skew_of_raw m1 m2 m3, exkurt_of_raw m1 m2 m3 m4).
Proof.
  intros H1 Hv m1 m2 m3 m4. unfold price_mvsk, mv_var_scaled. fold m1 m2 m3 m4. cbv zeta. fold m1 m2 in H1, Hv.
  assert (Ev : (m2 / m1 ^ 2 - 1) * m1 ^ 2 = var_of_raw m1 m2) by (unfold var_of_raw; field; exact H1).
  rewrite Ev.
  apply (f_equal2 pair); [apply (f_equal2 pair); [apply (f_equal2 pair); [reflexivity|]|]|].
  - unfold var_of_raw. field. exact H1.
  - unfold skew_of_raw. set (V := var_of_raw m1 m2) in *. assert (SV : 0 < sqrt V) by (apply sqrt_lt_R0, Hv).
    replace (sqrt V ^ 3) with (V * sqrt V). 2:{ replace (sqrt V ^ 3) with (sqrt V * sqrt V * sqrt V) by ring. rewrite sqrt_sqrt by lra. ring. }
    f_equal. ring.
  - unfold exkurt_of_raw. f_equal. f_equal. ring.
Qed.

(** Bachelier basket *)
Lemma norm_formula_bach K F s T cp : eps <= s * sqrt T -> norm_price_formula K F s T cp 0 0 true = bach (s * sqrt T) (F - K) cp.
Proof.
  intros He. pose proof eps_pos. unfold norm_price_formula, bach. cbv zeta. rewrite Rmult_0_r, exp_0, !Rmult_1_r, Rmax_left by exact He.
  set (S := s * sqrt T) in *. assert (S <> 0) by lra. clearbody S. field. assumption.
Qed.
Lemma norm_basket_exact o l K spot T cp : call_or_put cp -> 0 < T -> factor_of (bn o) l (ma_cov (bk_ma o)) ->
  eps <= sqrt (basket_var o) * sqrt T ->
  normals_expect (bn o) (fun z => mk_df (bk_m o) T * payoff cp K (n_basket (bn o) (mk_fwd (bk_m o) spot T) (bk_w o) l T z)) (norm_basket_price o K spot T cp).
Proof.
  intros Hcp HT HF He. unfold norm_basket_price. rewrite norm_formula_bach by exact He. apply normals_scal.
  set (n := bn o) in *. set (F := mk_fwd (bk_m o) spot T). pose proof eps_pos as Ep.
  assert (Ht0 : 0 <= T) by lra.
  pose proof (wl_nrm n l (ma_cov (bk_ma o)) T HF Ht0 (bk_w o)) as EN. fold n in EN.
  assert (EV : nrm2 n (wl n l T (bk_w o)) = T * basket_var o) by (rewrite EN; unfold basket_var; fold n; reflexivity).
  assert (Vp : 0 < basket_var o).
  { destruct (Rle_lt_dec (basket_var o) 0) as [Hle|]; [|assumption]. rewrite sqrt_neg_0 in He by exact Hle. lra. }
  pose proof (normals_bach_payoff n (wl n l T (bk_w o)) cp K Hcp (basket_fwd o spot T)) as H. rewrite EV in H.
  assert (ES : sqrt (T * basket_var o) = sqrt (basket_var o) * sqrt T) by (rewrite Rmult_comm; apply sqrt_mult; lra). rewrite ES in H.
  eapply normals_ext; [|apply H; apply Rmult_lt_0_compat; lra].
  intros z. cbv beta. f_equal. rewrite <- (wl_lin n l T (bk_w o) z). unfold basket_fwd, n_basket. fold n F. rewrite <- rsum_plus. apply rsum_ext. intros. ring.
Qed.
Lemma norm_basket_parity o K spot T : eps <= sqrt (basket_var o) * sqrt T ->
  norm_basket_price o K spot T 1 - norm_basket_price o K spot T (-1) = mk_df (bk_m o) T * (basket_fwd o spot T - K).
Proof. intros He. unfold norm_basket_price. rewrite !norm_formula_bach by exact He. rewrite <- Rmult_minus_distr_l, bach_parity. reflexivity. Qed.
Lemma geo_basket_parity o K spot T : geo_basket_price o K spot T 1 - geo_basket_price o K spot T (-1) = mk_df (bk_m o) T * (basket_fwd o spot T - K).
Proof. unfold geo_basket_price. rewrite !bsm_formula_black, <- Rmult_minus_distr_l, black_parity. reflexivity. Qed.
Lemma m1_fwd o spot T : mv_m1 o (mk_fwd (bk_m o) spot T) = basket_fwd o spot T.
Proof. reflexivity. Qed.
Lemma ju_parity o corr K spot T : ju_price o corr K spot T 1 - ju_price o corr K spot T (-1) = mk_df (bk_m o) T * (basket_fwd o spot T - K).
Proof.
  unfold ju_price. cbv zeta. rewrite !bsm_formula_black, m1_fwd.
  pose proof (black_parity (sigma_std (sqrt (ln (1 + mv_var_scaled o (mk_fwd (bk_m o) spot T) T))) 1) (basket_fwd o spot T) K) as H.
  destruct corr; [|rewrite <- Rmult_minus_distr_l, H; reflexivity].
  set (X := black _ _ _ 1) in *. set (Y := black _ _ _ (-1)) in *. set (Z := ju_corr _ _ _ _ _ _).
  transitivity (mk_df (bk_m o) T * (X - Y)); [ring|]. rewrite H. reflexivity.
Qed.
(** Levy: the lognormal used has the basket's true mean and second moment *)
Lemma levy_matched o fwd T : 0 < mv_m1 o fwd -> 0 < var_of_raw (mv_m1 o fwd) (mv_m2 o fwd T) ->
  let s := sqrt (ln (1 + mv_var_scaled o fwd T)) in let X := fun z => mv_m1 o fwd * exp (s * z - s ^ 2 / 2) in
  gauss_expect X (mv_m1 o fwd) /\ gauss_expect (fun z => X z ^ 2) (mv_m2 o fwd T).
Proof.
  intros H1 Hv s X. set (m1 := mv_m1 o fwd) in *. set (m2 := mv_m2 o fwd T) in *.
  assert (Hq : 1 + mv_var_scaled o fwd T = m2 / m1 ^ 2) by (unfold mv_var_scaled; fold m1 m2; field; lra).
  assert (Hg : 1 < m2 / m1 ^ 2).
  { unfold var_of_raw in Hv. apply Rmult_lt_reg_r with (m1 ^ 2); [apply pow_lt; lra|]. replace (m2 / m1 ^ 2 * m1 ^ 2) with m2 by (field; lra). lra. }
  assert (S2 : s ^ 2 = ln (m2 / m1 ^ 2)).
  { unfold s. rewrite Hq. apply pow2_sqrt. rewrite <- ln_1. apply ln_le; lra. }
  split.
  - pose proof (gauss_expect_scal _ _ (m1 * exp (- (s ^ 2 / 2))) (gauss_mgf s)) as G.
    replace (m1 * exp (- (s ^ 2 / 2)) * exp (s * s / 2)) with m1 in G.
    2:{ rewrite Rmult_assoc, <- exp_plus. replace (- (s ^ 2 / 2) + s * s / 2) with 0 by field. rewrite exp_0. ring. }
    eapply gauss_expect_ext; [|exact G]. intros z. cbv beta. unfold X. rewrite Rmult_assoc, <- exp_plus. do 2 f_equal. ring.
  - pose proof (gauss_expect_scal _ _ (m1 ^ 2 * exp (- s ^ 2)) (gauss_mgf (2 * s))) as G.
    replace (m1 ^ 2 * exp (- s ^ 2) * exp (2 * s * (2 * s) / 2)) with m2 in G.
    2:{ rewrite Rmult_assoc, <- exp_plus. replace (- s ^ 2 + 2 * s * (2 * s) / 2) with (s ^ 2) by field. rewrite S2, exp_ln by lra. field. lra. }
    eapply gauss_expect_ext; [|exact G]. intros z. cbv beta. unfold X. rewrite Rmult_assoc, <- exp_plus.
    replace ((m1 * exp (s * z - s ^ 2 / 2)) ^ 2) with (m1 ^ 2 * (exp (s * z - s ^ 2 / 2) * exp (s * z - s ^ 2 / 2))) by ring.
    rewrite <- exp_plus. do 2 f_equal. field.
Qed.
Lemma levy_price o K spot T cp : let fwd := mk_fwd (bk_m o) spot T in let s := sqrt (ln (1 + mv_var_scaled o fwd T)) in
  call_or_put cp -> 0 < K -> 0 < basket_fwd o spot T -> eps <= s ->
  gauss_expect (fun z => mk_df (bk_m o) T * payoff cp K (basket_fwd o spot T * exp (s * z - s ^ 2 / 2))) (ju_price o false K spot T cp).
Proof.
  intros fwd s Hcp HK HF He. unfold ju_price. cbv zeta. fold fwd. fold s. rewrite bsm_formula_black. apply gauss_expect_scal.
  assert (Es : sigma_std s 1 = s) by (unfold sigma_std; rewrite sqrt_1, Rmult_1_r; apply Rmax_left, He). rewrite Es.
  pose proof eps_pos. unfold fwd. rewrite m1_fwd.
  pose proof (black_expect s (basket_fwd o spot T) K ltac:(lra) HF HK cp Hcp) as H0. 
  eapply gauss_expect_ext; [|exact H0]. intros z. cbv beta. f_equal; try reflexivity. f_equal. f_equal. field.
Qed.
(** Milevsky: parity and matched moments of the inverse gamma law *)
Lemma invgam_parity gc K F T alpha beta : beta <> 0 -> invgam_formula gc K F T alpha beta 1 0 0 true - invgam_formula gc K F T alpha beta (-1) 0 0 true = F - K.
Proof.
  intros Hb. unfold invgam_formula. cbv zeta. destruct (Rlt_dec 0 1); [|lra]. destruct (Rlt_dec 0 (-1)); [lra|].
  rewrite Rmult_0_r, exp_0. field. exact Hb.
Qed.
Lemma milevsky_parity gc o K spot T : 0 < basket_fwd o spot T -> 0 < mv_var_scaled o (mk_fwd (bk_m o) spot T) T ->
  milevsky_price gc o K spot T 1 - milevsky_price gc o K spot T (-1) = mk_df (bk_m o) T * (basket_fwd o spot T - K).
Proof.
  intros H1 H2. unfold milevsky_price. cbv zeta. rewrite <- Rmult_minus_distr_l, m1_fwd. f_equal. apply invgam_parity.
  apply Rmult_integral_contrapositive_currified; [|lra].
  assert (0 < 1 / mv_var_scaled o (mk_fwd (bk_m o) spot T) T) by (apply Rdiv_lt_0_compat; lra). lra.
Qed.
Lemma milevsky_matched o fwd T : 0 < mv_m1 o fwd -> 0 < var_of_raw (mv_m1 o fwd) (mv_m2 o fwd T) ->
  let alpha := 1 / mv_var_scaled o fwd T + 2 in let beta := (alpha - 1) * mv_m1 o fwd in
  2 < alpha /\ beta / (alpha - 1) = mv_m1 o fwd /\ beta ^ 2 / ((alpha - 1) * (alpha - 2)) = mv_m2 o fwd T.
Proof.
  intros H1 Hv alpha beta. set (m1 := mv_m1 o fwd) in *. set (m2 := mv_m2 o fwd T) in *.
  assert (Hvs : mv_var_scaled o fwd T = var_of_raw m1 m2 / m1 ^ 2) by (unfold mv_var_scaled, var_of_raw; fold m1 m2; field; lra).
  assert (Hp : 0 < mv_var_scaled o fwd T) by (rewrite Hvs; apply Rdiv_lt_0_compat; [exact Hv|apply pow_lt; lra]).
  assert (Ha : 0 < 1 / mv_var_scaled o fwd T) by (apply Rdiv_lt_0_compat; lra).
  unfold beta. split; [unfold alpha; lra|]. split; [field; unfold alpha; lra|].
  replace (((alpha - 1) * m1) ^ 2 / ((alpha - 1) * (alpha - 2))) with ((alpha - 1) * m1 ^ 2 / (alpha - 2)) by (field; unfold alpha; lra).
  unfold alpha. rewrite Hvs. unfold var_of_raw in *. assert (Hm : 0 < m1 ^ 2) by (apply pow_lt; lra). field. repeat split; apply Rgt_not_eq; lra.
Qed.
