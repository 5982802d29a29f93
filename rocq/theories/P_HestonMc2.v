(** The truncated-series moments returned by the code, for every truncation index. *)
From Coq Require Import Reals Lra Lia Arith Psatz.
From Coquelicot Require Import Coquelicot.
From Verif Require Import Base Sums M_Heston M_Ou P_Kl P_Fejer P_KlSum P_Zeta M_HestonMc Spec_Dist Spec_Cev Spec_CevMc Spec_HestonMc P_HestonMc.
Open Scope R_scope.

Lemma branch_x1m a : 0 < a -> x1_mean0 a = if Rlt_dec a (1 / 10) then 1 / 3 + a ^ 2 * (- (2 / 45) + a ^ 2 * 2 / 315) else cx1m a.
Proof.
  intros H. unfold x1_mean0. rewrite Rabs_pos_eq by lra. destruct (Rlt_dec a (1 / 10)); [reflexivity|].
  unfold cx1m. pose proof (sinh_pos a H). field. lra.
Qed.
Lemma branch_x1v a : 0 < a -> x1_vf0 a = if Rlt_dec a (1 / 10) then 1 / 45 + a ^ 2 * (- (2 / 315) + a ^ 2 * 2 / 1575) else cx1v a.
Proof.
  intros H. unfold x1_vf0. rewrite Rabs_pos_eq by lra. destruct (Rlt_dec a (1 / 10)); [reflexivity|].
  unfold cx1v. pose proof (sinh_pos a H). field. lra.
Qed.
Lemma branch_x2m a : 0 < a -> x2_mf0 a = if Rlt_dec a (1 / 10) then 1 / 12 + a ^ 2 * (- (1 / 180) + a ^ 2 / 1890) else cx2m a.
Proof.
  intros H. unfold x2_mf0. rewrite Rabs_pos_eq by lra. destruct (Rlt_dec a (1 / 10)); [reflexivity|].
  unfold cx2m. pose proof (sinh_pos a H). field. lra.
Qed.
Lemma branch_x2v a : 0 < a -> x2_vf0 a = if Rlt_dec a (1 / 10) then 1 / 360 - a ^ 2 / 1890 else cx2v a.
Proof.
  intros H. unfold x2_vf0. rewrite Rabs_pos_eq by lra. destruct (Rlt_dec a (1 / 10)); [reflexivity|].
  unfold cx2v. pose proof (sinh_pos a H). field. lra.
Qed.

Section T.
Variables (c : cir) (dt : R).
Hypothesis (Hxi : 0 < c_xi c) (Hmr : 0 < c_mr c) (Hdt : 0 < dt).
Let w2 := ge_vov2dt c dt.
Let a := c_mr c * dt / 2.
Let Ha : 0 < a. Proof. unfold a. assert (0 < c_mr c * dt) by now apply Rmult_lt_0_compat. lra. Qed.
Let Hw : 0 < w2. Proof. exact (w2_pos c dt Hxi Hdt). Qed.
Let lam n := ge_lambda c dt n. Let gam n := ge_gamma c dt n.
Let gp n : 0 < gam (S n). Proof. exact (ge_gamma_pos c dt Hxi Hdt n). Qed.
Let lp n : 0 < lam (S n). Proof. exact (ge_lambda_pos c dt Hxi Hdt n). Qed.
Definition x1M (kk : nat) : R := cx1m (c_mr c * dt / 2) - rsum kk (fun i => ge_lambda c dt (S i) / ge_gamma c dt (S i)).
Definition x1V (kk : nat) : R := ge_vov2dt c dt * cx1v (c_mr c * dt / 2) - rsum kk (fun i => 2 * ge_lambda c dt (S i) / ge_gamma c dt (S i) ^ 2).
Definition x2M (kk : nat) : R := ge_vov2dt c dt * cx2m (c_mr c * dt / 2) - rsum kk (fun i => 1 / ge_gamma c dt (S i)).
Definition x2V (kk : nat) : R := ge_vov2dt c dt ^ 2 * cx2v (c_mr c * dt / 2) - rsum kk (fun i => 1 / ge_gamma c dt (S i) ^ 2).
Lemma x1M_series kk : is_series (fun i => lam (S (kk + i)) / gam (S (kk + i))) (x1M kk).
Proof.
  unfold x1M. fold a. apply (series_tail (fun i => lam (S i) / gam (S i))). eapply series_ext; [apply (full_x1m a Ha)|].
  intros n. symmetry. apply (t_x1m c dt Hxi Hdt).
Qed.
Lemma x1V_series kk : is_series (fun i => 2 * lam (S (kk + i)) / gam (S (kk + i)) ^ 2) (x1V kk).
Proof.
  unfold x1V. fold a w2. apply (series_tail (fun i => 2 * lam (S i) / gam (S i) ^ 2)). eapply series_ext; [apply series_scal, (full_x1v a Ha)|].
  intros n. symmetry. apply (t_x1v c dt Hxi Hdt).
Qed.
Lemma x2M_series kk : is_series (fun i => 1 / gam (S (kk + i))) (x2M kk).
Proof.
  unfold x2M. fold a w2. apply (series_tail (fun i => 1 / gam (S i))). eapply series_ext; [apply series_scal, (full_x2m a Ha)|].
  intros n. symmetry. apply (t_x2m c dt Hxi Hdt).
Qed.
Lemma x2V_series kk : is_series (fun i => 1 / gam (S (kk + i)) ^ 2) (x2V kk).
Proof.
  unfold x2V. fold a w2. apply (series_tail (fun i => 1 / gam (S i) ^ 2)). eapply series_ext; [apply series_scal, (full_x2v a Ha)|].
  intros n. symmetry. apply (t_x2v c dt Hxi Hdt).
Qed.
Lemma x1M_pos kk : 0 < x1M kk. Proof. apply (series_pos _ _ (x1M_series kk)). intros n. apply Rdiv_lt_0_compat; auto. Qed.
Lemma x1V_pos kk : 0 < x1V kk. Proof. apply (series_pos _ _ (x1V_series kk)). intros n. pose proof (lp (kk + n)). apply Rdiv_lt_0_compat; [lra|apply pow_lt; auto]. Qed.
Lemma x2M_pos kk : 0 < x2M kk. Proof. apply (series_pos _ _ (x2M_series kk)). intros n. apply Rdiv_lt_0_compat; [lra|auto]. Qed.
Lemma x2V_pos kk : 0 < x2V kk. Proof. apply (series_pos _ _ (x2V_series kk)). intros n. apply Rdiv_lt_0_compat; [lra|apply pow_lt; auto]. Qed.
(** what the code returns *)
Lemma x1star_fst kk : fst (x1star c dt kk) = x1M kk + (x1_mean0 a - cx1m a).
Proof. unfold x1star, x1M. cbn [fst]. fold a. ring. Qed.
Lemma x2star_fst kk : fst (x2star c dt kk) = x2M kk + w2 * (x2_mf0 a - cx2m a).
Proof. unfold x2star, x2M. cbn [fst]. fold a w2. pose proof Hw. field. lra. Qed.
Lemma x1m_err : 0 <= x1_mean0 a - cx1m a <= (if Rlt_dec a (1 / 10) then 8 / 9450 * a ^ 6 else 0).
Proof. rewrite branch_x1m by exact Ha. destruct (Rlt_dec a (1 / 10)); [apply (tay_x1m a Ha)|lra]. Qed.
Lemma x1v_err : 0 <= x1_vf0 a - cx1v a <= (if Rlt_dec a (1 / 10) then 20 / 9450 * a ^ 6 else 0).
Proof. rewrite branch_x1v by exact Ha. destruct (Rlt_dec a (1 / 10)); [apply (tay_x1v a Ha)|lra]. Qed.
Lemma x2m_err : 0 <= x2_mf0 a - cx2m a <= (if Rlt_dec a (1 / 10) then / 18900 * a ^ 6 else 0).
Proof. rewrite branch_x2m by exact Ha. destruct (Rlt_dec a (1 / 10)); [apply (tay_x2m a Ha)|lra]. Qed.
Lemma x2v_err : 0 <= cx2v a - x2_vf0 a <= (if Rlt_dec a (1 / 10) then a ^ 4 / 12600 else 0).
Proof. rewrite branch_x2v by exact Ha. destruct (Rlt_dec a (1 / 10)); [apply (tay_x2v a Ha)|lra]. Qed.
Lemma x1star_fst_pos kk : 0 < fst (x1star c dt kk).
Proof. rewrite x1star_fst. pose proof (x1M_pos kk). pose proof x1m_err. lra. Qed.
Lemma x2star_fst_pos kk : 0 < fst (x2star c dt kk).
Proof. rewrite x2star_fst. pose proof (x2M_pos kk). pose proof x2m_err. pose proof Hw. nra. Qed.
Lemma x1star_var kk : snd (x1star c dt kk) * fst (x1star c dt kk) ^ 2 = x1V kk + w2 * (x1_vf0 a - cx1v a).
Proof.
  pose proof (x1star_fst_pos kk) as P. unfold x1star in P |- *. cbn [fst snd] in P |- *. fold a w2 in P |- *. pose proof Hw.
  set (m := x1_mean0 a - _) in *. 
  replace (rsum kk (fun i => ge_lambda c dt (S i) / ge_gamma c dt (S i) ^ 2)) with (/ 2 * rsum kk (fun i => 2 * ge_lambda c dt (S i) / ge_gamma c dt (S i) ^ 2)).
  2:{ rewrite <- rsum_scal. apply rsum_ext. intros i _. pose proof (ge_gamma_pos c dt Hxi Hdt i). field. lra. }
  unfold x1V. fold a w2. field. lra.
Qed.
Lemma x2star_var kk : snd (x2star c dt kk) * fst (x2star c dt kk) ^ 2 = x2V kk + w2 ^ 2 * (x2_vf0 a - cx2v a).
Proof.
  pose proof (x2star_fst_pos kk) as P. unfold x2star in P |- *. cbn [fst snd] in P |- *. fold a w2 in P |- *. pose proof Hw.
  set (m := x2_mf0 a - _) in *. assert (m <> 0) by (intros E; rewrite E in P; lra).
  unfold x2V. fold a w2. field. split; lra.
Qed.
Lemma x1star_tail kk : exists M V, is_series (fun i => cgf_mean (cpexp_cgf (lam (S (kk + i))) (gam (S (kk + i))))) M /\
  is_series (fun i => cgf_var (cpexp_cgf (lam (S (kk + i))) (gam (S (kk + i))))) V /\ 0 < M /\ 0 < V /\
  let '(m, vs) := x1star c dt kk in
  (1 / 10 <= a -> m = M /\ vs * m ^ 2 = V) /\
  (a < 1 / 10 -> 0 <= m - M <= 8 / 9450 * a ^ 6 /\ 0 <= vs * m ^ 2 - V <= w2 * (20 / 9450 * a ^ 6)).
Proof.
  exists (x1M kk), (x1V kk).
  split. { eapply series_ext; [apply x1M_series|]. intros n. symmetry. apply cpexp_mean. auto. }
  split. { eapply series_ext; [apply x1V_series|]. intros n. symmetry. apply cpexp_var. auto. }
  split; [apply x1M_pos|]. split; [apply x1V_pos|].
  pose proof (x1star_fst kk) as E1. pose proof (x1star_var kk) as E2. destruct (x1star c dt kk) as [m vs]. cbn [fst snd] in *. rewrite E2, E1.
  pose proof x1m_err as B1. pose proof x1v_err as B2. pose proof Hw. destruct (Rlt_dec a (1 / 10)); split; intros HH; try lra.
  - split; [lra|]. assert (0 <= w2 * (x1_vf0 a - cx1v a) <= w2 * (20 / 9450 * a ^ 6)) by (split; [apply Rmult_le_pos|apply Rmult_le_compat_l]; lra). lra.
  - split; [lra|]. assert (x1_vf0 a - cx1v a = 0) by lra. rewrite H0. ring.
Qed.
Lemma x2star_tail kk : exists M V, is_series (fun i => cgf_mean (gamma_cgf 1 (gam (S (kk + i))))) M /\
  is_series (fun i => cgf_var (gamma_cgf 1 (gam (S (kk + i))))) V /\ 0 < M /\ 0 < V /\
  let '(m, vs) := x2star c dt kk in
  (1 / 10 <= a -> m = M /\ vs * m ^ 2 = V) /\
  (a < 1 / 10 -> 0 <= m - M <= w2 * (/ 18900 * a ^ 6) /\ 0 <= V - vs * m ^ 2 <= w2 ^ 2 * (a ^ 4 / 12600)).
Proof.
  exists (x2M kk), (x2V kk).
  split. { eapply series_ext; [apply x2M_series|]. intros n. symmetry. apply gamma_mean. auto. }
  split. { eapply series_ext; [apply x2V_series|]. intros n. symmetry. apply gamma_var. auto. }
  split; [apply x2M_pos|]. split; [apply x2V_pos|].
  pose proof (x2star_fst kk) as E1. pose proof (x2star_var kk) as E2. destruct (x2star c dt kk) as [m vs]. cbn [fst snd] in *. rewrite E2, E1.
  pose proof x2m_err as B1. pose proof x2v_err as B2. pose proof Hw. assert (0 < w2 ^ 2) by now apply pow_lt.
  destruct (Rlt_dec a (1 / 10)); split; intros HH; try lra.
  - assert (0 <= w2 * (x2_mf0 a - cx2m a) <= w2 * (/ 18900 * a ^ 6)) by (split; [apply Rmult_le_pos|apply Rmult_le_compat_l]; lra).
    assert (0 <= w2 ^ 2 * (cx2v a - x2_vf0 a) <= w2 ^ 2 * (a ^ 4 / 12600)) by (split; [apply Rmult_le_pos|apply Rmult_le_compat_l]; lra). lra.
  - assert (x2_vf0 a - cx2v a = 0) by lra. assert (x2_mf0 a - cx2m a = 0) by lra. rewrite H1, H2. split; ring.
Qed.
End T.
