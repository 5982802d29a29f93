(** The draws keep the mean and variance for every truncation index; size of the remainder. *)
From Coq Require Import Reals Lra Lia Arith Psatz.
From Coquelicot Require Import Coquelicot.
From Verif Require Import Base Sums M_Heston P_Cir P_KlSum P_Kl M_Ou M_HestonMc Spec_Dist Spec_Cev Spec_CevMc Spec_HestonMc P_HestonMc P_HestonMc2.
Open Scope R_scope.

Section D.
Variables (c : cir) (dt : R).
Hypothesis (Hxi : 0 < c_xi c) (Hmr : 0 < c_mr c) (Hdt : 0 < dt).
Let a := c_mr c * dt / 2.
Let w2 := ge_vov2dt c dt.
Let Hw : 0 < w2. Proof. exact (w2_pos c dt Hxi Hdt). Qed.
Let gp n : 0 < ge_gamma c dt (S n). Proof. exact (ge_gamma_pos c dt Hxi Hdt n). Qed.
(** the variance actually returned is positive for kk = 0 ... *)
Lemma x1star_split kk : fst (x1star c dt kk) + rsum kk (fun i => ge_lambda c dt (S i) / ge_gamma c dt (S i)) = fst (x1star c dt 0) /\
  snd (x1star c dt kk) * fst (x1star c dt kk) ^ 2 + rsum kk (fun i => 2 * ge_lambda c dt (S i) / ge_gamma c dt (S i) ^ 2) = snd (x1star c dt 0) * fst (x1star c dt 0) ^ 2.
Proof.
  rewrite !(x1star_var c dt Hxi Hmr Hdt), !(x1star_fst c dt). unfold x1M, x1V. cbn [rsum]. split; ring.
Qed.
Lemma x2star_split kk : fst (x2star c dt kk) + rsum kk (fun i => 1 / ge_gamma c dt (S i)) = fst (x2star c dt 0) /\
  snd (x2star c dt kk) * fst (x2star c dt kk) ^ 2 + rsum kk (fun i => 1 / ge_gamma c dt (S i) ^ 2) = snd (x2star c dt 0) * fst (x2star c dt 0) ^ 2.
Proof.
  rewrite !(x2star_var c dt Hxi Hmr Hdt), !(x2star_fst c dt Hxi Hdt). unfold x2M, x2V. cbn [rsum]. split; ring.
Qed.
Lemma x1_vs_pos kk : 0 < snd (x1star c dt kk).
Proof.
  pose proof (x1star_fst_pos c dt Hxi Hmr Hdt kk) as P. pose proof (x1star_var c dt Hxi Hmr Hdt kk) as E. pose proof (x1V_pos c dt Hxi Hmr Hdt kk) as V. pose proof (x1v_err c dt Hmr Hdt) as B.
  fold a w2 in E, B. pose proof Hw. assert (0 <= w2 * (x1_vf0 a - cx1v a)) by (apply Rmult_le_pos; lra). assert (0 < fst (x1star c dt kk) ^ 2) by now apply pow_lt.
  apply (Rmult_lt_reg_r (fst (x1star c dt kk) ^ 2)); [assumption|]. rewrite Rmult_0_l, E. lra.
Qed.
Lemma x2_vs_pos kk : 1 / 10 <= a -> 0 < snd (x2star c dt kk).
Proof.
  intros Hb. pose proof (x2star_fst_pos c dt Hxi Hmr Hdt kk) as P. pose proof (x2star_var c dt Hxi Hmr Hdt kk) as E. pose proof (x2V_pos c dt Hxi Hmr Hdt kk) as V. pose proof (x2v_err c dt Hmr Hdt) as B.
  fold a w2 in E, B. destruct (Rlt_dec a (1 / 10)) as [L|L]; [lra|]. assert (E0 : x2_vf0 a - cx2v a = 0) by lra. rewrite E0, Rmult_0_r, Rplus_0_r in E. assert (0 < fst (x2star c dt kk) ^ 2) by now apply pow_lt.
  apply (Rmult_lt_reg_r (fst (x2star c dt kk) ^ 2)); [assumption|]. rewrite Rmult_0_l, E. lra.
Qed.
Lemma draw_x1_invariant v0 vt kk : 0 < v0 -> 0 < vt ->
  let '(m, vs) := x1star c dt kk in
  let scale := vs * m in
  rsum kk (fun i => cgf_mean (cpexp_cgf (draw_x1_lam c dt v0 vt i) (ge_gamma c dt (S i)))) + cgf_mean (gamma_cgf (draw_x1_shape c dt v0 vt kk) (/ scale))
    = (v0 + vt) * fst (x1star c dt 0) /\
  rsum kk (fun i => cgf_var (cpexp_cgf (draw_x1_lam c dt v0 vt i) (ge_gamma c dt (S i)))) + cgf_var (gamma_cgf (draw_x1_shape c dt v0 vt kk) (/ scale))
    = (v0 + vt) * (snd (x1star c dt 0) * fst (x1star c dt 0) ^ 2).
Proof.
  intros H0 Ht. destruct (x1star_split kk) as [E1 E2]. rewrite <- E2, <- E1. unfold draw_x1_shape. pose proof (x1star_fst_pos c dt Hxi Hmr Hdt kk) as PM. pose proof (x1_vs_pos kk) as PV.
  destruct (x1star c dt kk) as [m vs]. cbn [fst snd] in *. assert (0 < vs * m) by now apply Rmult_lt_0_compat.
  rewrite gamma_mean, gamma_var by now apply Rinv_0_lt_compat.
  rewrite (rsum_ext kk (fun i => cgf_mean _) (fun i => (v0 + vt) * (ge_lambda c dt (S i) / ge_gamma c dt (S i)))).
  2:{ intros i _. rewrite cpexp_mean by apply gp. unfold draw_x1_lam. pose proof (gp i). field. lra. }
  rewrite (rsum_ext kk (fun i => cgf_var _) (fun i => (v0 + vt) * (2 * ge_lambda c dt (S i) / ge_gamma c dt (S i) ^ 2))).
  2:{ intros i _. rewrite cpexp_var by apply gp. unfold draw_x1_lam. pose proof (gp i). field. lra. }
  rewrite !rsum_scal. split; field; lra.
Qed.
Lemma draw_x2_invariant shape kk : 0 < shape -> 0 < snd (x2star c dt kk) ->
  let '(m, vs) := x2star c dt kk in
  let scale := vs * m in
  rsum kk (fun i => cgf_mean (gamma_cgf shape (ge_gamma c dt (S i)))) + cgf_mean (gamma_cgf (draw_x2_shape c dt shape kk) (/ scale)) = shape * fst (x2star c dt 0) /\
  rsum kk (fun i => cgf_var (gamma_cgf shape (ge_gamma c dt (S i)))) + cgf_var (gamma_cgf (draw_x2_shape c dt shape kk) (/ scale))
    = shape * (snd (x2star c dt 0) * fst (x2star c dt 0) ^ 2).
Proof.
  intros Hs PV. destruct (x2star_split kk) as [E1 E2]. rewrite <- E2, <- E1. unfold draw_x2_shape. pose proof (x2star_fst_pos c dt Hxi Hmr Hdt kk) as PM.
  destruct (x2star c dt kk) as [m vs]. cbn [fst snd] in *. assert (0 < vs * m) by now apply Rmult_lt_0_compat.
  rewrite gamma_mean, gamma_var by now apply Rinv_0_lt_compat.
  rewrite (rsum_ext kk (fun i => cgf_mean _) (fun i => shape * (1 / ge_gamma c dt (S i)))).
  2:{ intros i _. rewrite gamma_mean by apply gp. pose proof (gp i). field. lra. }
  rewrite (rsum_ext kk (fun i => cgf_var _) (fun i => shape * (1 / ge_gamma c dt (S i) ^ 2))).
  2:{ intros i _. rewrite gamma_var by apply gp. pose proof (gp i). field. lra. }
  rewrite !rsum_scal. split; field; lra.
Qed.
Lemma draw_x123_invariant vsum ssum kk : 0 < vsum -> 0 < ssum ->
  let '(m, vs) := x123_trunc c dt kk vsum ssum in
  rsum kk (fun i => cgf_mean (cpexp_cgf (vsum * ge_lambda c dt (S i)) (ge_gamma c dt (S i))) + cgf_mean (gamma_cgf ssum (ge_gamma c dt (S i)))) + m
    = vsum * fst (x1star c dt 0) + ssum * fst (x2star c dt 0) /\
  rsum kk (fun i => cgf_var (cpexp_cgf (vsum * ge_lambda c dt (S i)) (ge_gamma c dt (S i))) + cgf_var (gamma_cgf ssum (ge_gamma c dt (S i)))) + vs * m ^ 2
    = vsum * (snd (x1star c dt 0) * fst (x1star c dt 0) ^ 2) + ssum * (snd (x2star c dt 0) * fst (x2star c dt 0) ^ 2).
Proof.
  intros Hv Hs. destruct (x1star_split kk) as [E1 E2]. destruct (x2star_split kk) as [E3 E4]. rewrite <- E2, <- E1, <- E4, <- E3. unfold x123_trunc.
  pose proof (x1star_fst_pos c dt Hxi Hmr Hdt kk) as P1. pose proof (x2star_fst_pos c dt Hxi Hmr Hdt kk) as P2.
  destruct (x1star c dt kk) as [m1 v1]. destruct (x2star c dt kk) as [m2 v2]. cbn [fst snd] in *.
  assert (0 < m1 * vsum + m2 * ssum) by (apply Rplus_lt_0_compat; now apply Rmult_lt_0_compat).
  rewrite !rsum_plus.
  rewrite (rsum_ext kk (fun i => cgf_mean (cpexp_cgf _ _)) (fun i => vsum * (ge_lambda c dt (S i) / ge_gamma c dt (S i)))).
  2:{ intros i _. rewrite cpexp_mean by apply gp. pose proof (gp i). field. lra. }
  rewrite (rsum_ext kk (fun i => cgf_var (cpexp_cgf _ _)) (fun i => vsum * (2 * ge_lambda c dt (S i) / ge_gamma c dt (S i) ^ 2))).
  2:{ intros i _. rewrite cpexp_var by apply gp. pose proof (gp i). field. lra. }
  rewrite (rsum_ext kk (fun i => cgf_mean (gamma_cgf _ _)) (fun i => ssum * (1 / ge_gamma c dt (S i)))).
  2:{ intros i _. rewrite gamma_mean by apply gp. pose proof (gp i). field. lra. }
  rewrite (rsum_ext kk (fun i => cgf_var (gamma_cgf _ _)) (fun i => ssum * (1 / ge_gamma c dt (S i) ^ 2))).
  2:{ intros i _. rewrite gamma_var by apply gp. pose proof (gp i). field. lra. }
  rewrite !rsum_scal. split; field; lra.
Qed.
End D.

(** ** asymptotic size of the remainder *)
(* Stolz for tails *)
Lemma tail_ratio (f b : nat -> R) (F B : nat -> R) (L : R) : (forall k, is_series (fun i => f (k + i)%nat) (F k)) -> (forall k, is_series (fun i => b (k + i)%nat) (B k)) ->
  (forall n, 0 < b n) -> is_lim_seq (fun n => f n / b n) L -> is_lim_seq (fun k => F k / B k) L.
Proof.
  intros HF HB Hb HL. apply is_lim_seq_spec. intros eps. apply is_lim_seq_spec in HL. assert (E2 : 0 < eps / 2) by (destruct eps; cbn; lra).
  destruct (HL (mkposreal _ E2)) as [N HN]. cbn in HN. exists N. intros k Hk.
  assert (PB : 0 < B k) by (apply (series_pos _ _ (HB k)); auto).
  assert (U : F k <= (L + eps / 2) * B k).
  { apply (series_le _ _ _ _ (HF k) (series_scal (L + eps / 2) _ _ (HB k))). intros n. specialize (HN (k + n)%nat ltac:(lia)). apply Rabs_def2 in HN. specialize (Hb (k + n)%nat).
    replace (f (k + n)%nat) with (f (k + n)%nat / b (k + n)%nat * b (k + n)%nat) by (field; lra). apply Rmult_le_compat_r; lra. }
  assert (Lw : (L - eps / 2) * B k <= F k).
  { apply (series_le _ _ _ _ (series_scal (L - eps / 2) _ _ (HB k)) (HF k)). intros n. specialize (HN (k + n)%nat ltac:(lia)). apply Rabs_def2 in HN. specialize (Hb (k + n)%nat).
    replace (f (k + n)%nat) with (f (k + n)%nat / b (k + n)%nat * b (k + n)%nat) by (field; lra). apply Rmult_le_compat_r; lra. }
  assert (Q : F k = F k / B k * B k) by (field; lra). rewrite Q in U, Lw. apply Rmult_le_reg_r in U; [|exact PB]. apply Rmult_le_reg_r in Lw; [|exact PB].
  pose proof (cond_pos eps). apply Rabs_def1; lra.
Qed.
