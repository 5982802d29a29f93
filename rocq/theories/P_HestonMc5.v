(** The Poisson-conditioned time-discretization step reproduces the exact mean and variance of the average variance. *)
From Coq Require Import Reals Lra Lia Arith Psatz.
From Coquelicot Require Import Coquelicot.
From Verif Require Import Base Sums M_Heston P_Cir P_KlSum M_HestonMc Spec_Dist Spec_Cev Spec_CevMc Spec_HestonMc P_Gamma P_Gamma2 P_Half P_Ncx2 P_CevMc P_Recip P_HestonMc P_HestonMc2 P_HestonMc3.
Open Scope R_scope.

(** Poisson moments *)
Lemma pois_S l n : INR (S n) * pois l (S n) = l * pois l n.
Proof. unfold pois. rewrite fact_simpl, mult_INR. simpl pow. pose proof (fact_pos n). assert (0 < INR (S n)) by (apply lt_0_INR; lia). field. lra. Qed.
Lemma pois_m1 l : is_series (fun n => INR n * pois l n) l.
Proof.
  apply series_shift; [simpl; ring|]. assert (H : is_series (fun n => INR (S n) * pois l (S n)) (l * 1)).
  { eapply series_ext; [apply series_scal, (pois_series1 l)|]. intros n. cbv beta. symmetry. apply pois_S. }
  rewrite Rmult_1_r in H. exact H.
Qed.
Lemma pois_m2 l : is_series (fun n => INR n ^ 2 * pois l n) (l ^ 2 + l).
Proof.
  apply series_shift; [simpl; ring|]. replace (l ^ 2 + l) with (l * l + l * 1) by ring.
  eapply series_ext; [apply series_plus; [apply series_scal, (pois_m1 l)|apply series_scal, (pois_series1 l)]|].
  intros n. cbv beta. replace (INR (S n) ^ 2 * pois l (S n)) with (INR (S n) * (INR (S n) * pois l (S n))) by ring. rewrite pois_S, S_INR. ring.
Qed.
Lemma pois_quad l (A B C : R) g : (forall n, g n = A + B * INR n + C * INR n ^ 2) -> pois_expect l g (A + B * l + C * (l ^ 2 + l)).
Proof.
  intros E. unfold pois_expect. replace (A + B * l + C * (l ^ 2 + l)) with (A * 1 + (B * l + C * (l ^ 2 + l))) by ring.
  eapply series_ext; [apply series_plus; [apply series_scal, (pois_series1 l)|apply series_plus; [apply series_scal, (pois_m1 l)|apply series_scal, (pois_m2 l)]]|].
  intros n. cbv beta. rewrite E. ring.
Qed.
Section G.
Variable Gam : R -> R.
Hypothesis HG : gamma_function Gam.
Lemma gmass al : 0 < al -> half_line (gamma_pdf Gam al) 1.
Proof.
  intros H. destruct (HG al H) as (_ & P & D & L0 & L1). replace 1 with (1 - 0) by ring.
  apply (half_line_anti P); [exact D|intros; now apply gpdf_cont|exact L0|exact L1].
Qed.
Lemma gpdf_x al x : 0 < al -> 0 < x -> x * gamma_pdf Gam al x = al * gamma_pdf Gam (al + 1) x.
Proof.
  intros Ha Hx. unfold gamma_pdf. rewrite (Gam_succ Gam HG al Ha). replace (al + 1 - 1) with al by ring. rewrite <- (Rpower_succ al x Hx).
  pose proof (Gam_pos Gam HG al Ha). field. lra.
Qed.
Lemma gam_quad al (A B C : R) g : 0 < al -> (forall x, 0 < x -> g x = A + B * x + C * x ^ 2) -> gam_expect Gam al g (A + B * al + C * (al * (al + 1))).
Proof.
  intros Ha E. unfold gam_expect, pos_expect.
  pose proof (half_line_plus _ _ _ _ (half_line_scal _ _ A (gmass al Ha)) (half_line_plus _ _ _ _ (half_line_scal _ _ (B * al) (gmass (al + 1) ltac:(lra))) (half_line_scal _ _ (C * (al * (al + 1))) (gmass (al + 1 + 1) ltac:(lra))))) as H.
  replace (A + B * al + C * (al * (al + 1))) with (A * 1 + (B * al * 1 + C * (al * (al + 1)) * 1)) by ring.
  eapply half_line_ext; [|exact H]. intros x Hx. cbv beta. rewrite E by exact Hx.
  assert (E1 := gpdf_x al x Ha Hx). assert (E2 := gpdf_x (al + 1) x ltac:(lra) Hx).
  replace ((A + B * x + C * x ^ 2) * gamma_pdf Gam al x) with (A * gamma_pdf Gam al x + (B * (x * gamma_pdf Gam al x) + C * x * (x * gamma_pdf Gam al x))) by ring.
  rewrite !E1. replace (C * x * (al * gamma_pdf Gam (al + 1) x)) with (C * al * (x * gamma_pdf Gam (al + 1) x)) by ring. rewrite E2. ring.
Qed.

Variables (ive : R -> R -> R) (c : cir) (dt v0 : R).
Hypothesis (Hxi : 0 < c_xi c) (Hmr : 0 < c_mr c) (Hth : 0 < c_theta c) (Hdt : 0 < dt) (Hv0 : 0 < v0).
Let mx := fst (x1star c dt 0). Let vx := snd (x1star c dt 0) * mx ^ 2.
Let mz := fst (x2star c dt 0). Let vz := snd (x2star c dt 0) * mz ^ 2.
Let e := cir_exp_h c dt. Let phi := cir_phi c dt.
Let s := e / phi * 2. Let al := 4 * c_mr c * c_theta c / c_xi c ^ 2 / 2. Let mu := v0 * e * phi / 2.
Let Hs : 0 < s.
Proof. unfold s. apply Rmult_lt_0_compat; [|lra]. apply Rdiv_lt_0_compat; [apply exp_pos|now apply phi_pos]. Qed.
Let Hmx : 0 < mx := x1star_fst_pos c dt Hxi Hmr Hdt 0.
Let Hmz : 0 < mz := x2star_fst_pos c dt Hxi Hmr Hdt 0.
Let Hal : 0 < al. Proof. unfold al. pose proof (chi_pos c Hxi Hmr Hth) as P. unfold chi_dim in P. replace (4 * c_mr c * c_theta c) with (4 * c_theta c * c_mr c) by ring. lra. Qed.
Lemma chi_al : chi_dim c / 2 = al.
Proof. unfold chi_dim, al. field. lra. Qed.
Lemma step_eq N g : 0 <= N -> 0 <= g -> poistd_step ive c dt v0 N g =
  (s * g, mx * (v0 + s * g) + mz * (2 * N + al), vx * (v0 + s * g) + vz * (2 * N + al)).
Proof.
  intros HN Hg. unfold poistd_step, cir_pois_gamma_args. fold e phi s. unfold cond_avgvar_mv.
  replace (x1star c dt 0) with (fst (x1star c dt 0), snd (x1star c dt 0)) by (symmetry; apply surjective_pairing). fold mx.
  replace (x2star c dt 0) with (fst (x2star c dt 0), snd (x2star c dt 0)) by (symmetry; apply surjective_pairing). fold mz. rewrite chi_al.
  assert (0 < mx * (v0 + s * g) + mz * (2 * N + al)).
  { pose proof Hmx. pose proof Hmz. pose proof Hs. pose proof Hal. apply Rplus_lt_le_0_compat; [apply Rmult_lt_0_compat; [lra|]; nra|apply Rmult_le_pos; lra]. }
  f_equal. unfold vx, vz. field. lra.
Qed.
Definition td_inner1 (n : nat) : R := mx * v0 + mz * (2 * INR n + al) + mx * s * (al + INR n) + 0 * ((al + INR n) * (al + INR n + 1)).
Lemma td_inner1_ok n : gam_expect Gam (al + INR n) (fun g => snd (fst (poistd_step ive c dt v0 (INR n) g))) (td_inner1 n).
Proof.
  pose proof Hal. pose proof (pos_INR n). apply (gam_quad _ (mx * v0 + mz * (2 * INR n + al)) (mx * s) 0); [lra|]. intros x Hx. rewrite step_eq by lra. cbn [fst snd]. ring.
Qed.
Lemma td_mean : pois_expect mu td_inner1 (mx * (v0 + s * (al + mu)) + mz * (2 * mu + al)).
Proof.
  replace (mx * (v0 + s * (al + mu)) + mz * (2 * mu + al)) with (mx * v0 + mz * al + mx * s * al + (2 * mz + mx * s) * mu + 0 * (mu ^ 2 + mu)) by ring.
  apply pois_quad. intros n. unfold td_inner1. ring.
Qed.
Definition td_inner2 (n : nat) : R :=
  let b := mx * v0 + mz * (2 * INR n + al) in
  b ^ 2 + vx * v0 + vz * (2 * INR n + al) + (2 * b * (mx * s) + vx * s) * (al + INR n) + (mx * s) ^ 2 * ((al + INR n) * (al + INR n + 1)).
Lemma td_inner2_ok n : gam_expect Gam (al + INR n) (fun g => let '(_, av, ev) := poistd_step ive c dt v0 (INR n) g in av ^ 2 + ev) (td_inner2 n).
Proof.
  pose proof Hal. pose proof (pos_INR n). apply gam_quad; [lra|]. intros x Hx. rewrite step_eq by lra. ring.
Qed.
Definition td_var : R := (mx * s) ^ 2 * (al + 2 * mu) + 4 * mz ^ 2 * mu + 4 * mx * mz * s * mu + vx * (v0 + s * (al + mu)) + vz * (2 * mu + al).
Lemma td_second : pois_expect mu td_inner2 ((mx * (v0 + s * (al + mu)) + mz * (2 * mu + al)) ^ 2 + td_var).
Proof.
  set (b0 := mx * v0 + mz * al).
  replace ((mx * (v0 + s * (al + mu)) + mz * (2 * mu + al)) ^ 2 + td_var) with
    ((b0 ^ 2 + vx * v0 + vz * al + (2 * b0 * (mx * s) + vx * s) * al + (mx * s) ^ 2 * (al * (al + 1))) +
     (4 * mz * b0 + 2 * vz + 4 * mz * (mx * s) * al + (2 * b0 * (mx * s) + vx * s) + (mx * s) ^ 2 * (2 * al + 1)) * mu +
     (4 * mz ^ 2 + 4 * mz * (mx * s) + (mx * s) ^ 2) * (mu ^ 2 + mu)) by (unfold b0, td_var; ring).
  apply pois_quad. intros n. unfold td_inner2, b0. ring.
Qed.
(** identification with the exact moments when the closed forms are used *)
Let a := c_mr c * dt / 2.
Let Ha : 0 < a. Proof. unfold a. assert (0 < c_mr c * dt) by now apply Rmult_lt_0_compat. lra. Qed.
Let He : 0 < e < 1. Proof. unfold e, cir_exp_h. split; [apply exp_pos|]. rewrite <- exp_0 at 1. apply exp_increasing. pose proof Ha as Ha'. unfold a in Ha'. lra. Qed.
Let sinh_e : sinh a = (/ e - e) / 2. Proof. unfold sinh, e, cir_exp_h. fold a. rewrite exp_Ropp. rewrite Rinv_inv. reflexivity. Qed.
Let cosh_e : cosh a = (/ e + e) / 2. Proof. unfold cosh, e, cir_exp_h. fold a. rewrite exp_Ropp. rewrite Rinv_inv. reflexivity. Qed.
Let e2 : exp (- (c_mr c * dt)) = e ^ 2. Proof. unfold e, cir_exp_h. replace (- (c_mr c * dt)) with (- (c_mr c * dt / 2) + - (c_mr c * dt / 2)) by field. rewrite exp_plus. ring. Qed.
Let phi_e : phi = 4 * c_mr c / c_xi c ^ 2 / (/ e - e). Proof. reflexivity. Qed.
Let dt_a : dt = 2 * a / c_mr c. Proof. unfold a. field. lra. Qed.
Let exr : exprel (- (c_mr c * dt)) = (1 - e ^ 2) / (2 * a).
Proof. rewrite exprel_eq by lra. rewrite e2. unfold a. field. lra. Qed.
Let side : / e - e <> 0. Proof. pose proof He. intros E. assert (1 < / e) by (rewrite <- Rinv_1 at 1; apply Rinv_lt_contravar; lra). lra. Qed.
Let side2 : 1 - e ^ 2 <> 0. Proof. pose proof He. nra. Qed.
Lemma td_mean_exact0 : cx1m a * (v0 + s * (al + mu)) + ge_vov2dt c dt * cx2m a * (2 * mu + al) = cir_avg_mean c dt v0.
Proof.
  unfold cir_avg_mean. rewrite exr. unfold cx1m, cx2m. rewrite sinh_e, cosh_e. unfold s, al, mu, ge_vov2dt. rewrite phi_e, dt_a. pose proof He. pose proof Ha. pose proof side. pose proof side2.
  clearbody a e. clear - H H0 H1 H2 Hxi Hmr. field. repeat split; try lra; nra.
Qed.
Lemma cir_mean_td : v0 + s * (al + mu) = v0 + cir_mean c dt v0.
Proof.
  f_equal. unfold cir_mean. rewrite e2. unfold s, al, mu. rewrite phi_e. pose proof He. pose proof side. pose proof side2. clearbody a e. clear - H H0 H1 Hxi Hmr. field. repeat split; try lra; nra.
Qed.
Let w2 := ge_vov2dt c dt.
Let mx_eq : mx = cx1m a + (x1_mean0 a - cx1m a).
Proof. unfold mx. rewrite (x1star_fst c dt 0). unfold x1M. cbn [rsum]. fold a. ring. Qed.
Let mz_eq : mz = w2 * cx2m a + w2 * (x2_mf0 a - cx2m a).
Proof. unfold mz. rewrite (x2star_fst c dt Hxi Hdt 0). unfold x2M. cbn [rsum]. fold a w2. ring. Qed.
Let vx_eq : vx = w2 * cx1v a + w2 * (x1_vf0 a - cx1v a).
Proof. unfold vx, mx. rewrite (x1star_var c dt Hxi Hmr Hdt 0). unfold x1V. cbn [rsum]. fold a w2. ring. Qed.
Let vz_eq : vz = w2 ^ 2 * cx2v a + w2 ^ 2 * (x2_vf0 a - cx2v a).
Proof. unfold vz, mz. rewrite (x2star_var c dt Hxi Hmr Hdt 0). unfold x2V. cbn [rsum]. fold a w2. ring. Qed.
Lemma td_mean_close : exists d1 d2, 0 <= d1 <= (if Rlt_dec a (1 / 10) then 8 / 9450 * a ^ 6 else 0) /\ 0 <= d2 <= (if Rlt_dec a (1 / 10) then / 18900 * a ^ 6 else 0) /\
  mx * (v0 + s * (al + mu)) + mz * (2 * mu + al) = cir_avg_mean c dt v0 + d1 * (v0 + cir_mean c dt v0) + d2 * w2 * (2 * mu + al).
Proof.
  exists (x1_mean0 a - cx1m a), (x2_mf0 a - cx2m a). split; [apply (x1m_err c dt Hmr Hdt)|]. split; [apply (x2m_err c dt Hmr Hdt)|].
  rewrite <- td_mean_exact0, <- cir_mean_td, mx_eq, mz_eq. fold w2. ring.
Qed.
Lemma td_var_exact0 : (cx1m a * s) ^ 2 * (al + 2 * mu) + 4 * (w2 * cx2m a) ^ 2 * mu + 4 * cx1m a * (w2 * cx2m a) * s * mu + w2 * cx1v a * (v0 + s * (al + mu)) + w2 ^ 2 * cx2v a * (2 * mu + al) = cir_avg_var c dt v0.
Proof.
  unfold cir_avg_var. cbv zeta. rewrite exr, e2. unfold cx1m, cx2m, cx1v, cx2v. rewrite sinh_e, cosh_e. unfold s, al, mu, w2, ge_vov2dt. rewrite phi_e, dt_a. pose proof He. pose proof Ha. pose proof side. pose proof side2.
  clearbody a e. clear - H H0 H1 H2 Hxi Hmr. field. repeat split; try lra; nra.
Qed.
Lemma td_exact : 1 / 10 <= a -> mx * (v0 + s * (al + mu)) + mz * (2 * mu + al) = cir_avg_mean c dt v0 /\ td_var = cir_avg_var c dt v0.
Proof.
  intros Hb. pose proof (x1m_err c dt Hmr Hdt) as B1. pose proof (x1v_err c dt Hmr Hdt) as B2. pose proof (x2m_err c dt Hmr Hdt) as B3. pose proof (x2v_err c dt Hmr Hdt) as B4.
  fold a in B1, B2, B3, B4. destruct (Rlt_dec a (1 / 10)) as [L|L]; [lra|].
  assert (E1 : x1_mean0 a = cx1m a) by lra. assert (E2 : x1_vf0 a = cx1v a) by lra. assert (E3 : x2_mf0 a = cx2m a) by lra. assert (E4 : x2_vf0 a = cx2v a) by lra. clear B1 B2 B3 B4.
  split.
  - rewrite <- td_mean_exact0, mx_eq, mz_eq, E1, E3. fold w2. ring.
  - rewrite <- td_var_exact0. unfold td_var. rewrite mx_eq, mz_eq, vx_eq, vz_eq, E1, E2, E3, E4. ring.
Qed.
End G.
