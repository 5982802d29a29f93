(** Transforms: the conditional transform of the average variance is that of the gamma expansion, and averaging it over
    the Poisson-gamma draw of the end point gives the exact transform of the integrated variance. *)
From Coq Require Import Reals Lra Lia Arith Psatz.
From Coquelicot Require Import Coquelicot.
From Verif Require Import Base Sums M_Heston P_Cir P_Cir2 P_KlSum P_Kl M_Ou M_HestonMc Spec_Dist Spec_Cev Spec_CevMc Spec_HestonMc P_Gamma P_Gamma2 P_Half P_Ncx2 P_CevMc P_Recip
  P_HestonMc P_HestonMc2 P_HestonMc3 P_HestonMc5.
Open Scope R_scope.

Section M.
Variables (c : cir) (dt : R).
Hypothesis (Hxi : 0 < c_xi c) (Hmr : 0 < c_mr c) (Hdt : 0 < dt).
Let w2 := ge_vov2dt c dt.
Let mrt := c_mr c * dt.
Let Hw : 0 < w2. Proof. exact (w2_pos c dt Hxi Hdt). Qed.
Let Hm : 0 < mrt. Proof. now apply Rmult_lt_0_compat. Qed.
(** arguments for which the transform is real: aa below (mr dt)^2/(2 vov^2 dt) *)
Definition aa_ok (aa : R) : Prop := 2 * ge_vov2dt c dt * aa < (c_mr c * dt) ^ 2.
Let gm (aa : R) := avgvar_mgf_gamma c dt aa.
Lemma gm_pos aa : aa_ok aa -> 0 < gm aa.
Proof. intros H. unfold gm, avgvar_mgf_gamma. apply sqrt_lt_R0. unfold aa_ok in H. lra. Qed.
Lemma gm_sq aa : aa_ok aa -> gm aa ^ 2 = mrt ^ 2 - 2 * w2 * aa.
Proof. intros H. unfold gm, avgvar_mgf_gamma. apply pow2_sqrt. unfold aa_ok in H. unfold mrt, w2. lra. Qed.
Lemma gm_0 : gm 0 = mrt.
Proof. unfold gm, avgvar_mgf_gamma. fold mrt w2. rewrite Rmult_0_r, Rminus_0_r, <- Rsqr_pow2. rewrite sqrt_Rsqr; [reflexivity|]. pose proof Hm. lra. Qed.
Lemma aa_ok0 : aa_ok 0. Proof. unfold aa_ok. fold mrt. pose proof (pow_lt _ 2 Hm). lra. Qed.
Lemma aa_ok_neg aa : aa <= 0 -> aa_ok aa. Proof. intros H. unfold aa_ok. fold mrt w2. pose proof (pow_lt _ 2 Hm). pose proof Hw. nra. Qed.
Lemma gm_derive aa : aa_ok aa -> is_derive gm aa (- w2 / gm aa).
Proof.
  intros H. pose proof (gm_pos aa H) as P. unfold gm, avgvar_mgf_gamma in P |- *. fold mrt w2 in P |- *. unfold aa_ok in H. fold mrt w2 in H.
  auto_derive; [lra|]. Req. rewrite !Rmult_1_r. replace (mrt * mrt + - (2 * w2 * aa)) with (mrt ^ 2 - 2 * w2 * aa) by ring. field. lra.
Qed.
Lemma aa_ok_open aa : aa_ok aa -> locally aa aa_ok.
Proof.
  intros H. unfold aa_ok in H |- *. fold w2 mrt in H |- *. pose proof Hw. apply (filter_imp (fun y => y < mrt ^ 2 / (2 * w2))).
  - intros y Hy. apply (Rmult_lt_compat_l (2 * w2)) in Hy; [|lra]. replace (2 * w2 * (mrt ^ 2 / (2 * w2))) with (mrt ^ 2) in Hy by (field; lra). lra.
  - apply loc_lt. apply (Rmult_lt_reg_l (2 * w2)); [lra|]. replace (2 * w2 * (mrt ^ 2 / (2 * w2))) with (mrt ^ 2) by (field; lra). lra.
Qed.
(** phi and cosh as functions of gamma *)
Let ps (g : R) := 2 * g / w2 / sinh (g / 2).
Let ph (g : R) := 2 * g / w2 * (cosh (g / 2) / sinh (g / 2)).
Let sp (g : R) : 0 < g -> 0 < sinh (g / 2). Proof. intros. apply sinh_pos. lra. Qed.
Lemma ps_pos g : 0 < g -> 0 < ps g.
Proof. intros H. unfold ps. apply Rdiv_lt_0_compat; [apply Rdiv_lt_0_compat; [lra|exact Hw]|now apply sp]. Qed.
Lemma phi_gamma_eq g : 0 < g -> 4 * g / w2 * exp (- g / 2) / (1 - exp (- g / 2) ^ 2) = ps g.
Proof.
  intros H. unfold ps, sinh. replace (- g / 2) with (- (g / 2)) by field. rewrite exp_Ropp. pose proof (exp_pos (g / 2)) as P.
  assert (1 < exp (g / 2)) by (rewrite <- exp_0 at 1; apply exp_increasing; lra). set (E := exp (g / 2)) in *. pose proof Hw. field. repeat split; try lra; nra.
Qed.
Lemma cosh_gamma_eq g : 0 < g -> (exp (- g / 2) + 1 / exp (- g / 2)) / 2 * ps g = ph g.
Proof.
  intros H. unfold ph, ps, cosh. pose proof (sp g H). pose proof Hw. replace (- g / 2) with (- (g / 2)) by field. rewrite exp_Ropp. pose proof (exp_pos (g / 2)) as P.
  set (E := exp (g / 2)) in *. set (S1 := sinh (g / 2)) in *. field. repeat split; lra.
Qed.
Lemma phi_mr_eq : cir_phi c dt = ps mrt.
Proof.
  unfold cir_phi, ps, sinh. fold mrt. rewrite exp_Ropp. pose proof (exp_pos (mrt / 2)) as P. pose proof Hm.
  assert (1 < exp (mrt / 2)) by (rewrite <- exp_0 at 1; apply exp_increasing; lra). set (E := exp (mrt / 2)) in *. unfold w2, ge_vov2dt, mrt. field. repeat split; try lra; nra.
Qed.
Lemma cosh_mr_eq : cosh (mrt / 2) * cir_phi c dt = ph mrt.
Proof. rewrite phi_mr_eq. unfold ps, ph. pose proof (sp mrt Hm). pose proof Hw. field. lra. Qed.
Definition kap (aa : R) : R := (2 * (c_mr c * dt) / ge_vov2dt c dt * (cosh (c_mr c * dt / 2) / sinh (c_mr c * dt / 2))
  - 2 * avgvar_mgf_gamma c dt aa / ge_vov2dt c dt * (cosh (avgvar_mgf_gamma c dt aa / 2) / sinh (avgvar_mgf_gamma c dt aa / 2))) / 2.
Let kap_eq aa : kap aa = (ph mrt - ph (gm aa)) / 2. Proof. reflexivity. Qed.
Lemma kap_0 : kap 0 = 0. Proof. rewrite kap_eq, gm_0. field. Qed.
Definition rr (aa : R) : R := ps (gm aa) / ps mrt.
Lemma rr_pos aa : aa_ok aa -> 0 < rr aa.
Proof. intros H. apply Rdiv_lt_0_compat; apply ps_pos; [now apply gm_pos|exact Hm]. Qed.
Lemma rr_0 : rr 0 = 1. Proof. unfold rr. rewrite gm_0. pose proof (ps_pos mrt Hm). field. lra. Qed.
Lemma x2mgf_eq aa shape : aa_ok aa -> x2_avgvar_mgf c aa dt shape = Rpower (rr aa) shape.
Proof.
  intros H. pose proof (gm_pos aa H) as P. unfold x2_avgvar_mgf, Rpower. f_equal. f_equal. fold (gm aa) w2.
  assert (P4 : 0 < 4 * gm aa / w2 / (1 - exp (- gm aa))).
  { apply Rdiv_lt_0_compat; [apply Rdiv_lt_0_compat; [lra|exact Hw]|]. assert (exp (- gm aa) < 1) by (rewrite <- exp_0; apply exp_increasing; lra). lra. }
  assert (PM := ps_pos mrt Hm). rewrite phi_mr_eq.
  unfold rr. rewrite <- (phi_gamma_eq (gm aa) P).
  replace (4 * gm aa / w2 * exp (- gm aa / 2) / (1 - exp (- gm aa / 2) ^ 2) / ps mrt) with (4 * gm aa / w2 / (1 - exp (- gm aa)) / ps mrt * exp (- gm aa / 2)).
  2:{ replace (exp (- gm aa / 2) ^ 2) with (exp (- gm aa)) by (rewrite <- (Rmult_1_r (exp (- gm aa / 2) ^ 2)); replace (- gm aa) with (- gm aa / 2 + - gm aa / 2) at 1 by field; rewrite exp_plus; ring).
      pose proof Hw. assert (exp (- gm aa) < 1) by (rewrite <- exp_0; apply exp_increasing; lra). field. repeat split; lra. }
  rewrite ln_mult, ln_exp; [field| |apply exp_pos]. now apply Rdiv_lt_0_compat.
Qed.
(** derivatives *)
Lemma sq4 aa n : aa_ok aa -> (gm aa / 2) ^ 2 + npi n ^ 2 = w2 / 2 * (ge_gamma c dt n - aa).
Proof.
  intros H. rewrite ge_gamma_eq by assumption. fold w2. pose proof Hw. replace ((gm aa / 2) ^ 2) with (gm aa ^ 2 / 4) by field. rewrite gm_sq by exact H. unfold mrt. field. lra.
Qed.
Lemma aa_lt_gamma aa n : aa_ok aa -> aa < ge_gamma c dt (S n).
Proof. intros H. pose proof (sq4 aa (S n) H) as E. pose proof (pow_lt _ 2 (npi_pos (S n) ltac:(lia))). pose proof (pow2_ge_0 (gm aa / 2)). pose proof Hw. nra. Qed.
Lemma lnrr_derive aa : aa_ok aa -> is_derive (fun x => ln (rr x)) aa (w2 * cx2m (gm aa / 2)).
Proof.
  intros H. pose proof (gm_pos aa H) as P. pose proof (sp _ P) as S. pose proof (ps_pos mrt Hm) as PM. pose proof Hw.
  assert (D : is_derive (fun g => ln (ps g / ps mrt)) (gm aa) (/ gm aa - cosh (gm aa / 2) / sinh (gm aa / 2) / 2)).
  { unfold sinh in S. assert (PP := ps_pos _ P). unfold ps at 1. unfold ps in PP. set (q := ps mrt) in *. clearbody q. unfold sinh, cosh in *. set (g := gm aa) in *. clearbody g w2. 
    auto_derive.
    - repeat (apply conj); try lra; try exact I. unfold Rdiv in PP. apply Rmult_lt_0_compat; [exact PP|now apply Rinv_0_lt_compat].
    - Req. unfold Rdiv in *. rewrite !exp_Ropp in *. pose proof (exp_pos (g * / 2)). set (E := exp (g * / 2)) in *. field. repeat split; try lra. all: intros E0; apply (Rlt_irrefl 0).
      all: assert (E1 : E - / E = (E * E - 1) / E) by (field; lra). all: rewrite E1 in S. all: rewrite E0 in S; unfold Rdiv in S; lra. }
  eapply is_derive_eq; [exact (is_derive_comp_R (fun g => ln (ps g / ps mrt)) gm aa _ _ D (gm_derive aa H))|].
  unfold cx2m. field. repeat split; lra.
Qed.
Lemma kap_derive aa : aa_ok aa -> is_derive kap aa (cx1m (gm aa / 2)).
Proof.
  intros H. pose proof (gm_pos aa H) as P. pose proof (sp _ P) as S. pose proof Hw.
  assert (D : is_derive (fun g => (ph mrt - ph g) / 2) (gm aa) (- / w2 * (cosh (gm aa / 2) / sinh (gm aa / 2) - gm aa / 2 * (1 / sinh (gm aa / 2)) ^ 2))).
  { unfold ph at 2. set (q := ph mrt). clearbody q. unfold sinh, cosh in *. set (g := gm aa) in *. clearbody g w2.
    auto_derive.
    - unfold Rdiv, Rminus in *. repeat (apply conj); try lra; try exact I.
    - Req. unfold Rdiv in *. rewrite !exp_Ropp in *. pose proof (exp_pos (g * / 2)). set (E := exp (g * / 2)) in *.
      assert (E1 : E - / E = (E * E - 1) / E) by (field; lra). assert (NE : E * E - 1 <> 0). { intros E0. rewrite E1, E0 in S. unfold Rdiv in S. lra. }
      field. repeat split; try lra. }
  eapply is_derive_eq; [exact (is_derive_comp_R (fun g => (ph mrt - ph g) / 2) gm aa _ _ D (gm_derive aa H))|].
  unfold cx1m. field. repeat split; lra.
Qed.
(** the derivatives are the sums over the expansion *)
Lemma x2_series aa shape : aa_ok aa -> is_series (fun i => Derive (gamma_cgf shape (ge_gamma c dt (S i))) aa) (shape * (w2 * cx2m (gm aa / 2))).
Proof.
  intros H. pose proof (gm_pos aa H) as P. pose proof Hw. eapply series_ext; [apply series_scal, series_scal, (full_x2m (gm aa / 2)); lra|].
  intros n. cbv beta. pose proof (ge_gamma_pos c dt Hxi Hdt n) as G. pose proof (aa_lt_gamma aa n H) as L. rewrite (is_derive_unique _ _ _ (gamma_cgf_d shape _ aa G L)).
  rewrite sq4 by exact H. field. lra.
Qed.
Lemma x1_series aa fac : aa_ok aa -> is_series (fun i => Derive (cpexp_cgf (fac * ge_lambda c dt (S i)) (ge_gamma c dt (S i))) aa) (fac * cx1m (gm aa / 2)).
Proof.
  intros H. pose proof (gm_pos aa H) as P. pose proof Hw. eapply series_ext; [apply series_scal, (full_x1m (gm aa / 2)); lra|].
  intros n. cbv beta. pose proof (ge_gamma_pos c dt Hxi Hdt n) as G. pose proof (aa_lt_gamma aa n H) as L. rewrite (is_derive_unique _ _ _ (cpexp_cgf_d _ _ aa G L)).
  rewrite sq4 by exact H. 
  assert (LG : ge_lambda c dt (S n) * ge_gamma c dt (S n) = 8 * npi (S n) ^ 2 / w2 ^ 2).
  { rewrite ge_lambda_eq, ge_gamma_eq by assumption. fold w2. pose proof (q_pos c dt n) as Q. cbv beta zeta in Q. field. split; lra. }
  replace (fac * ge_lambda c dt (S n) * ge_gamma c dt (S n)) with (fac * (ge_lambda c dt (S n) * ge_gamma c dt (S n))) by ring. rewrite LG. field. split; lra.
Qed.
Lemma x2mgf_cgf shape : 0 < shape -> x2_avgvar_mgf c 0 dt shape = 1 /\ forall aa, aa_ok aa -> 0 < x2_avgvar_mgf c aa dt shape /\
  exists D, is_derive (fun x => ln (x2_avgvar_mgf c x dt shape)) aa D /\ is_series (fun i => Derive (gamma_cgf shape (ge_gamma c dt (S i))) aa) D.
Proof.
  intros Hs. split. { rewrite x2mgf_eq by apply aa_ok0. rewrite rr_0. unfold Rpower. rewrite ln_1, Rmult_0_r. apply exp_0. }
  intros aa H. split. { rewrite x2mgf_eq by exact H. apply exp_pos. }
  exists (shape * (w2 * cx2m (gm aa / 2))). split; [|now apply x2_series].
  apply (is_derive_ext_loc (fun x => shape * ln (rr x))).
  - apply (filter_imp aa_ok); [|now apply aa_ok_open]. intros y Hy. rewrite x2mgf_eq by exact Hy. unfold Rpower. rewrite ln_exp. reflexivity.
  - apply is_derive_scal_R. now apply lnrr_derive.
Qed.
Lemma kap_neg aa : aa <= 0 -> kap aa <= 0.
Proof.
  intros H. rewrite <- kap_0. apply (nondecreasing_on kap (fun x => cx1m (gm x / 2))); [exact H| |].
  - intros x Hx. apply kap_derive. apply aa_ok_neg. lra.
  - intros x Hx. pose proof (gm_pos x (aa_ok_neg x ltac:(lra))) as P. left. apply (series_pos _ _ (full_x1m (gm x / 2) ltac:(lra))).
    intros n. pose proof (pow_lt _ 2 (npi_pos (S n) ltac:(lia))). pose proof (pow2_ge_0 (gm x / 2)). apply Rdiv_lt_0_compat; [lra|]. apply pow_lt. lra.
Qed.

Section Cond.
Variable Gam : R -> R.
Hypothesis HG : gamma_function Gam.
Hypothesis Hth : 0 < c_theta c.
Variable iv : R -> R -> R.
Hypothesis Hiv : forall nu z, -1 < nu -> 0 < z -> iv nu z = bessel_I Gam nu z.
Variables v0 vt : R.
Hypothesis (Hv0 : 0 < v0) (Hvt : 0 < vt).
Lemma cond_mgf_eq aa : aa_ok aa -> cond_avgvar_mgf iv c aa dt v0 vt = exp ((v0 + vt) * kap aa) *
  (Rpower (rr aa) (eta_nu c + 1) * (Bs Gam (eta_nu c + 1) ((eta_zz c dt v0 vt / 2) ^ 2 * rr aa ^ 2) / Bs Gam (eta_nu c + 1) ((eta_zz c dt v0 vt / 2) ^ 2))).
Proof.
  intros H. pose proof (gm_pos aa H) as P. pose proof (nu_gt c Hxi Hmr Hth) as N. pose proof (ps_pos _ P) as PS. pose proof (ps_pos mrt Hm) as PM.
  assert (VM : 0 < sqrt (v0 * vt)) by (apply sqrt_lt_R0; now apply Rmult_lt_0_compat).
  unfold cond_avgvar_mgf. cbv zeta. fold w2 (gm aa) mrt. rewrite (phi_gamma_eq _ P), (cosh_gamma_eq _ P), cosh_mr_eq.
  replace ((v0 + vt) * (ph mrt - ph (gm aa)) / 2) with ((v0 + vt) * kap aa) by (rewrite kap_eq; field).
  rewrite phi_mr_eq. rewrite !Hiv by (try exact N; apply Rmult_lt_0_compat; assumption). rewrite !(bI_eq Gam HG) by exact N.
  unfold eta_zz. rewrite phi_mr_eq. fold (rr aa).
  replace (sqrt (v0 * vt) * ps (gm aa) / 2) with (sqrt (v0 * vt) * ps mrt / 2 * rr aa) by (unfold rr; field; lra).
  pose proof (rr_pos aa H) as RP. rewrite <- (Rpower_mult_distr (sqrt (v0 * vt) * ps mrt / 2) (rr aa)).
  2:{ apply Rdiv_lt_0_compat; [now apply Rmult_lt_0_compat|lra]. } 2:exact RP.
  rewrite Rpower_plus, (Rpower_1 (rr aa)) by exact RP.
  replace ((sqrt (v0 * vt) * ps mrt / 2 * rr aa) ^ 2) with ((sqrt (v0 * vt) * ps mrt / 2) ^ 2 * rr aa ^ 2) by ring.
  pose proof (Bs_pos Gam HG (eta_nu c + 1) ((sqrt (v0 * vt) * ps mrt / 2) ^ 2) ltac:(lra) (pow2_ge_0 _)) as HB.
  assert (0 < Rpower (sqrt (v0 * vt) * ps mrt / 2) (eta_nu c)) by apply exp_pos. set (B2 := Bs Gam _ (_ * rr aa ^ 2)). set (B1 := Bs Gam _ _) in *. field. lra.
Qed.
Lemma cond_mgf_series aa : aa_ok aa ->
  is_series (fun n => bessel_pmf Gam (eta_nu c) (eta_zz c dt v0 vt) n * x2_avgvar_mgf c aa dt (chi_dim c / 2 + 2 * INR n))
    (cond_avgvar_mgf iv c aa dt v0 vt / exp ((v0 + vt) * kap aa)).
Proof.
  intros H. pose proof (nu_gt c Hxi Hmr Hth) as N. pose proof (rr_pos aa H) as RP. rewrite cond_mgf_eq by exact H. set (z := eta_zz c dt v0 vt).
  pose proof (Bs_pos Gam HG (eta_nu c + 1) ((z / 2) ^ 2) ltac:(lra) (pow2_ge_0 _)) as HB. pose proof (exp_pos ((v0 + vt) * kap aa)).
  replace (exp ((v0 + vt) * kap aa) * (Rpower (rr aa) (eta_nu c + 1) * (Bs Gam (eta_nu c + 1) ((z / 2) ^ 2 * rr aa ^ 2) / Bs Gam (eta_nu c + 1) ((z / 2) ^ 2))) / exp ((v0 + vt) * kap aa))
    with (Rpower (rr aa) (eta_nu c + 1) / Bs Gam (eta_nu c + 1) ((z / 2) ^ 2) * Bs Gam (eta_nu c + 1) ((z / 2) ^ 2 * rr aa ^ 2)).
  2:{ set (B2 := Bs Gam _ (_ * rr aa ^ 2)). set (B1 := Bs Gam _ _) in *. field. lra. }
  eapply series_ext; [apply series_scal, (Bs_series Gam HG (eta_nu c + 1)); lra|]. intros n. cbv beta. rewrite (bpmf_eq Gam HG) by exact N. rewrite x2mgf_eq by exact H.
  replace (chi_dim c / 2 + 2 * INR n) with (eta_nu c + 1 + INR (2 * n)) by (unfold eta_nu; rewrite mult_INR; simpl; field). rewrite (Rpower_plus (eta_nu c + 1)), Rpower_pow by exact RP.
  rewrite (Rpow_mult_distr ((z / 2) ^ 2)), (pow_mult (rr aa)). unfold Rdiv. ring.
Qed.
End Cond.

(** averaging over the Poisson-gamma draw *)
Section Tower.
Variable Gam : R -> R.
Hypothesis HG : gamma_function Gam.
Hypothesis Hth : 0 < c_theta c.
Variables (v0 aa : R).
Hypothesis (Hv0 : 0 < v0) (Haa : aa <= 0).
Let e := cir_exp_h c dt. Let phi := cir_phi c dt.
Let s := e / phi * 2. Let al := 4 * c_mr c * c_theta c / c_xi c ^ 2 / 2. Let mu := v0 * e * phi / 2.
Let H : aa_ok aa. Proof. exact (aa_ok_neg aa Haa). Qed.
Let Hs : 0 < s.
Proof. unfold s. apply Rmult_lt_0_compat; [|lra]. apply Rdiv_lt_0_compat; [apply exp_pos|now apply phi_pos]. Qed.
Let Hal : 0 < al. Proof. unfold al. pose proof (chi_pos c Hxi Hmr Hth) as P. unfold chi_dim in P. replace (4 * c_mr c * c_theta c) with (4 * c_theta c * c_mr c) by ring. lra. Qed.
Let one_p : 0 < 1 - s * kap aa. Proof. pose proof (kap_neg aa Haa). pose proof Hs. nra. Qed.
Lemma gam_mgf b th : 0 < b -> th < 1 -> gam_expect Gam b (fun g => exp (th * g)) (Rpower (1 - th) (- b)).
Proof.
  intros Hb Ht. unfold gam_expect, pos_expect. pose proof (gmass Gam HG b Hb) as M. apply (half_line_dilate _ _ (1 - th) ltac:(lra)) in M.
  apply (half_line_scal _ _ (Rpower (1 - th) (- b))) in M. rewrite Rmult_1_r in M. eapply half_line_ext; [|exact M]. intros x Hx. cbv beta. unfold gamma_pdf.
  rewrite <- (Rpower_mult_distr (1 - th) x) by lra. replace (exp (- ((1 - th) * x))) with (exp (th * x) * exp (- x)) by (rewrite <- exp_plus; f_equal; ring).
  assert (E : Rpower (1 - th) (- b) * (1 - th) * Rpower (1 - th) (b - 1) = 1).
  { rewrite <- (Rpower_1 (1 - th)) at 2 by lra. rewrite <- !Rpower_plus. replace (- b + 1 + (b - 1)) with 0 by ring. apply Rpower_O. lra. }
  pose proof (Gam_pos Gam HG b Hb).
  replace (Rpower (1 - th) (- b) * ((1 - th) * (Rpower (1 - th) (b - 1) * Rpower x (b - 1) * (exp (th * x) * exp (- x)) / Gam b))) with
    (Rpower (1 - th) (- b) * (1 - th) * Rpower (1 - th) (b - 1) * (Rpower x (b - 1) * (exp (th * x) * exp (- x)) / Gam b)) by (field; lra).
  rewrite E. field. lra.
Qed.
(** conditional transform given (N, v_t): X1 part times Gamma(delta/2 + 2N) part; average over v_t then over N *)
Definition tw_inner (n : nat) : R := exp (v0 * kap aa) * Rpower (rr aa) (al + 2 * INR n) * Rpower (1 - s * kap aa) (- (al + INR n)).
Lemma tw_inner_ok n : gam_expect Gam (al + INR n) (fun g => exp ((v0 + s * g) * kap aa) * x2_avgvar_mgf c aa dt (al + 2 * INR n)) (tw_inner n).
Proof.
  pose proof Hal. pose proof (pos_INR n). pose proof one_p. pose proof (gam_mgf (al + INR n) (s * kap aa) ltac:(lra) ltac:(lra)) as M.
  unfold gam_expect, pos_expect in *. apply (half_line_scal _ _ (exp (v0 * kap aa) * Rpower (rr aa) (al + 2 * INR n))) in M.
  unfold tw_inner. eapply half_line_ext; [|exact M]. intros x Hx. cbv beta. rewrite x2mgf_eq by exact H. replace ((v0 + s * x) * kap aa) with (v0 * kap aa + s * kap aa * x) by ring. rewrite exp_plus. ring.
Qed.
Definition tw_total : R := exp (v0 * kap aa) * Rpower (rr aa / (1 - s * kap aa)) al * exp (mu * (rr aa ^ 2 / (1 - s * kap aa) - 1)).
Lemma tw_sum : pois_expect mu tw_inner tw_total.
Proof.
  unfold pois_expect, tw_total. pose proof one_p as OP. pose proof (rr_pos aa H) as RP. set (D := 1 - s * kap aa) in *.
  eapply series_ext; [apply series_scal, (P_Cir2.pois_series mu (rr aa ^ 2 / D))|]. intros n. cbv beta. unfold tw_inner, pois. fold D.
  rewrite Ropp_plus_distr, (Rpower_plus (- al)), (Rpower_plus al). replace (2 * INR n) with (INR (2 * n)) by (rewrite mult_INR; simpl; ring). rewrite Rpower_pow by exact RP.
  rewrite (Rpower_Ropp D (INR n)), Rpower_pow by exact OP. replace ((rr aa ^ 2 / D) ^ n) with (rr aa ^ (2 * n) * / D ^ n) by (unfold Rdiv; rewrite Rpow_mult_distr, pow_inv, pow_mult; reflexivity).
  replace (Rpower (rr aa / D) al) with (Rpower (rr aa) al * Rpower (/ D) al) by (unfold Rdiv; rewrite Rpower_mult_distr; [reflexivity|exact RP|now apply Rinv_0_lt_compat]).
  replace (Rpower (/ D) al) with (Rpower D (- al)). 2:{ unfold Rpower. rewrite ln_Rinv by exact OP. f_equal. ring. }
  pose proof (pow_lt D n OP). pose proof (fact_pos n). field. split; lra.
Qed.
Let g := gm aa. Let gp : 0 < g. Proof. exact (gm_pos aa H). Qed.
Let E := exp (mrt / 2). Let G := exp (g / 2).
Let E1 : 1 < E. Proof. unfold E. rewrite <- exp_0 at 1. apply exp_increasing. pose proof Hm. lra. Qed.
Let G1 : 1 < G. Proof. unfold G. rewrite <- exp_0 at 1. apply exp_increasing. pose proof gp. lra. Qed.
Let psm : ps mrt = 4 * mrt / w2 / (E - / E).
Proof. unfold ps, sinh. rewrite exp_Ropp. fold E. pose proof E1. pose proof Hw. field. repeat split; try lra; nra. Qed.
Let psg : ps g = 4 * g / w2 / (G - / G).
Proof. unfold ps, sinh. rewrite exp_Ropp. fold G. pose proof G1. pose proof Hw. field. repeat split; try lra; nra. Qed.
Let phm : ph mrt = 2 * mrt / w2 * ((E + / E) / (E - / E)).
Proof. unfold ph, sinh, cosh. rewrite exp_Ropp. fold E. pose proof E1. pose proof Hw. field. repeat split; try lra; nra. Qed.
Let phg : ph g = 2 * g / w2 * ((G + / G) / (G - / G)).
Proof. unfold ph, sinh, cosh. rewrite exp_Ropp. fold G. pose proof G1. pose proof Hw. field. repeat split; try lra; nra. Qed.
Let e_E : e = / E. Proof. unfold e, cir_exp_h. fold mrt. rewrite exp_Ropp. reflexivity. Qed.
Let D_eq : 1 - s * kap aa = ((E * E - 1) * (mrt * (G * G - 1) + g * (G * G + 1))) / (2 * mrt * E * E * (G * G - 1)).
Proof.
  rewrite kap_eq. fold g. rewrite phm, phg. unfold s, phi. rewrite phi_mr_eq, psm, e_E. pose proof E1. pose proof G1. pose proof Hw. pose proof Hm. clearbody E G w2 mrt g.
  field. repeat split; try lra; nra.
Qed.
Let Y_eq : rr aa / (1 - s * kap aa) = E * G / (1 + (mrt + g) / (2 * g) * (G * G - 1)).
Proof.
  rewrite D_eq. unfold rr. fold g. rewrite psm, psg. pose proof E1. pose proof G1. pose proof Hw. pose proof Hm. pose proof gp. clearbody E G w2 mrt g. clear - H0 H1 H2 H3 H4.
  assert (0 < G * G - 1) by nra. assert (0 < E * E - 1) by nra. assert (0 < mrt * (G * G - 1)) by now apply Rmult_lt_0_compat. assert (0 < g * (G * G - 1)) by now apply Rmult_lt_0_compat.
  field. repeat split; try lra; try nra.
Qed.
Let B_eq : kap aa + e * phi / 2 * (rr aa ^ 2 / (1 - s * kap aa) - 1) = 2 * aa * (G * G - 1) / (2 * g + (mrt + g) * (G * G - 1)).
Proof.
  replace (rr aa ^ 2 / (1 - s * kap aa)) with (rr aa * (rr aa / (1 - s * kap aa))) by (pose proof one_p; field; lra). rewrite Y_eq.
  assert (EA : aa = (mrt ^ 2 - g ^ 2) / (2 * w2)) by (unfold g; rewrite gm_sq by exact H; pose proof Hw; field; lra).
  rewrite kap_eq. unfold rr. fold g. set (b := aa) at 1. replace b with ((mrt ^ 2 - g ^ 2) / (2 * w2)) by (symmetry; exact EA). clear EA b. rewrite phm, phg. unfold phi. rewrite phi_mr_eq, psm, psg, e_E. pose proof E1. pose proof G1. pose proof Hw. pose proof Hm. pose proof gp. clearbody E G w2 mrt g. clear - H0 H1 H2 H3 H4.
  assert (0 < G * G - 1) by nra. assert (0 < E * E - 1) by nra. assert (0 < mrt * (G * G - 1)) by now apply Rmult_lt_0_compat. assert (0 < g * (G * G - 1)) by now apply Rmult_lt_0_compat.
  field. repeat split; try lra; try nra.
Qed.
Lemma tw_exact : tw_total = exp (cir_log_mgf c (aa / dt) dt v0).
Proof.
  pose proof E1 as HE. pose proof G1 as HGG. pose proof gp as Hg. pose proof Hm as Hm'.
  assert (EG : sqrt (c_mr c ^ 2 - 2 * (aa / dt) * c_xi c ^ 2) = g / dt).
  { apply Rsqr_inj; [apply sqrt_pos|left; now apply Rdiv_lt_0_compat|]. 
    assert (SQ : c_mr c ^ 2 - 2 * (aa / dt) * c_xi c ^ 2 = (g / dt) ^ 2).
    { replace ((g / dt) ^ 2) with (g ^ 2 / dt ^ 2) by (field; lra). unfold g. rewrite gm_sq by exact H. unfold mrt, w2, ge_vov2dt. field. lra. }
    rewrite SQ, Rsqr_sqrt by apply pow2_ge_0. unfold Rsqr. ring. }
  assert (EX : exp (g / dt * dt) = G * G). { replace (g / dt * dt) with (g / 2 + g / 2) by (field; lra). rewrite exp_plus. reflexivity. }
  unfold cir_log_mgf. cbv zeta. rewrite EG, EX.
  assert (XP : 0 < 1 + (mrt + g) / (2 * g) * (G * G - 1)). { assert (0 < (mrt + g) / (2 * g)) by (apply Rdiv_lt_0_compat; lra). assert (0 < G * G - 1) by nra. nra. }
  assert (X2 : 1 + (c_mr c + g / dt) / (2 * (g / dt)) * (G * G - 1) = 1 + (mrt + g) / (2 * g) * (G * G - 1)) by (unfold mrt; field; lra).
  rewrite X2. unfold tw_total. rewrite Y_eq. set (X := 1 + (mrt + g) / (2 * g) * (G * G - 1)) in *. unfold Rpower.
  rewrite <- !exp_plus. f_equal.
  assert (L : ln (E * G / X) = (mrt + g) / 2 - ln X).
  { unfold Rdiv at 1. assert (0 < E) by lra. assert (0 < G) by lra. rewrite ln_mult, ln_mult, ln_Rinv by first [assumption|now apply Rmult_lt_0_compat|now apply Rinv_0_lt_compat]. unfold E, G. rewrite !ln_exp. field. }
  rewrite L. 
  replace (v0 * kap aa + al * ((mrt + g) / 2 - ln X) + mu * (rr aa ^ 2 / (1 - s * kap aa) - 1)) with (al * ((mrt + g) / 2 - ln X) + v0 * (kap aa + e * phi / 2 * (rr aa ^ 2 / (1 - s * kap aa) - 1))) by (unfold mu; field; pose proof one_p; lra).
  rewrite B_eq. unfold al.
  replace (2 * (aa / dt) * (G * G - 1) / (2 * (g / dt) + (c_mr c + g / dt) * (G * G - 1))) with (2 * aa * (G * G - 1) / (2 * g + (mrt + g) * (G * G - 1))).
  2:{ unfold mrt. assert (0 < G * G - 1) by nra. assert (0 < g * (G * G - 1)) by now apply Rmult_lt_0_compat. assert (0 < mrt * (G * G - 1)) by now apply Rmult_lt_0_compat. unfold mrt in *. field. repeat split; lra. }
  unfold mrt at 1. assert (0 < G * G - 1) by nra. assert (0 < g * (G * G - 1)) by now apply Rmult_lt_0_compat. assert (0 < mrt * (G * G - 1)) by now apply Rmult_lt_0_compat. field. repeat split; lra.
Qed.
End Tower.
End M.
