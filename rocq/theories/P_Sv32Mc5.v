(** 3/2 model: the conditional transform against its published form. *)
From Coq Require Import Reals Lra Lia List Arith Psatz.
From Coquelicot Require Import Coquelicot.
From Verif Require Import Base Sums Spec_Cev P_Gamma P_Gamma2 P_KlSum P_Digamma P_Ncx2 M_Mgf M_Heston M_Sv32Mc Spec_HestonMc P_HestonMc3 Spec_Sv32 P_Sv32Mc2 P_Sv32Mc3.
Open Scope R_scope.
Section X.
Variables (p : svp) (dt v0 vt : R).
Hypothesis (Hx : 0 < v_vov p) (Hk : 0 < v_mr p) (Ht : 0 < v_theta p) (Hd : 0 < dt) (H0 : 0 < v0) (Hvt : 0 < vt).
Lemma order32_eq : sv32_nu p = order32 (v_mr p) (v_vov p). Proof. now apply sv32_nu_eq. Qed.
Lemma order32_b_eq b : sv32_nu_bb p b dt = order32_b (v_mr p) (v_vov p) dt b. Proof. unfold sv32_nu_bb, order32_b. now rewrite order32_eq. Qed.
Lemma arg32_eq : sv32_zz p dt v0 vt = arg32 (v_mr p) (v_theta p) (v_vov p) dt v0 vt.
Proof.
  unfold sv32_zz, arg32, cir_phi, sv32_cir, sinh. cbn [c_mr c_xi]. assert (Hm : 0 < v_mr p * v_theta p * dt) by (apply Rmult_lt_0_compat; [now apply Rmult_lt_0_compat|exact Hd]).
  assert (Hs : 0 < sqrt (v0 * vt)) by (apply sqrt_lt_R0; now apply Rmult_lt_0_compat). rewrite <- exp_Ropp, Ropp_involutive.
  assert (exp (- (v_mr p * v_theta p * dt / 2)) < exp (v_mr p * v_theta p * dt / 2)) by (apply exp_increasing; lra). field. repeat split; lra.
Qed.
Lemma laplace_is_transform (I : R -> R -> R) b : sv32_laplace I I p b dt v0 vt = transform32 I (v_mr p) (v_theta p) (v_vov p) dt v0 vt b.
Proof. unfold sv32_laplace, transform32. now rewrite arg32_eq, order32_b_eq, order32_eq. Qed.
Lemma eta_component_is Gam b eta : eta_component p dt v0 vt Gam b eta = transform32_eta Gam (v_mr p) (v_theta p) (v_vov p) dt v0 vt eta b.
Proof. unfold eta_component, transform32_eta. now rewrite arg32_eq, order32_b_eq, order32_eq. Qed.
Lemma mv_spec (F : R -> R -> R) (ivd : R -> R -> R * R) (m vs : R) :
  (forall y z, 0 < y -> 0 < z -> 0 < F y z /\ is_derive (fun u => F u z) y (fst (ivd y z)) /\ is_derive (fun u => fst (ivd u z)) y (snd (ivd y z))) ->
  sv32_avgvar_mv F ivd p dt v0 vt = (m, vs) ->
  exists v, laplace_mean_var (transform32 F (v_mr p) (v_theta p) (v_vov p) dt v0 vt) m v /\ (m <> 0 -> (0 <= v -> vs * m ^ 2 = v) /\ (v < 0 -> vs = / 10 ^ 64)).
Proof.
  intros HF E. destruct (sv32_mv_exact p dt Hx Hk Ht Hd v0 vt H0 Hvt F ivd m vs HF E) as [v [A B]]. exists v. split; [|exact B].
  replace (transform32 F (v_mr p) (v_theta p) (v_vov p) dt v0 vt) with (fun b => sv32_laplace F F p b dt v0 vt); [exact A|].
  apply FunctionalExtensionality.functional_extensionality. intros b. apply laplace_is_transform.
Qed.
Lemma mv_eta_spec Gam psi psi1 (eta m vs : R) : gamma_function Gam -> digamma_of Gam psi -> trigamma_of psi psi1 -> 0 <= eta ->
  sv32_avgvar_mv_eta psi psi1 p dt v0 vt eta = (m, vs) ->
  exists v, laplace_mean_var (transform32_eta Gam (v_mr p) (v_theta p) (v_vov p) dt v0 vt eta) m v /\ (m <> 0 -> (0 <= v -> vs * m ^ 2 = v) /\ (v < 0 -> vs = / 10 ^ 64)).
Proof.
  intros HG Hp Hp1 He E. destruct (sv32_mv_eta_exact p dt Hx Hk Ht Hd v0 vt H0 Hvt Gam psi psi1 HG Hp Hp1 eta m vs He E) as [v [A B]]. exists v. split; [|exact B].
  replace (transform32_eta Gam (v_mr p) (v_theta p) (v_vov p) dt v0 vt eta) with (fun b => eta_component p dt v0 vt Gam b eta); [exact A|].
  apply FunctionalExtensionality.functional_extensionality. intros b. apply eta_component_is.
Qed.
Lemma mix_spec Gam b : gamma_function Gam -> 0 <= b ->
  is_series (fun n => bessel_pmf Gam (order32 (v_mr p) (v_vov p)) (arg32 (v_mr p) (v_theta p) (v_vov p) dt v0 vt) n * transform32_eta Gam (v_mr p) (v_theta p) (v_vov p) dt v0 vt (INR n) b)
    (transform32 (bessel_I Gam) (v_mr p) (v_theta p) (v_vov p) dt v0 vt b).
Proof.
  intros HG Hb. pose proof (bb_r_pos p dt Hx Hk Ht Hd) as Pr. pose proof (eta_component_mix p dt Hx Hk Ht Hd v0 vt H0 Hvt Gam HG b ltac:(lra)) as S.
  rewrite arg32_eq, order32_b_eq, order32_eq in S. eapply series_ext; [exact S|]. intros n. cbv beta. now rewrite eta_component_is.
Qed.
Lemma eta_laplace_spec Gam b eta : 0 <= b -> sv32_laplace_eta Gam p b dt v0 vt eta = transform32_eta Gam (v_mr p) (v_theta p) (v_vov p) dt v0 vt eta b *
  Rpower (arg32 (v_mr p) (v_theta p) (v_vov p) dt v0 vt / 2) ((dt - 1) * (order32_b (v_mr p) (v_vov p) dt b - order32 (v_mr p) (v_vov p))).
Proof.
  intros Hb. pose proof (bb_r_pos p dt Hx Hk Ht Hd) as Pr. rewrite (laplace_eta_eq p dt Hx Hk Ht Hd v0 vt Gam b eta) by lra. now rewrite eta_component_is, arg32_eq, order32_b_eq, order32_eq.
Qed.
Lemma order_b_gt b : 0 < b -> order32 (v_mr p) (v_vov p) < order32_b (v_mr p) (v_vov p) dt b.
Proof.
  intros Hb. unfold order32_b. rewrite <- order32_eq. pose proof (sv32_nu_gt p Hx Hk Ht). rewrite <- (sqrt_square (sv32_nu p)) at 1 by lra.
  apply sqrt_lt_1_alt. split; [nra|]. assert (0 < 8 * b / (v_vov p ^ 2 * dt)); [|nra]. apply Rdiv_lt_0_compat; [lra|apply Rmult_lt_0_compat; [now apply pow_lt|exact Hd]].
Qed.
Lemma eta_laplace_wrong Gam b eta : gamma_function Gam -> 0 < b -> 0 <= eta -> dt <> 1 -> arg32 (v_mr p) (v_theta p) (v_vov p) dt v0 vt <> 2 ->
  sv32_laplace_eta Gam p b dt v0 vt eta <> transform32_eta Gam (v_mr p) (v_theta p) (v_vov p) dt v0 vt eta b.
Proof.
  intros HG Hb He N1 N2 E. rewrite eta_laplace_spec in E by lra. set (T := transform32_eta _ _ _ _ _ _ _ _ _) in *.
  pose proof (sv32_nu_gt p Hx Hk Ht) as G1. pose proof (order_b_gt b Hb) as G2. rewrite order32_eq in G1. pose proof (sv32_zz_pos p dt Hx Hk Ht Hd v0 vt H0 Hvt) as Z. rewrite arg32_eq in Z.
  assert (PT : 0 < T). { unfold T, transform32_eta. apply Rmult_lt_0_compat; [|apply exp_pos]. apply Rdiv_lt_0_compat; apply (Gam_pos Gam HG); lra. }
  set (z := arg32 _ _ _ _ _ _) in *. set (e := (dt - 1) * _) in *. assert (Q : Rpower (z / 2) e = 1) by (apply (Rmult_eq_reg_l T); lra).
  assert (L : e * ln (z / 2) = 0). { apply exp_inj_r || apply exp_inv. rewrite exp_0. exact Q. }
  apply Rmult_integral in L. destruct L as [L|L].
  - unfold e in L. apply Rmult_integral in L. destruct L as [L|L]; lra.
  - apply N2. assert (z / 2 = 1); [|lra]. apply ln_inv; [lra|lra|]. now rewrite ln_1.
Qed.
End X.
Lemma digamma_exists Gam : gamma_function Gam -> exists psi psi1, digamma_of Gam psi /\ trigamma_of psi psi1.
Proof. intros HG. exists psi_series, psi1_series. split; intros x Hx; [now apply digamma_derive|now apply trigamma_derive]. Qed.
(** the code's own functions meet the hypotheses of [mv_spec] *)
Lemma iv_code_ok Gam psi psi1 n : gamma_function Gam -> digamma_of Gam psi -> trigamma_of psi psi1 ->
  forall y z, 0 < y -> 0 < z -> 0 < iv_complex Gam n y z /\ is_derive (fun u => iv_complex Gam n u z) y (fst (iv_d12 Gam psi psi1 n y z)) /\
    is_derive (fun u => fst (iv_d12 Gam psi psi1 n u z)) y (snd (iv_d12 Gam psi psi1 n y z)).
Proof. intros HG Hp Hp1 y z Hy Hz. split; [apply (iv_complex_below Gam HG); lra|]. apply iv_d12_derive; try assumption. lra. Qed.
