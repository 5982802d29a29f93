(** CEV: Greeks are derivatives of the price; pricing equation. *)
From Coq Require Import Reals Lra Lia Psatz Arith ZArith FunctionalExtensionality.
From Coquelicot Require Import Coquelicot.
From Verif Require Import Base Gauss Sums Spec_Opt Spec_Cev M_Opt M_Heston M_Cev P_Bsm P_Gamma P_Gamma2 P_Ncx2 P_Ncx3 P_Half P_Cev P_Cev2.
Open Scope R_scope.

Lemma mF_dS m S T : 0 < S -> is_derive (fun S => mF m S T) S (mF m S T / S).
Proof. intros HS. unfold mF, FWD. destruct (is_fwd m); [eapply is_derive_eq; [apply is_derive_id_R|field; lra]|]. auto_derive; [exact I|field; lra]. Qed.
Lemma mF_dT m S T : is_derive (fun T => mF m S T) T (if is_fwd m then 0 else (intr m - divr m) * mF m S T).
Proof. unfold mF, FWD. destruct (is_fwd m); [apply is_derive_const_R|]. auto_derive; [exact I|ring]. Qed.
Lemma mD_dT m T : is_derive (fun T => mD m T) T (- intr m * mD m T).
Proof. unfold mD, DF. auto_derive; [exact I|ring]. Qed.
Definition alpha2 (beta sg F T : R) : R := (sg / Rpower F (1 - beta)) ^ 2 * T.
Lemma alpha2_ex (beta : R) (sg F T : R -> R) t : 0 < F t -> ex_derive sg t -> ex_derive F t -> ex_derive T t -> ex_derive (fun t => alpha2 beta (sg t) (F t) (T t)) t.
Proof.
  intros HF [d1 D1] [d2 D2] [d3 D3]. unfold alpha2, Rpower. auto_derive. repeat split; try exact I; try (eexists; eassumption); try exact HF. apply Rgt_not_eq, exp_pos.
Qed.
Lemma ok_loc (beta : R) (sg F T : R -> R) t : 0 < F t -> ex_derive sg t -> ex_derive F t -> ex_derive T t -> eps < alpha2 beta (sg t) (F t) (T t) ->
  locally t (fun u => eps < alpha2 beta (sg u) (F u) (T u)).
Proof. intros H1 H2 H3 H4 H. apply (locally_gt (fun u => alpha2 beta (sg u) (F u) (T u)) eps t); [|exact H]. apply (ex_derive_continuous (K := R_AbsRing) (V := R_NormedModule)). now apply alpha2_ex. Qed.
Lemma s_of_dT beta m T : is_derive (fun T => s_of beta m T) T (((1 - beta) * sigma m) ^ 2 * exp (2 * (intr m - divr m) * (1 - beta) * T)).
Proof. unfold s_of. apply is_derive_scal_R. apply (texprel_derive (2 * (intr m - divr m) * (1 - beta)) T). Qed.

Section C.
Variables (Gam : R -> R) (cdf sf pdf : R -> R -> R -> R).
Hypothesis HG : gamma_function Gam.
Hypothesis HR : ncx2_routines Gam cdf sf pdf.
Variables (beta cp : R).
Hypothesis Hb : beta <> 1.
Hypothesis Hc : call_or_put cp.
(** general: along any differentiable curve of (sigma, strike, spot, texp) the price is differentiable *)
Definition pr (D F K s : R) : R := D * (ccall Gam beta F K s - (1 - cp) / 2 * (F - K)).
Lemma pr_total (D F K s : R -> R) t dD dF dK ds : 0 < F t -> 0 < K t -> 0 < s t -> is_derive D t dD -> is_derive F t dF -> is_derive K t dK -> is_derive s t ds ->
  is_derive (fun t => pr (D t) (F t) (K t) (s t)) t (dD * (ccall Gam beta (F t) (K t) (s t) - (1 - cp) / 2 * (F t - K t)) +
    D t * (dF * (cdelta Gam beta (F t) (K t) (s t) - (1 - cp) / 2) - dK * (csurv Gam beta (F t) (K t) (s t) - (1 - cp) / 2) + hlf beta * (ds / s t) * F t * cdens Gam beta (F t) (K t) (s t))).
Proof using HG Hb.
  intros HF HK Hs DD DF DK Ds. unfold pr. eapply is_derive_eq.
  - apply is_derive_mult_R; [exact DD|]. apply is_derive_minus_R; [apply (ccall_total Gam HG beta F K s t dF dK ds); assumption|]. apply is_derive_scal_R, is_derive_minus_R; [exact DF|exact DK].
  - cbv beta. ring.
Qed.
Lemma price_pr m K S T : 0 < K -> 0 < S -> eps < alpha2 beta (sigma m) (mF m S T) T -> cev_price cdf sf beta m K S T cp = pr (mD m T) (mF m S T) K (s_of beta m T).
Proof using HG HR Hb Hc.
  intros HK HS Ho. rewrite (price_cp Gam cdf sf pdf HG HR) by assumption. unfold pr. rewrite s_eff_of; [reflexivity|]. left. exact Ho.
Qed.
Variables (m : opt) (K S T : R).
Hypothesis HK : 0 < K.
Hypothesis HS : 0 < S.
Hypothesis Hok : eps < alpha2 beta (sigma m) (mF m S T) T.
Let F := mF m S T. Let s := s_of beta m T.
Lemma sp : 0 < s. Proof using Hb Hok. apply (s_of_pos beta m T F Hb). left. exact Hok. Qed.
Lemma Fp : 0 < F. Proof using HS. now apply mF_pos. Qed.
Lemma locS : locally S (fun S => 0 < S). Proof using HS. apply (locally_gt (fun u => u) 0 S); [apply continuous_id|exact HS]. Qed.
Lemma dS_price : is_derive (fun S => cev_price cdf sf beta m K S T cp) S (mD m T * (F / S * (cdelta Gam beta F K s - (1 - cp) / 2))).
Proof using HG HR Hb Hc HK HS Hok.
  pose proof sp. pose proof Fp.
  apply (is_derive_ext_loc (fun S => pr (mD m T) (mF m S T) K s)).
  - assert (L := ok_loc beta (fun _ => sigma m) (fun S => mF m S T) (fun _ => T) S Fp ltac:(eexists; apply is_derive_const_R) ltac:(eexists; now apply mF_dS) ltac:(eexists; apply is_derive_const_R) Hok).
    generalize (filter_and _ _ L locS). apply filter_imp. intros u [A B]. symmetry. now apply price_pr.
  - eapply is_derive_eq; [apply (pr_total (fun _ => mD m T) (fun S => mF m S T) (fun _ => K) (fun _ => s) S 0 (F / S) 0 0); try assumption; try apply is_derive_const_R; now apply mF_dS|]. fold F. unfold Rdiv. ring.
Qed.
Lemma delta_is : cev_delta sf beta m K S T cp = mD m T * (F / S * (cdelta Gam beta F K s - (1 - cp) / 2)).
Proof using HG HR Hb HK HS Hok.
  rewrite (delta_eq Gam cdf sf pdf HG HR) by (try assumption; apply sp). fold F. fold s.
  replace (if is_fwd m then mD m T else exp (- (divr m * T))) with (mD m T * (F / S)); [field; lra|]. unfold F, mF, FWD, mD, DF. destruct (is_fwd m); [field; lra|].
  replace (S * exp ((intr m - divr m) * T) / S) with (exp ((intr m - divr m) * T)) by (field; lra). rewrite <- exp_plus. f_equal. ring.
Qed.
Lemma delta_thm : is_derive (fun S => cev_price cdf sf beta m K S T cp) S (cev_delta sf beta m K S T cp).
Proof using HG HR Hb Hc HK HS Hok. rewrite delta_is. exact dS_price. Qed.
Lemma strike_thm : is_derive (fun K => cev_price cdf sf beta m K S T cp) K (- mD m T * (csurv Gam beta F K s - (1 - cp) / 2)).
Proof using HG HR Hb Hc HK HS Hok.
  pose proof sp. pose proof Fp. apply (is_derive_ext_loc (fun K => pr (mD m T) F K s)).
  - assert (L : locally K (fun K => 0 < K)) by (apply (locally_gt (fun u => u) 0 K); [apply continuous_id|exact HK]). revert L. apply filter_imp. intros u A. symmetry. now apply price_pr.
  - eapply is_derive_eq; [apply (pr_total (fun _ => mD m T) (fun _ => F) (fun K => K) (fun _ => s) K 0 0 1 0); try assumption; try apply is_derive_const_R; apply is_derive_id_R|]. unfold Rdiv. ring.
Qed.
Lemma vega_thm : 0 < sigma m -> is_derive (fun sg => cev_price cdf sf beta (set_sigma m sg) K S T cp) (sigma m) (cev_vega pdf beta m K S T cp).
Proof using HG HR Hb Hc HK HS Hok.
  intros Hsg. pose proof sp. pose proof Fp. rewrite (vega_eq Gam cdf sf pdf HG HR) by (try assumption; lra). fold F. fold s.
  apply (is_derive_ext_loc (fun sg => pr (mD m T) F K (s_of beta (set_sigma m sg) T))).
  - assert (L := ok_loc beta (fun sg => sg) (fun _ => F) (fun _ => T) (sigma m) Fp ltac:(eexists; apply is_derive_id_R) ltac:(eexists; apply is_derive_const_R) ltac:(eexists; apply is_derive_const_R) Hok).
    revert L. apply filter_imp. intros u A. symmetry. exact (price_pr (set_sigma m u) K S T HK HS A).
  - assert (Ds : is_derive (fun sg => s_of beta (set_sigma m sg) T) (sigma m) (2 * s / sigma m)).
    { unfold s, s_of. cbn [set_sigma sigma intr divr]. generalize (exprel (2 * (intr m - divr m) * (1 - beta) * T)). intros e. auto_derive; [exact I|]. field. lra. }
    assert (E0 : s_of beta (set_sigma m (sigma m)) T = s) by reflexivity.
    eapply is_derive_eq; [apply (pr_total (fun _ => mD m T) (fun _ => F) (fun _ => K) (fun sg => s_of beta (set_sigma m sg) T) (sigma m) 0 0 0 (2 * s / sigma m)); try assumption; try apply is_derive_const_R|]. rewrite E0. field. lra.
Qed.
Lemma gamma_thm : is_derive (fun S => cev_delta sf beta m K S T cp) S (cev_gamma pdf beta m K S T cp).
Proof using HG HR Hb HK HS Hok.
  pose proof sp as s0. pose proof Fp as F0. rewrite (gamma_eq Gam cdf sf pdf HG HR) by (try assumption; lra). fold F. fold s.
  set (c := if is_fwd m then mD m T else exp (- (divr m * T))).
  assert (EC : c = mD m T * (F / S)). { unfold c, F, mF, FWD, mD, DF. destruct (is_fwd m); [field; lra|]. replace (S * exp ((intr m - divr m) * T) / S) with (exp ((intr m - divr m) * T)) by (field; lra). rewrite <- exp_plus. f_equal. ring. }
  apply (is_derive_ext_loc (fun S => ((cp - 1) / 2 + cdelta Gam beta (mF m S T) K s) * c)).
  - apply (filter_imp (fun u => 0 < u)); [|exact locS]. intros u A. symmetry. exact (delta_eq Gam cdf sf pdf HG HR beta m K u T cp Hb HK A s0).
  - eapply is_derive_eq.
    + apply is_derive_mult_R; [apply is_derive_plus_R; [apply is_derive_const_R|]|apply is_derive_const_R]. apply (is_derive_comp_R (fun F => cdelta Gam beta F K s) (fun S => mF m S T) S); [now apply (cdelta_derive Gam HG)|now apply mF_dS].
    + fold F. rewrite EC. replace (if is_fwd m then 1 else F / S) with (F / S); [field; split; lra|]. unfold F, mF, FWD. destruct (is_fwd m); [field; lra|reflexivity].
Qed.
Lemma theta_val : 0 < sigma m -> 0 < T -> - cev_theta cdf sf pdf beta m K S T cp =
  - intr m * pr (mD m T) F K s + mD m T * ((if is_fwd m then 0 else (intr m - divr m) * F) * (cdelta Gam beta F K s - (1 - cp) / 2)
    + hlf beta * (((1 - beta) * sigma m) ^ 2 * exp (2 * (intr m - divr m) * (1 - beta) * T) / s) * F * cdens Gam beta F K s).
Proof using HG HR Hb Hc HK HS Hok.
  intros Hsg HT. pose proof sp as s0. pose proof Fp as F0. unfold cev_theta. cbv zeta. rewrite delta_is, price_pr by assumption. rewrite (vega_eq Gam cdf sf pdf HG HR) by (try assumption; lra). fold F. fold s.
  replace (2 * (1 - beta) * (intr m - divr m) * T) with (2 * (intr m - divr m) * (1 - beta) * T) by ring. set (e := exp (2 * (intr m - divr m) * (1 - beta) * T)).
  assert (ES : s = ((1 - beta) * sigma m) ^ 2 * (T * exprel (2 * (intr m - divr m) * (1 - beta) * T))) by reflexivity. pose proof (exprel_gt0 (2 * (intr m - divr m) * (1 - beta) * T)) as X. set (x := exprel (2 * (intr m - divr m) * (1 - beta) * T)) in *.
  set (q := cdens Gam beta F K s). set (d := cdelta Gam beta F K s). set (P := pr (mD m T) F K s). clearbody q d P e x. rewrite ES. destruct (is_fwd m); field; repeat split; try lra.
Qed.
Lemma theta_thm : 0 < sigma m -> 0 < T -> is_derive (fun T => cev_price cdf sf beta m K S T cp) T (- cev_theta cdf sf pdf beta m K S T cp).
Proof using HG HR Hb Hc HK HS Hok.
  intros Hsg HT. pose proof sp as s0. pose proof Fp as F0. rewrite theta_val by assumption.
  apply (is_derive_ext_loc (fun T => pr (mD m T) (mF m S T) K (s_of beta m T))).
  - assert (L := ok_loc beta (fun _ => sigma m) (fun T => mF m S T) (fun T => T) T Fp ltac:(eexists; apply is_derive_const_R) ltac:(eexists; apply mF_dT) ltac:(eexists; apply is_derive_id_R) Hok).
    revert L. apply filter_imp. intros u A. symmetry. now apply price_pr.
  - eapply is_derive_eq; [apply (pr_total (fun T => mD m T) (fun T => mF m S T) (fun _ => K) (fun T => s_of beta m T) T (- intr m * mD m T) (if is_fwd m then 0 else (intr m - divr m) * F) 0 (((1 - beta) * sigma m) ^ 2 * exp (2 * (intr m - divr m) * (1 - beta) * T))); try assumption|].
    + apply mD_dT. + apply mF_dT. + apply is_derive_const_R. + apply s_of_dT.
    + cbv beta. fold F. fold s. unfold pr. clearbody F s. destruct (is_fwd m); ring.
Qed.
Lemma pde_thm : is_fwd m = false -> 0 < sigma m -> 0 < T -> cev_pde (sigma m) beta (intr m) (divr m) (fun S T => cev_price cdf sf beta m K S T cp) S T.
Proof using HG HR Hb Hc HK HS Hok.
  intros Hf Hsg HT. pose proof sp as s0. pose proof Fp as F0.
  exists (- cev_theta cdf sf pdf beta m K S T cp), (fun S => cev_delta sf beta m K S T cp), (cev_gamma pdf beta m K S T cp).
  split; [now apply theta_thm|]. split; [exact delta_thm|]. split; [|split; [exact gamma_thm|]].
  - assert (L := ok_loc beta (fun _ => sigma m) (fun S => mF m S T) (fun _ => T) S Fp ltac:(eexists; apply is_derive_const_R) ltac:(eexists; now apply mF_dS) ltac:(eexists; apply is_derive_const_R) Hok).
    generalize (filter_and _ _ L locS). apply filter_imp. intros u [A B]. clear - A B HG HR Hb Hc HK.
    assert (E : cev_delta sf beta m K u T cp = mD m T * (mF m u T / u * (cdelta Gam beta (mF m u T) K (s_of beta m T) - (1 - cp) / 2))).
    { rewrite (delta_eq Gam cdf sf pdf HG HR) by (try assumption; apply (s_of_pos beta m T (mF m u T) Hb); left; exact A).
      replace (if is_fwd m then mD m T else exp (- (divr m * T))) with (mD m T * (mF m u T / u)); [field; lra|]. unfold mF, FWD, mD, DF. destruct (is_fwd m); [field; lra|].
      replace (u * exp ((intr m - divr m) * T) / u) with (exp ((intr m - divr m) * T)) by (field; lra). rewrite <- exp_plus. f_equal. ring. }
    rewrite E. pose proof (mF_pos m u T B) as F1. assert (s1 : 0 < s_of beta m T) by (apply (s_of_pos beta m T (mF m u T) Hb); left; exact A).
    apply (is_derive_ext_loc (fun S => pr (mD m T) (mF m S T) K (s_of beta m T))).
    + assert (L := ok_loc beta (fun _ => sigma m) (fun S => mF m S T) (fun _ => T) u F1 ltac:(eexists; apply is_derive_const_R) ltac:(eexists; now apply mF_dS) ltac:(eexists; apply is_derive_const_R) A).
      assert (L2 : locally u (fun S => 0 < S)) by (apply (locally_gt (fun u => u) 0 u); [apply continuous_id|exact B]).
      generalize (filter_and _ _ L L2). apply filter_imp. intros w [A' B']. symmetry. now apply price_pr.
    + eapply is_derive_eq; [apply (pr_total (fun _ => mD m T) (fun S => mF m S T) (fun _ => K) (fun _ => s_of beta m T) u 0 (mF m u T / u) 0 0); try assumption; try apply is_derive_const_R; now apply mF_dS|]. unfold Rdiv. ring.
  - rewrite theta_val by assumption. rewrite Hf. rewrite delta_is. rewrite (gamma_eq Gam cdf sf pdf HG HR) by (try assumption; lra). rewrite price_pr by assumption. fold F. fold s. rewrite Hf.
    assert (E1 : Rpower S (2 * beta) = S ^ 2 / Rpower S (2 * (1 - beta))). { replace (2 * beta) with (2 + - (2 * (1 - beta))) by ring. rewrite Rpower_plus, Rpower_Ropp. replace (Rpower S 2) with (S ^ 2); [reflexivity|]. symmetry. exact (Rpower_pow 2 S HS). }
    assert (E2 : Rpower F (2 * (1 - beta)) = Rpower S (2 * (1 - beta)) * exp (2 * (intr m - divr m) * (1 - beta) * T)).
    { unfold F, mF, FWD. rewrite Hf. rewrite <- Rpower_mult_distr by (try apply exp_pos; exact HS). f_equal. unfold Rpower. rewrite ln_exp. f_equal. ring. }
    unfold yv at 1. rewrite E2, E1. assert (0 < Rpower S (2 * (1 - beta))) by apply exp_pos. set (w := Rpower S (2 * (1 - beta))) in *. set (e := exp (2 * (intr m - divr m) * (1 - beta) * T)).
    unfold hlf. set (q := cdens Gam beta F K s). set (d := cdelta Gam beta F K s). set (P := pr (mD m T) F K s). clearbody q d P e w.
    assert (A0 : 0 < Rabs (1 - beta)) by (apply Rabs_pos_lt; lra). replace ((1 - beta) * sigma m) with ((1 - beta) * sigma m) by ring. rewrite Rpow_mult_distr, <- (pow2_abs (1 - beta)). Req. field. repeat split; lra.
Qed.
End C.
