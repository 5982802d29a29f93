(** Property theorems C35, C36 and C38: SABR (sabr.py, sabr_mc.py, sabr_int.py). *)
From Coq Require Import Reals Lra Arith Lia List.
From Coquelicot Require Import Coquelicot.
From Verif Require Import Gauss Sums Spec_Opt Spec_Expect Spec_Sabr M_Opt P_Bsm M_Heston M_Fd M_Sabr M_Cev Spec_Cev P_Gamma2 P_Ncx3 P_Sabr P_Sabr2 P_Sabr3 P_Sabr4 P_Sabr5 P_Sabr6.
Import ListNotations.
Open Scope R_scope.

(** *** C35: moments of the average variance *)
(** The closed forms of avgvar_mnc4 are the true moments: with vol-of-vol a, E[J_t^n | sigma_0^2 = v] = t^n * (n-th entry) * v^n. *)
Theorem C35_avgvar_raw_moments : forall (a : R) (n : nat), a <> 0 -> (1 <= n <= 4)%nat ->
  exists f, gbm_expectation a (fun _ j => j ^ n) f /\ forall t v, 0 < t ->
    let vovn := a * sqrt t in
    f t v 0 = t ^ n * nth (n - 1) [exprel (vovn ^ 2); avgvar_m2 vovn; avgvar_m3 vovn; avgvar_m4 vovn] 0 * v ^ n.
Proof.
  intros a n Ha Hn. destruct (avgvar_true_moments a Ha n Hn) as (f & H1 & H2). exists f. split; [exact H1|]. intros t v Ht. cbv zeta. rewrite H2 by exact Ht.
  assert (n = 1 \/ n = 2 \/ n = 3 \/ n = 4)%nat as [->|[->|[->| ->]]] by lia; reflexivity.
Qed.
Print Assumptions C35_avgvar_raw_moments.
(** The first one is coded with a series below vovn^2 = 1e-6, with error at most 1e-18. *)
Theorem C35_avgvar_mean_branch : forall v, 0 < v ->
  Rabs (avgvar_m1 v - exprel (v ^ 2)) <= / 10 ^ 18 /\ (/ 10 ^ 6 < v ^ 2 -> avgvar_m1 v = exprel (v ^ 2)).
Proof. intros v Hv. split; [exact (m1_close v Hv)|exact (m1_exprel v)]. Qed.
Print Assumptions C35_avgvar_mean_branch.
(** avgvar_mvsk (the factored polynomial form) is the mean, scaled variance, skewness and excess kurtosis of those moments. *)
Theorem C35_avgvar_mvsk : forall v, 0 < v ->
  let m1 := exprel (v ^ 2) in
  avgvar_mvsk v = (m1, var_of_raw m1 (avgvar_m2 v) / m1 ^ 2, skew_of_raw m1 (avgvar_m2 v) (avgvar_m3 v),
                   exkurt_of_raw m1 (avgvar_m2 v) (avgvar_m3 v) (avgvar_m4 v)).
Proof. exact avgvar_mvsk_eq. Qed.
Print Assumptions C35_avgvar_mvsk.
(** Conditional on the terminal volatility: the four raw moments solve the Fokker-Planck hierarchy. *)
Theorem C35_conditional_moments : forall a, 0 < a -> exists G, weighted_densities a 4 G /\
  forall t x, 0 < t -> / 100 < a * sqrt t ->
  forall r1 r2 r3 r4, cond_avgvar_mnc (a * sqrt t) (x / (a * sqrt t)) = (r1, r2, r3, r4) ->
    G 1%nat t x = G 0%nat t x * (t * r1) /\ G 2%nat t x = G 0%nat t x * (t ^ 2 * r2) /\
    G 3%nat t x = G 0%nat t x * (t ^ 3 * r3) /\ G 4%nat t x = G 0%nat t x * (t ^ 4 * r4).
Proof.
  intros a Ha. exists (Gn a). split; [exact (cond_fokker_planck a Ha)|]. intros t x Ht Hv r1 r2 r3 r4 E.
  rewrite (cond_mnc_branch _ _ Hv) in E. apply tuple4_inj in E. destruct E as (<- & <- & <- & <-).
  unfold Gn. replace (cond_raw 0 (a * sqrt t) (x / (a * sqrt t))) with 1 by (unfold cond_raw, cond_mnc; reflexivity).
  repeat match goal with |- _ /\ _ => split end; ring.
Qed.
Print Assumptions C35_conditional_moments.
(** The conditional mean is also the Brownian-bridge average. *)
Theorem C35_conditional_mean_bridge : forall v z, / 100 < v ->
  exists h, (forall s, 0 <= s <= 1 ->
               gauss_expect (fun y => exp (2 * v * (s * (z + v / 2) + sqrt (s * (1 - s)) * y) - v ^ 2 * s)) (h s)) /\
            is_RInt h 0 1 (cond_avgvar_mfn z v * exp (v * z)).
Proof.
  intros v z Hv. destruct (cond_bridge v z ltac:(lra)) as (h & H1 & H2). exists h. split; [exact H1|].
  unfold cond_avgvar_mfn. destruct (Rlt_dec _ _) as [_|N]; [exact H2|]. exfalso. apply N. rewrite Rabs_right; lra.
Qed.
Print Assumptions C35_conditional_mean_bridge.
Theorem C35_conditional_mvsk : forall v z, / 10 <= v ->
  forall r1 r2 r3 r4 m s sk k, cond_avgvar_mnc v z = (r1, r2, r3, r4) -> cond_avgvar_mvsk v z = (m, s, sk, k) ->
  m = r1 /\ s = var_of_raw r1 r2 / r1 ^ 2 /\ sk = skew_of_raw r1 r2 r3 /\ k = exkurt_of_raw r1 r2 r3 r4.
Proof.
  intros v z Hv r1 r2 r3 r4 m s sk k E1 E2. rewrite (cond_mnc_branch v z) in E1 by lra. apply tuple4_inj in E1. destruct E1 as (<- & <- & <- & <-).
  exact (cond_mvsk_stats v z Hv m s k sk E2).
Qed.
Print Assumptions C35_conditional_mvsk.
Example C35_ex : exists f, gbm_expectation (/ 2) (fun _ j => j ^ 2) f.
Proof. destruct (C35_avgvar_raw_moments (/ 2) 2 ltac:(lra) ltac:(lia)) as (f & H & _). exists f. exact H. Qed.

(** *** C36: conditional Monte-Carlo and mixtures *)
(** Discounted exactly once: the price is the discount factor times the zero-rate price at the forward -- when the base model is Bsm
    (beta close to 1), Norm (beta close to 0), or when the two rates agree.  The base model is the modelled one, Cev included. *)
Theorem C36_mc_discounts_once : forall ncx2_cdf ncx2_sf mo p cf paths K S T cp,
  isclose (b_beta p) 1 = true \/ isclose (b_beta p) 0 = true \/ intr mo = divr mo ->
  sabr_mc_price (cev_price ncx2_cdf ncx2_sf) mo p cf paths K S T cp
  = DF (intr mo) T * sabr_mc_price (cev_price ncx2_cdf ncx2_sf) (mkOpt (sigma mo) 0 0 true) p cf paths K (FWD (intr mo) (divr mo) (is_fwd mo) S T) T cp.
Proof. exact mc_discounts_once. Qed.
Print Assumptions C36_mc_discounts_once.
Theorem C36_mix_discounts_once : forall ncx2_cdf ncx2_sf mo p cf nodes K S T cp,
  isclose (b_beta p) 1 = true \/ isclose (b_beta p) 0 = true \/ intr mo = divr mo ->
  sabr_mix_price (cev_price ncx2_cdf ncx2_sf) mo p cf nodes K S T cp
  = option_map (Rmult (DF (intr mo) T)) (sabr_mix_price (cev_price ncx2_cdf ncx2_sf) (mkOpt (sigma mo) 0 0 true) p cf nodes K (FWD (intr mo) (divr mo) (is_fwd mo) S T) T cp).
Proof. exact mix_discounts_once. Qed.
Print Assumptions C36_mix_discounts_once.
(** Refuted in the remaining case: with 0 < beta < 1 and different rates the base model is built with the rates and the forward flag, and
    its variance keeps the factor exprel(2 (r - q) (1 - beta) T): the price is always above (r > q) or below (r < q) the once-discounted one. *)
Theorem C36_mc_rates_refuted : forall Gam ncx2_cdf ncx2_sf ncx2_pdf, gamma_function Gam -> ncx2_routines Gam ncx2_cdf ncx2_sf ncx2_pdf ->
  forall mo p paths K S T cp, let F := FWD (intr mo) (divr mo) (is_fwd mo) S T in
  isclose (b_beta p) 1 = false -> isclose (b_beta p) 0 = false -> 0 < b_beta p < 1 -> 0 < F -> 0 < K -> 0 < T -> call_or_put cp ->
  paths F <> [] -> (forall x, In x (paths F) -> / 10 ^ 16 < fst x) ->
  let price := sabr_mc_price (cev_price ncx2_cdf ncx2_sf) mo p false paths K S T cp in
  let once := DF (intr mo) T * sabr_mc_price (cev_price ncx2_cdf ncx2_sf) (mkOpt (sigma mo) 0 0 true) p false paths K F T cp in
  (divr mo < intr mo -> once < price) /\ (intr mo < divr mo -> price < once).
Proof. exact mc_rates. Qed.
Print Assumptions C36_mc_rates_refuted.
(** Put-call parity for 0 < beta < 1 (Cev base model), any rates. *)
Theorem C36_mc_parity_cev : forall Gam ncx2_cdf ncx2_sf ncx2_pdf, gamma_function Gam -> ncx2_routines Gam ncx2_cdf ncx2_sf ncx2_pdf ->
  forall mo p paths K S T, let F := FWD (intr mo) (divr mo) (is_fwd mo) S T in let mean := lmean (map fst (paths F)) in
  0 < F -> 0 < K -> paths F <> [] -> isclose (b_beta p) 1 = false -> isclose (b_beta p) 0 = false -> 0 < b_beta p < 1 -> 0 < mean ->
  (forall x, In x (paths F) -> / 10 ^ 16 < fst x / mean) ->
  sabr_mc_price (cev_price ncx2_cdf ncx2_sf) mo p true paths K S T 1 - sabr_mc_price (cev_price ncx2_cdf ncx2_sf) mo p true paths K S T (-1) = DF (intr mo) T * (F - K).
Proof. exact mc_parity_cev. Qed.
Print Assumptions C36_mc_parity_cev.
Example C36_rates_ex : exists Gam cdf sf pdf, gamma_function Gam /\ ncx2_routines Gam cdf sf pdf /\
  let mo := mkOpt 0 (/ 20) 0 true in let p := mkSabr (/ 5) (/ 2) (- / 2) (/ 2) in
  DF (/ 20) 1 * sabr_mc_price (cev_price cdf sf) (mkOpt 0 0 0 true) p false (fun _ => [(2, 1); (/ 2, 3)]) 1 1 1 1
  < sabr_mc_price (cev_price cdf sf) mo p false (fun _ => [(2, 1); (/ 2, 3)]) 1 1 1 1.
Proof.
  destruct gamma_exists as [Gam HG]. destruct (ncx2_exists Gam HG) as (cdf & sf & pdf & HR). exists Gam, cdf, sf, pdf. split; [exact HG|]. split; [exact HR|].
  assert (B1 : isclose (/ 2) 1 = false) by (unfold isclose; destruct (Rle_dec _ _) as [L|]; [exfalso|reflexivity]; replace (/ 2 - 1) with (- / 2) in L by field; rewrite Rabs_Ropp, Rabs_right, Rabs_R1 in L by lra; simpl in L; lra).
  assert (B0 : isclose (/ 2) 0 = false) by (unfold isclose; destruct (Rle_dec _ _) as [L|]; [exfalso|reflexivity]; rewrite Rminus_0_r, Rabs_right, Rabs_R0 in L by lra; simpl in L; lra).
  cbv zeta. apply (C36_mc_rates_refuted Gam cdf sf pdf HG HR (mkOpt 0 (/ 20) 0 true) (mkSabr (/ 5) (/ 2) (- / 2) (/ 2)) (fun _ => [(2, 1); (/ 2, 3)]) 1 1 1 1); cbn [b_beta intr divr is_fwd FWD]; try assumption; try lra; try discriminate.
  - now left.
  - intros x [<-|[<-|[]]]; cbn [fst]; lra.
Qed.
(** Put-call parity for beta = 1, for any set of simulated paths when the forward correction is on and no path is dropped. *)
Theorem C36_mc_parity : forall cevp mo p paths K S T,
  let F := FWD (intr mo) (divr mo) (is_fwd mo) S T in let mean := lmean (map fst (paths F)) in
  0 < F -> paths F <> [] -> b_beta p = 1 -> 0 < mean -> (forall x, In x (paths F) -> / 10 ^ 16 < fst x / mean) ->
  sabr_mc_price cevp mo p true paths K S T 1 - sabr_mc_price cevp mo p true paths K S T (-1) = DF (intr mo) T * (F - K).
Proof.
  intros cevp mo p paths K S T F mean HF Hne Hb Hm Hthr. pose proof (mc_parity cevp mo p true paths K S T) as P. cbv zeta in P. fold F mean in P.
  replace (F - K) with (F * (mean / mean) - K) by (field; lra). apply P; try assumption; try lra.
  - intros x Hx. rewrite Hb. destruct (Rlt_dec 0 1); [|lra]. apply Hthr, Hx.
  - intros x _. rewrite Hb. apply base_parity_bsm.
Qed.
Print Assumptions C36_mc_parity.
(** ... and for beta = 0, for path volatilities above the floor. *)
Theorem C36_mc_parity_normal : forall cevp mo p paths K S T,
  let F := FWD (intr mo) (divr mo) (is_fwd mo) S T in let mean := lmean (map fst (paths F)) in
  0 < F -> paths F <> [] -> b_beta p = 0 -> 0 < mean ->
  (forall x, In x (paths F) -> -999 < fst x / mean /\ eps <= b_sigma p / F * snd x * sqrt T) ->
  sabr_mc_price cevp mo p true paths K S T 1 - sabr_mc_price cevp mo p true paths K S T (-1) = DF (intr mo) T * (F - K).
Proof.
  intros cevp mo p paths K S T F mean HF Hne Hb Hm Hthr. pose proof (mc_parity cevp mo p true paths K S T) as P. cbv zeta in P. fold F mean in P.
  replace (F - K) with (F * (mean / mean) - K) by (field; lra). apply P; try assumption; try lra.
  - intros x Hx. rewrite Hb. destruct (Rlt_dec 0 0); [lra|]. apply Hthr, Hx.
  - intros x Hx. rewrite Hb. apply base_parity_norm. cbn [set_sigma sigma]. unfold sabr_alpha. rewrite Hb, Rminus_0_r, npow_s_pos, Rpower_1 by exact HF.
    apply Hthr, Hx.
Qed.
Print Assumptions C36_mc_parity_normal.
(** Mixtures (quadrature nodes with weights summing to 1), beta = 1. *)
Theorem C36_mix_parity : forall cevp mo p nodes K S T c q,
  let F := FWD (intr mo) (divr mo) (is_fwd mo) S T in let mean := lsum (map (fun x => fst (fst x) * snd x) (nodes F)) in
  0 < F -> b_beta p = 1 -> mean <> 0 -> lsum (map snd (nodes F)) = 1 ->
  sabr_mix_price cevp mo p true nodes K S T 1 = Some c -> sabr_mix_price cevp mo p true nodes K S T (-1) = Some q ->
  c - q = DF (intr mo) T * (F - K).
Proof.
  intros cevp mo p nodes K S T c q F mean HF Hb Hm Hw E1 E2. pose proof (mix_parity cevp mo p true nodes K S T c q) as P. cbv zeta in P. fold F mean in P.
  replace (F - K) with (F * (mean / mean) - K * 1) by (field; lra). rewrite <- Hw. apply P; try assumption; try lra.
  intros x _. rewrite Hb. apply base_parity_bsm.
Qed.
Print Assumptions C36_mix_parity.
(** The volatility draw is a martingale with the right second moment, and steps compose. *)
Theorem C36_vol_step : forall p dt, 0 <= dt ->
  gauss_expect (sabr_vol_step p dt) 1 /\ gauss_expect (fun z => sabr_vol_step p dt z ^ 2) (exp (b_vov p ^ 2 * dt)).
Proof. intros p dt H. split; [exact (vol_step_martingale p dt H)|exact (vol_step_second p dt H)]. Qed.
Print Assumptions C36_vol_step.
Theorem C36_vol_steps_compose : forall p t1 t2 z1 z2, 0 < t1 -> 0 < t2 ->
  sabr_vol_step p t1 z1 * sabr_vol_step p t2 z2 = sabr_vol_step p (t1 + t2) ((sqrt t1 * z1 + sqrt t2 * z2) / sqrt (t1 + t2)).
Proof. exact vol_step_semigroup. Qed.
Print Assumptions C36_vol_steps_compose.
(** Chen et al. (2012): the lognormal draw of the average variance has the conditional mean and variance of C35. *)
Theorem C36_chen_step_moments : forall p dt s0 z m1 vs sk ku, 0 <= vs ->
  cond_avgvar_mvsk (b_vov p * sqrt dt) (z - b_vov p * sqrt dt / 2) = (m1, vs, sk, ku) ->
  gauss_expect (fun z2 => snd (sabr_step_chen p dt s0 z z2)) (s0 ^ 2 * m1) /\
  gauss_expect (fun z2 => snd (sabr_step_chen p dt s0 z z2) ^ 2) ((s0 ^ 2 * m1) ^ 2 * (1 + vs)).
Proof. exact chen_moments. Qed.
Print Assumptions C36_chen_step_moments.
(** The conditional forward ratio starts at 1 and has no drift. *)
Theorem C36_conditional_forward_martingale : forall p T fwd, 0 < T -> b_vov p <> 0 ->
  fst (sabr_cond_spot_sigma p T fwd 1 0) = 1 /\ drift_free (b_vov p) (fun s j => fst (sabr_cond_spot_sigma p T fwd s j)).
Proof. intros p T fwd HT Hv. split; [exact (cond_spot_start p T fwd HT)|exact (cond_spot_driftfree p T fwd HT Hv)]. Qed.
Print Assumptions C36_conditional_forward_martingale.
(** Averaging the simulated one-step return over its normal gives the conditional forward (times the carry). *)
Theorem C36_log_return_mean : forall mo p dt s0 st av, 0 <= dt -> 0 <= av -> -1 <= b_rho p <= 1 ->
  gauss_expect (fun zn => exp (sabr_log_return mo p dt s0 st av zn))
    (exp ((intr mo - divr mo) * dt) * exp (b_rho p / b_vov p * (st - s0) - / 2 * b_rho p ^ 2 * (av * dt))).
Proof. exact log_return_mean. Qed.
Print Assumptions C36_log_return_mean.
(** One path with ratios 1 (no vol-of-vol): the Bachelier price for a positive forward ... *)
Theorem C36_normal_limit : forall cevp mo p K S T cp, let F := FWD (intr mo) (divr mo) (is_fwd mo) S T in 0 < F -> b_beta p = 0 -> 0 < T ->
  eps <= b_sigma p * sqrt T -> eps <= b_sigma p / F * sqrt T ->
  sabr_mc_price cevp mo p false (fun _ => [(1, 1)]) K S T cp = norm_price (set_sigma mo (b_sigma p)) K S T cp.
Proof. exact mc_one_norm. Qed.
Print Assumptions C36_normal_limit.
(** ... but not for a negative one, although beta = 0 allows it. *)
Theorem C36_negative_forward_refuted : exists mo p K S T, b_beta p = 0 /\ 0 < b_sigma p /\ 0 < T /\ forall cevp,
  10 ^ 14 < sabr_mc_price cevp mo p false (fun _ => [(1, 1)]) K S T 1 /\ norm_price (set_sigma mo (b_sigma p)) K S T 1 < 1.
Proof. exact mc_negative_refuted. Qed.
Print Assumptions C36_negative_forward_refuted.
Example C36_ex cevp : let mo := mkOpt 0 (/ 20) 0 true in let p := mkSabr (/ 5) (/ 2) (- / 2) 1 in
  sabr_mc_price cevp mo p true (fun _ => [(2, 1); (/ 2, 3)]) 1 1 1 1 - sabr_mc_price cevp mo p true (fun _ => [(2, 1); (/ 2, 3)]) 1 1 1 (-1)
  = exp (- (/ 20 * 1)) * (1 - 1).
Proof.
  apply (C36_mc_parity cevp (mkOpt 0 (/ 20) 0 true) (mkSabr (/ 5) (/ 2) (- / 2) 1) (fun _ => [(2, 1); (/ 2, 3)]) 1 1 1); unfold lmean; cbn [map fst snd lsum fold_right length INR intr divr is_fwd FWD]; try lra; try discriminate; try reflexivity.
  intros x [<-|[<-|[]]]; cbn [fst]; simpl; lra.
Qed.

(** *** C38: volatility approximations *)
(** The function H: z/H(z) is the geodesic distance int_0^z du/sqrt(1+2 rho u+u^2): exactly for |z| >= 1e-3, else to 8|z|^5. *)
Theorem C38_h_function : forall rho z x, -1 < rho < 1 -> is_RInt (fun u => / sqrt (1 + u * (u + 2 * rho))) 0 z x ->
  Rabs (hh z rho * x - z) <= (if Rlt_dec (Rabs z) (/ 10 ^ 3) then 8 * Rabs z ^ 5 else 0).
Proof.
  intros rho z x Hr Hx. pose proof (xx_integral rho Hr z) as H.
  apply (is_RInt_unique (V := R_CompleteNormedModule)) in Hx. apply (is_RInt_unique (V := R_CompleteNormedModule)) in H. unfold vv in H.
  assert (x = xx rho z) as -> by congruence. destruct (Rlt_dec _ _) as [L|L]; [apply (hh_near _ Hr), L|].
  rewrite (hh_exact _ Hr) by lra. replace (z - z) with 0 by ring. rewrite Rabs_R0. lra.
Qed.
Print Assumptions C38_h_function.
(** Hagan's formula holds with sigma replaced by sigma (F/S)^(1-beta), because alpha is computed from the spot ... *)
Theorem C38_hagan_formula : forall mo p K S T x,
  let F := FWD (intr mo) (divr mo) (is_fwd mo) S T in let sg := b_sigma p * Rpower (F / S) (1 - b_beta p) in
  let z := hagan_z sg (b_beta p) (b_vov p) F K in
  0 < S -> 0 < K -> 0 < T -> 0 < b_sigma p -> eps <= b_sigma p / Rpower S (1 - b_beta p) -> -1 < b_rho p < 1 ->
  hagan_x (b_rho p) z x ->
  Rabs (hagan_vol mo p 1 K S T * x - hagan_lognormal sg (b_beta p) (b_rho p) (b_vov p) F K T z)
  <= Rabs (hagan_lognormal sg (b_beta p) (b_rho p) (b_vov p) F K T 1) * (if Rlt_dec (Rabs z) (/ 10 ^ 3) then 8 * Rabs z ^ 5 else 0).
Proof. exact hagan_formula. Qed.
Print Assumptions C38_hagan_formula.
Theorem C38_hagan_atm : forall mo p S T,
  let F := FWD (intr mo) (divr mo) (is_fwd mo) S T in let sg := b_sigma p * Rpower (F / S) (1 - b_beta p) in
  0 < S -> 0 < T -> 0 < b_sigma p -> eps <= b_sigma p / Rpower S (1 - b_beta p) ->
  hagan_vol mo p 1 F S T = hagan_lognormal sg (b_beta p) (b_rho p) (b_vov p) F F T 1.
Proof. exact hagan_atm. Qed.
Print Assumptions C38_hagan_atm.
(** ... so the volatility is not a function of the forward. *)
Theorem C38_hagan_forward_refuted : exists mo p K S T, 0 < S /\ 0 < K /\ 0 < T /\ 0 < b_sigma p /\
  let F := FWD (intr mo) (divr mo) (is_fwd mo) S T in
  hagan_vol mo p 1 K S T <> hagan_vol (mkOpt (sigma mo) 0 0 true) p 1 K F T.
Proof. exact hagan_spot_refuted. Qed.
Print Assumptions C38_hagan_forward_refuted.
Theorem C38_hagan_parity : forall mo p order K S T, hagan_price mo p order K S T 1 - hagan_price mo p order K S T (-1)
  = DF (intr mo) T * (FWD (intr mo) (divr mo) (is_fwd mo) S T - K).
Proof. exact hagan_parity. Qed.
Print Assumptions C38_hagan_parity.
Theorem C38_hagan_lognormal_limit : forall mo p order K S T cp, 0 < S -> 0 < K -> 0 < T -> eps <= b_sigma p -> b_vov p = 0 -> b_beta p = 1 ->
  hagan_price mo p order K S T cp = bsm_price (set_sigma mo (b_sigma p)) K S T cp.
Proof. exact hagan_lognormal_limit. Qed.
Print Assumptions C38_hagan_lognormal_limit.
(** Normal SABR depends on spot and rates through the forward only. *)
Theorem C38_normal_formula : forall mo p (atm : bool) K S T x,
  let F := FWD (intr mo) (divr mo) (is_fwd mo) S T in let z := b_vov p / b_sigma p * (K - F) in
  -1 < b_rho p < 1 -> is_RInt (fun u => / sqrt (1 + 2 * b_rho p * u + u ^ 2)) 0 z x ->
  let A := b_sigma p * (if atm then 1 else 1 + (2 - 3 * b_rho p ^ 2) / 24 * b_vov p ^ 2 * T) in
  Rabs (norm_sabr_vol mo p 1 atm K S T * x - A * z) <= Rabs A * (if Rlt_dec (Rabs z) (/ 10 ^ 3) then 8 * Rabs z ^ 5 else 0).
Proof. exact norm_sabr_formula. Qed.
Print Assumptions C38_normal_formula.
Theorem C38_normal_atm : forall mo p (atm : bool) S T,
  norm_sabr_vol mo p 1 atm (FWD (intr mo) (divr mo) (is_fwd mo) S T) S T
  = b_sigma p * (if atm then 1 else 1 + (2 - 3 * b_rho p ^ 2) / 24 * b_vov p ^ 2 * T).
Proof. exact norm_sabr_atm. Qed.
Print Assumptions C38_normal_atm.
Theorem C38_normal_parity : forall mo p order atm K S T, eps <= norm_sabr_vol mo p order atm K S T * sqrt T ->
  norm_sabr_price mo p order atm K S T 1 - norm_sabr_price mo p order atm K S T (-1)
  = DF (intr mo) T * (FWD (intr mo) (divr mo) (is_fwd mo) S T - K).
Proof. exact norm_sabr_parity. Qed.
Print Assumptions C38_normal_parity.
Theorem C38_normal_limit : forall mo p order atm K S T cp, b_vov p = 0 ->
  norm_sabr_price mo p order atm K S T cp = norm_price (set_sigma mo (b_sigma p)) K S T cp.
Proof. exact norm_sabr_limit. Qed.
Print Assumptions C38_normal_limit.
(** SabrChoiWu2021H coincides with Hagan for beta = 1 and with the normal formula for beta = 0. *)
Theorem C38_choiwu_lognormal : forall mo p order K S T, 0 < S -> 0 < K -> 0 < T -> b_beta p = 1 ->
  choiwu_h_vol mo p order K S T = hagan_vol mo p order K S T.
Proof. exact choiwu_is_hagan. Qed.
Print Assumptions C38_choiwu_lognormal.
Theorem C38_choiwu_normal : forall mo p order K S T, 0 < S -> 0 < K -> b_beta p = 0 -> 0 < b_sigma p ->
  eps <= b_sigma p / FWD (intr mo) (divr mo) (is_fwd mo) S T ->
  choiwu_h_vol mo p order K S T = norm_sabr_vol mo p order false K S T.
Proof. exact choiwu_is_normal. Qed.
Print Assumptions C38_choiwu_normal.
(** SabrNormAnalytic: exact parity. *)
Theorem C38_norm_analytic_parity : forall mo p K S T,
  norm_analytic_price mo p K S T 1 - norm_analytic_price mo p K S T (-1) = DF (intr mo) T * (FWD (intr mo) (divr mo) (is_fwd mo) S T - K).
Proof.
  intros. unfold norm_analytic_price. rewrite fdd_eq. change (mF mo S T) with (FWD (intr mo) (divr mo) (is_fwd mo) S T). change (mD mo T) with (DF (intr mo) T).
  set (x := FWD _ _ _ _ _ - K). replace (1 * x) with x by ring. replace (-1 * x) with (- x) by ring.
  unfold Rmax. destruct (Rle_dec x 0), (Rle_dec (- x) 0); try lra; replace x with 0 by lra; lra.
Qed.
Print Assumptions C38_norm_analytic_parity.
Example C38_ex : hagan_vol (mkOpt 0 0 0 true) (mkSabr 1 (/ 2) 0 1) 1 1 1 1 = 49 / 48.
Proof.
  pose proof (C38_hagan_atm (mkOpt 0 0 0 true) (mkSabr 1 (/ 2) 0 1) 1 1) as E. cbn [intr divr is_fwd FWD b_sigma b_beta b_rho b_vov] in E. rewrite E; try lra.
  - unfold hagan_lognormal. replace (1 - 1) with 0 by ring. replace (0 / 2) with 0 by field. rewrite !Rpower_O by lra. replace (1 / 1) with 1 by field. rewrite ln_1. field.
  - replace (1 - 1) with 0 by ring. rewrite Rpower_O by lra. pose proof P_OptRefute.eps_small. lra.
Qed.
