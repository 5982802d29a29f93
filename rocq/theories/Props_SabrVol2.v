(** C90: SabrLorig2017; C91: masses at zero of SABR mixtures and simulations. *)
From Coq Require Import Reals Lra Lia List.
From Coquelicot Require Import Coquelicot.
From Verif Require Import Base P_SabrTight Sums M_Opt M_Fd M_Sabr M_Cev M_SabrVol Spec_Opt Spec_Cev Spec_Sabr P_OptRefute P_Gamma2 P_Ncx3 P_Bsm P_SabrVol5 P_SabrVol6 P_SabrMass Spec_SabrVol.
Import ListNotations.
Open Scope R_scope.
(** ** C90 *)
(** Expiry zero: the third-order expansion agrees with the exact leading-order volatility (C89, lognormal base) to third order in ln(K/F). *)
Theorem C90_short : forall mo p order S, 0 < S -> 0 < b_sigma p -> let F := FWD (intr mo) (divr mo) (is_fwd mo) S 0 in eps <= b_sigma p / Rpower F (1 - b_beta p) ->
  is_lim (fun K => (lorig_vol mo p order 1 K S 0 - match h_vol mo p (Some 1) 0 K S 0 with Some v => v | None => 0 end) / ln (K / F) ^ 3) F 0.
Proof. exact lorig_short. Qed.
Print Assumptions C90_short.
(** At the money, approx_order = 1 is Hagan's formula in the forward; and P with a lognormal base. *)
Theorem C90_atm : forall mo p S T, 0 < S -> 0 < b_sigma p -> let F := FWD (intr mo) (divr mo) (is_fwd mo) S T in
  lorig_vol mo p 1 1 F S T = hagan_lognormal (b_sigma p) (b_beta p) (b_rho p) (b_vov p) F F T 1 /\ p_vol mo p (Some 1) 1 F S T = Some (lorig_vol mo p 1 1 F S T).
Proof. intros mo p S T HS Hs F. split; [exact (lorig_hagan mo p S T HS Hs)|exact (lorig_p mo p S T HS Hs)]. Qed.
Print Assumptions C90_atm.
(** The higher orders in time keep the slope of the at-the-money volatility at expiry zero. *)
Theorem C90_time_slope : forall bc rho vov s0 order, (1 <= order)%nat -> 0 < s0 ->
  is_derive (fun T => lorig_vol_at bc rho vov s0 0 T order 1) 0 (s0 * (bc ^ 2 / 24 * s0 ^ 2 + rho * (1 - bc) / 4 * vov * s0 + (2 - 3 * rho ^ 2) / 24 * vov ^ 2)).
Proof. exact lorig_dT. Qed.
Print Assumptions C90_time_slope.
(** vov = 0, beta = 1: the price is the Black-Scholes price; parity and dependence on the forward always hold. *)
Theorem C90_flat : forall cevp mo p order lv K S T cp, b_vov p = 0 -> b_beta p = 1 -> 0 < S -> 0 < K ->
  approx_price cevp 1 mo (lorig_vol mo p order lv K S T) K S T cp = bsm_price (mkOpt (b_sigma p) (intr mo) (divr mo) (is_fwd mo)) K S T cp.
Proof. exact lorig_flat_price. Qed.
Print Assumptions C90_flat.
Theorem C90_parity : forall cevp mo p order lv K S T, let v := lorig_vol mo p order lv K S T in
  approx_price cevp 1 mo v K S T 1 - approx_price cevp 1 mo v K S T (-1) = DF (intr mo) T * (FWD (intr mo) (divr mo) (is_fwd mo) S T - K).
Proof. exact lorig_parity. Qed.
Print Assumptions C90_parity.
Theorem C90_forward : forall mo p order lv K S T, 0 < S -> lorig_vol mo p order lv K S T = lorig_vol (mkOpt (sigma mo) 0 0 true) p order lv K (FWD (intr mo) (divr mo) (is_fwd mo) S T) T.
Proof. exact lorig_fwd. Qed.
Print Assumptions C90_forward.
Definition ex_lo : sabrp := mkSabr (/ 5) 1 (3 / 5) (/ 2).
Example C90_ex : let mo := mkOpt 0 (/ 20) 0 true in is_lim (fun K => (lorig_vol mo ex_lo 3 1 K 1 0 - match h_vol mo ex_lo (Some 1) 0 K 1 0 with Some v => v | None => 0 end) / ln (K / 1) ^ 3) 1 0.
Proof.
  intros mo. pose proof (C90_short mo ex_lo 3 1 ltac:(lra)) as L. unfold FWD in L. cbn [mo is_fwd ex_lo b_sigma b_beta] in L. apply L; [lra|]. unfold Rpower. rewrite ln_1, Rmult_0_r, exp_0. pose proof eps_small. lra.
Qed.
(** at the money the expansion is not flat: sigma 0.2, vov 1, rho 0.6, beta 0.5, F = T = 1 *)
Example C90_ex_atm : lorig_vol (mkOpt 0 0 0 true) ex_lo 1 1 1 1 1 = / 5 * (1 + (/ 2400 + 3 / 200 + 92 / 2400)).
Proof.
  pose proof (lorig_atm1 (mkOpt 0 0 0 true) ex_lo 1 1 ltac:(lra)) as E. unfold FWD in E. cbn [is_fwd ex_lo b_sigma b_beta b_rho b_vov] in E. rewrite E by lra. unfold Rpower. rewrite ln_1, Rmult_0_r, exp_0. field.
Qed.
(** ** C91 *)
(** The log-sum-exp evaluation is exact, and the logarithm is taken of a number between 1 and the number of nodes. *)
Theorem C91_log_sum_exp : forall l, l <> [] -> exp (log_sum_exp l) = lsum (map exp l) /\ 1 <= lsum (map (fun x => exp (x - lmax l)) l) <= INR (length l).
Proof. intros l H. split; [now apply lse_eq|now apply lse_range]. Qed.
Print Assumptions C91_log_sum_exp.
(** Mixture: nodes with positive forward ratio, non-zero volatility ratio, positive weights summing to one. *)
Theorem C91_mixture_range : forall Gam gcdf gsf, gamma_function Gam -> gamma_routines Gam gcdf gsf -> forall mo p c l S T,
  0 < S -> 0 < T -> b_beta p < 1 -> b_sigma p <> 0 -> nodes_ok l -> 0 < mix_mass_zero gsf mo p c l S T < 1.
Proof. exact mix_range. Qed.
Print Assumptions C91_mixture_range.
Theorem C91_mixture_log : forall Gam gcdf gsf, gamma_function Gam -> gamma_routines Gam gcdf gsf -> forall lg, (forall a, 0 < a -> lg a = ln (Gam a)) -> forall mo p c l S T,
  0 < S -> 0 < T -> b_beta p <= 11 / 12 -> b_sigma p <> 0 -> nodes_ok l ->
  Rabs (exp (mix_log_mass_zero gsf lg mo p c l S T) - mix_mass_zero gsf mo p c l S T) <= / 10 ^ 7 * mix_mass_zero gsf mo p c l S T.
Proof. exact mix_log. Qed.
Print Assumptions C91_mixture_log.
(** correct_fwd makes the weighted forward ratios average to one. *)
Theorem C91_correct_fwd : forall l, nodes_ok l -> lsum (map (fun '(f, v, w) => f * w) (mix_rescale true l)) = 1.
Proof. exact rescale_mean. Qed.
Print Assumptions C91_correct_fwd.
(** Simulation: average over the simulated volatility ratios. *)
Theorem C91_mc_range : forall Gam gcdf gsf, gamma_function Gam -> gamma_routines Gam gcdf gsf -> forall mo p vs S T,
  0 < S -> 0 < T -> b_beta p < 1 -> b_sigma p <> 0 -> vs <> [] -> (forall v, In v vs -> v <> 0) -> 0 < mc_mass_zero gsf mo p vs S T < 1.
Proof. exact mc_range. Qed.
Print Assumptions C91_mc_range.
Theorem C91_mc_log : forall Gam gcdf gsf, gamma_function Gam -> gamma_routines Gam gcdf gsf -> forall lg, (forall a, 0 < a -> lg a = ln (Gam a)) -> forall mo p vs S T,
  0 < S -> 0 < T -> b_beta p <= 11 / 12 -> b_sigma p <> 0 -> vs <> [] -> (forall v, In v vs -> v <> 0) ->
  Rabs (exp (mc_log_mass_zero gsf lg mo p vs S T) - mc_mass_zero gsf mo p vs S T) <= / 10 ^ 7 * mc_mass_zero gsf mo p vs S T.
Proof. exact mc_log. Qed.
Print Assumptions C91_mc_log.
(** Both are functions of (forward, sigma, vov, rho, beta) only when the two rates are equal: the base CEV model receives the
    forward (is_fwd = True) but also the rates, and its mass at zero depends on them. *)
Theorem C91_rates_refuted : forall Gam gcdf gsf, gamma_function Gam -> gamma_routines Gam gcdf gsf -> forall mo p v S T,
  is_fwd mo = true -> intr mo <> divr mo -> b_beta p < 1 -> b_sigma p <> 0 -> v <> 0 -> 0 < S -> 0 < T ->
  mc_mass_zero gsf mo p [v] S T <> mc_mass_zero gsf (mkOpt (sigma mo) 0 0 true) p [v] S T /\
  mix_mass_zero gsf mo p false [(1, v, 1)] S T <> mix_mass_zero gsf (mkOpt (sigma mo) 0 0 true) p false [(1, v, 1)] S T.
Proof.
  intros Gam gcdf gsf HG Hg mo p v S T Hf Hr Hb Hs Hv HS HT. assert (Ha : sabr_alpha p S * v <> 0) by (apply Rmult_integral_contrapositive_currified; [now apply alpha_pos|exact Hv]).
  pose proof (mass_rates Gam gcdf gsf HG Hg (b_beta p) (sabr_alpha p S * v) (intr mo) (divr mo) 1 T Hb Ha ltac:(lra) HT Hr) as N.
  assert (F1 : forward mo S T = S) by (unfold forward; rewrite Hf; reflexivity). split; intros E; apply N.
  - unfold mc_mass_zero in E. cbv zeta in E. rewrite F1 in E. change (forward (mkOpt (sigma mo) 0 0 true) S T) with S in E. cbn [map lsum fold_right length INR intr divr] in E. unfold Rdiv in E. rewrite Rinv_1 in E. lra.
  - unfold mix_mass_zero in E. cbv zeta in E. rewrite F1 in E. change (forward (mkOpt (sigma mo) 0 0 true) S T) with S in E. cbn [mix_rescale map lsum fold_right intr divr] in E. lra.
Qed.
Print Assumptions C91_rates_refuted.
Example C91_ex : exists Gam gcdf gsf, gamma_function Gam /\ gamma_routines Gam gcdf gsf /\ let l := [(9 / 10, 1, / 4); (1, / 2, / 2); (11 / 10, 2, / 4)] in
  0 < mix_mass_zero gsf (mkOpt 0 0 0 true) ex_lo true l 1 1 < 1 /\ forall lg, (forall a, 0 < a -> lg a = ln (Gam a)) ->
  Rabs (exp (mix_log_mass_zero gsf lg (mkOpt 0 0 0 true) ex_lo true l 1 1) - mix_mass_zero gsf (mkOpt 0 0 0 true) ex_lo true l 1 1) <= / 10 ^ 7 * mix_mass_zero gsf (mkOpt 0 0 0 true) ex_lo true l 1 1.
Proof.
  destruct gamma_exists as [Gam HG]. exists Gam, (fun x a => Hn Gam a 0 x), (fun x a => 1 - Hn Gam a 0 x). split; [exact HG|].
  assert (R : gamma_routines Gam (fun x a => Hn Gam a 0 x) (fun x a => 1 - Hn Gam a 0 x)). { intros a Ha. split; [now apply Hn_0|]. reflexivity. }
  split; [exact R|]. assert (N : nodes_ok [(9 / 10, 1, / 4); (1, / 2, / 2); (11 / 10, 2, / 4)]).
  { split; [discriminate|]. split; [|cbn; field]. intros f v w [H|[H|[H|[]]]]; injection H as <- <- <-; lra. }
  split; [apply (C91_mixture_range Gam _ _ HG R); cbn [ex_lo b_beta b_sigma]; try lra; exact N|]. intros lg Hlg. apply (C91_mixture_log Gam _ _ HG R lg Hlg); cbn [ex_lo b_beta b_sigma]; try lra; exact N.
Qed.

(** Units and mirror images: the expansion is homogeneous in the time unit, unchanged when rho and vov both change sign, and an uncorrelated
    lognormal smile is symmetric in the log-strike. *)
Theorem C90_time_scaling : forall bc rho vov s0 k T order lv c, c <> 0 -> s0 <> 0 ->
  lorig_vol_at bc rho (c * vov) (c * s0) k (T / c ^ 2) order lv = c * lorig_vol_at bc rho vov s0 k T order lv.
Proof. exact lorig_scale. Qed.
Print Assumptions C90_time_scaling.
Theorem C90_sign_symmetry : forall bc rho vov s0 k T order lv, s0 <> 0 -> lorig_vol_at bc (- rho) (- vov) s0 k T order lv = lorig_vol_at bc rho vov s0 k T order lv.
Proof. exact lorig_sign. Qed.
Print Assumptions C90_sign_symmetry.
Theorem C90_smile_symmetry : forall vov s0 k T order lv, s0 <> 0 -> lorig_vol_at 0 0 vov s0 (- k) T order lv = lorig_vol_at 0 0 vov s0 k T order lv.
Proof. exact lorig_smile_sym. Qed.
Print Assumptions C90_smile_symmetry.
