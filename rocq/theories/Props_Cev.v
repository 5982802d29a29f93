(** Property theorems C49: the CEV model (cev.py).  The scipy routines enter through their definition: [ncx2_routines] says that they are the
    distribution function, survival function and density of the non-central chi-square law for positive degrees of freedom, built on
    Euler's gamma function. *)
From Coq Require Import Reals Lra ZArith.
From Coquelicot Require Import Coquelicot.
From Verif Require Import Base Spec_Opt Spec_Cev M_Opt M_Cev P_Bsm P_Gamma2 P_Ncx3 P_Cev2 P_Cev3 P_Cev6 P_Cev7 P_OptRefute.
Open Scope R_scope.

(** Such routines exist (so the hypotheses below are met). *)
Theorem C49_routines_exist : exists Gam cdf sf pdf gcdf gsf, gamma_function Gam /\ ncx2_routines Gam cdf sf pdf /\ gamma_routines Gam gcdf gsf.
Proof.
  destruct gamma_exists as [Gam HG]. destruct (ncx2_exists Gam HG) as (cdf & sf & pdf & HR).
  exists Gam, cdf, sf, pdf, (fun x a => Hn Gam a 0 x), (fun x a => 1 - Hn Gam a 0 x). split; [exact HG|]. split; [exact HR|].
  intros a Ha. split; [now apply Hn_0|]. reflexivity.
Qed.
Print Assumptions C49_routines_exist.

(** Put-call parity, and the no-arbitrage bounds, for every beta <> 1 and every volatility (floored or not). *)
Theorem C49_parity : forall Gam cdf sf pdf, gamma_function Gam -> ncx2_routines Gam cdf sf pdf -> forall beta m K S T,
  beta <> 1 -> 0 < K -> 0 < S ->
  cev_price cdf sf beta m K S T 1 - cev_price cdf sf beta m K S T (-1) = DF (intr m) T * (FWD (intr m) (divr m) (is_fwd m) S T - K).
Proof. exact cev_parity. Qed.
Print Assumptions C49_parity.
Theorem C49_bounds : forall Gam cdf sf pdf, gamma_function Gam -> ncx2_routines Gam cdf sf pdf -> forall beta m K S T,
  beta <> 1 -> 0 < K -> 0 < S -> let F := FWD (intr m) (divr m) (is_fwd m) S T in let D := DF (intr m) T in
  payoff 1 K F * D <= cev_price cdf sf beta m K S T 1 <= F * D /\ payoff (-1) K F * D <= cev_price cdf sf beta m K S T (-1) <= K * D.
Proof. exact price_bounds. Qed.
Print Assumptions C49_bounds.
(** The price rises with the volatility, strictly above the variance floor. *)
Theorem C49_sigma_monotone : forall Gam cdf sf pdf, gamma_function Gam -> ncx2_routines Gam cdf sf pdf -> forall beta m K S T cp s1 s2,
  call_or_put cp -> beta <> 1 -> 0 < K -> 0 < S -> 0 <= T -> 0 <= s1 <= s2 ->
  cev_price cdf sf beta (set_sigma m s1) K S T cp <= cev_price cdf sf beta (set_sigma m s2) K S T cp /\
  (s1 < s2 -> eps < (s2 / Rpower (FWD (intr m) (divr m) (is_fwd m) S T) (1 - beta)) ^ 2 * T ->
   cev_price cdf sf beta (set_sigma m s1) K S T cp < cev_price cdf sf beta (set_sigma m s2) K S T cp).
Proof. exact sigma_mono. Qed.
Print Assumptions C49_sigma_monotone.

(** The reported Greeks are the derivatives of the price (above the variance floor). *)
Theorem C49_delta : forall Gam cdf sf pdf, gamma_function Gam -> ncx2_routines Gam cdf sf pdf -> forall beta cp, beta <> 1 -> call_or_put cp -> forall m K S T,
  0 < K -> 0 < S -> eps < (sigma m / Rpower (FWD (intr m) (divr m) (is_fwd m) S T) (1 - beta)) ^ 2 * T ->
  is_derive (fun S => cev_price cdf sf beta m K S T cp) S (cev_delta sf beta m K S T cp).
Proof. exact delta_thm. Qed.
Print Assumptions C49_delta.
Theorem C49_gamma : forall Gam cdf sf pdf, gamma_function Gam -> ncx2_routines Gam cdf sf pdf -> forall beta cp, beta <> 1 -> forall m K S T,
  0 < K -> 0 < S -> eps < (sigma m / Rpower (FWD (intr m) (divr m) (is_fwd m) S T) (1 - beta)) ^ 2 * T ->
  is_derive (fun S => cev_delta sf beta m K S T cp) S (cev_gamma pdf beta m K S T cp).
Proof. exact gamma_thm. Qed.
Print Assumptions C49_gamma.
Theorem C49_vega : forall Gam cdf sf pdf, gamma_function Gam -> ncx2_routines Gam cdf sf pdf -> forall beta cp, beta <> 1 -> call_or_put cp -> forall m K S T,
  0 < K -> 0 < S -> eps < (sigma m / Rpower (FWD (intr m) (divr m) (is_fwd m) S T) (1 - beta)) ^ 2 * T -> 0 < sigma m ->
  is_derive (fun sg => cev_price cdf sf beta (set_sigma m sg) K S T cp) (sigma m) (cev_vega pdf beta m K S T cp).
Proof. exact vega_thm. Qed.
Print Assumptions C49_vega.
(** theta is minus the derivative in the time to expiry *)
Theorem C49_theta : forall Gam cdf sf pdf, gamma_function Gam -> ncx2_routines Gam cdf sf pdf -> forall beta cp, beta <> 1 -> call_or_put cp -> forall m K S T,
  0 < K -> 0 < S -> eps < (sigma m / Rpower (FWD (intr m) (divr m) (is_fwd m) S T) (1 - beta)) ^ 2 * T -> 0 < sigma m -> 0 < T ->
  is_derive (fun T => cev_price cdf sf beta m K S T cp) T (- cev_theta cdf sf pdf beta m K S T cp).
Proof. exact theta_thm. Qed.
Print Assumptions C49_theta.
(** The price solves the CEV pricing equation. *)
Theorem C49_pde : forall Gam cdf sf pdf, gamma_function Gam -> ncx2_routines Gam cdf sf pdf -> forall beta cp, beta <> 1 -> call_or_put cp -> forall m K S T,
  0 < K -> 0 < S -> eps < (sigma m / Rpower (FWD (intr m) (divr m) (is_fwd m) S T) (1 - beta)) ^ 2 * T -> is_fwd m = false -> 0 < sigma m -> 0 < T ->
  cev_pde (sigma m) beta (intr m) (divr m) (fun S T => cev_price cdf sf beta m K S T cp) S T.
Proof. exact pde_thm. Qed.
Print Assumptions C49_pde.

(** beta < 1: prices are discounted expected payoffs under the law whose survival function is cdf(cp=1), which has mean the forward and
    mass mass_zero at zero; cdf(cp=-1) is its distribution function. *)
Theorem C49_law : forall Gam cdf sf pdf, gamma_function Gam -> ncx2_routines Gam cdf sf pdf -> forall gcdf gsf beta m S T, gamma_routines Gam gcdf gsf ->
  beta < 1 -> 0 < S -> eps < (sigma m / Rpower (FWD (intr m) (divr m) (is_fwd m) S T) (1 - beta)) ^ 2 * T ->
  let G := fun k => cev_cdf cdf sf beta m k S T 1 in
  0 < cev_mass_zero gsf beta m S T < 1 /\ survival (cev_mass_zero gsf beta m S T) G /\ mean_is G (FWD (intr m) (divr m) (is_fwd m) S T) /\
  forall K, 0 < K -> cev_cdf cdf sf beta m K S T (-1) = 1 - G K /\
    (exists c, call_is G K c /\ cev_price cdf sf beta m K S T 1 = DF (intr m) T * c) /\
    (exists p, put_is G K p /\ cev_price cdf sf beta m K S T (-1) = DF (intr m) T * p).
Proof. exact law_thm. Qed.
Print Assumptions C49_law.
(** beta > 1: puts are discounted expected payoffs under the law G = -(1/D) dC/dK, whose mean is below the forward; every call carries
    the missing forward mass on top of its expected payoff. *)
Theorem C49_beta_gt1 : forall Gam cdf sf pdf, gamma_function Gam -> ncx2_routines Gam cdf sf pdf -> forall beta m S T,
  1 < beta -> 0 < S -> eps < (sigma m / Rpower (FWD (intr m) (divr m) (is_fwd m) S T) (1 - beta)) ^ 2 * T ->
  exists G mu, (forall K, 0 < K -> is_derive (fun K => cev_price cdf sf beta m K S T 1) K (- DF (intr m) T * G K)) /\
  survival 0 G /\ mean_is G mu /\ 0 < mu < FWD (intr m) (divr m) (is_fwd m) S T /\
  forall K, 0 < K -> (exists p, put_is G K p /\ cev_price cdf sf beta m K S T (-1) = DF (intr m) T * p) /\
     (exists c, call_is G K c /\ cev_price cdf sf beta m K S T 1 = DF (intr m) T * (c + (FWD (intr m) (divr m) (is_fwd m) S T - mu))).
Proof. exact gt_thm. Qed.
Print Assumptions C49_beta_gt1.
(** Refuted: for beta > 1 the reported cdf asks the chi-square routine for a negative number of degrees of freedom; routines that are correct
    wherever the law exists may make it any value. *)
Theorem C49_cdf_refuted : forall Gam cdf sf pdf, ncx2_routines Gam cdf sf pdf -> forall beta m K S T v, 1 < beta ->
  exists cdf' sf' pdf', ncx2_routines Gam cdf' sf' pdf' /\ cev_cdf cdf' sf' beta m K S T 1 = v.
Proof. exact cdf_gt_refuted. Qed.
Print Assumptions C49_cdf_refuted.

(** price_std: type 0 reproduces the price (equal rates), sign -1 is the complement, type -1 is its volatility derivative, type 1 the ratio. *)
Theorem C49_price_std : forall Gam cdf sf pdf, gamma_function Gam -> ncx2_routines Gam cdf sf pdf -> forall beta m K S T,
  beta <> 1 -> 0 < K -> 0 < S -> 0 < sigma m -> 0 < T -> intr m = divr m -> let F := FWD (intr m) (divr m) (is_fwd m) S T in
  eps < (sigma m / Rpower F (1 - beta)) ^ 2 * T ->
  cev_price cdf sf beta m K S T 1 = DF (intr m) T * (F * cev_price_std cdf sf pdf (sigma m / Rpower F (1 - beta) * sqrt T) (K / F) beta 1 0).
Proof. exact std_price. Qed.
Print Assumptions C49_price_std.
Theorem C49_price_std_types : forall Gam cdf sf pdf, gamma_function Gam -> ncx2_routines Gam cdf sf pdf -> forall beta sig k sign,
  beta <> 1 -> 0 < sig -> 0 < k ->
  cev_price_std cdf sf pdf sig k beta (-1) 0 = 1 - cev_price_std cdf sf pdf sig k beta 1 0 /\
  is_derive (fun sg => cev_price_std cdf sf pdf sg k beta 1 0) sig (cev_price_std cdf sf pdf sig k beta sign (-1)) /\
  0 < cev_price_std cdf sf pdf sig k beta sign (-1) /\
  cev_price_std cdf sf pdf sig k beta sign 1 = cev_price_std cdf sf pdf sig k beta sign 0 / cev_price_std cdf sf pdf sig k beta sign (-1).
Proof.
  intros Gam cdf sf pdf HG HR beta sig k sign Hb Hs Hk. destruct (std_eq Gam cdf sf pdf HG HR beta sig k Hb Hs Hk) as (A & B & _ & D).
  destruct (std_vega Gam cdf sf pdf HG HR beta sig k sign Hb Hs Hk) as [E F]. split; [rewrite A; exact B|]. split; [exact E|]. split; [exact F|apply D].
Qed.
Print Assumptions C49_price_std_types.

(** mass_zero_t0 is the limit of -T log(mass at zero). *)
Theorem C49_mass_zero_t0 : forall Gam gcdf gsf beta m S, gamma_function Gam -> gamma_routines Gam gcdf gsf -> beta < 1 -> sigma m <> 0 -> 0 < S ->
  filterlim (fun T => - T * ln (cev_mass_zero gsf beta m S T)) (at_right 0) (locally (cev_mass_zero_t0 beta m S 0)).
Proof. exact mass_t0_thm. Qed.
Print Assumptions C49_mass_zero_t0.
(** mass_zero(log=True) is the logarithm of the mass up to 1e-7 relative, for beta <= 11/12 ... *)
Theorem C49_log_mass : forall Gam gcdf gsf loggamma beta m S T, gamma_function Gam -> gamma_routines Gam gcdf gsf -> (forall a, 0 < a -> loggamma a = ln (Gam a)) ->
  beta <= 11 / 12 -> sigma m <> 0 -> 0 < S -> 0 < T ->
  Rabs (exp (cev_log_mass_zero gsf loggamma beta m S T) - cev_mass_zero gsf beta m S T) <= / 10 ^ 7 * cev_mass_zero gsf beta m S T.
Proof. exact log_mass_thm. Qed.
Print Assumptions C49_log_mass.
(** ... and refuted for beta near 1: the expansion is used outside its range and can be an arbitrarily small fraction of the mass. *)
Theorem C49_log_mass_refuted : forall Gam gcdf gsf loggamma c, gamma_function Gam -> gamma_routines Gam gcdf gsf -> (forall a, 0 < a -> loggamma a = ln (Gam a)) -> 0 < c ->
  exists beta sg, 0 < beta < 1 /\ 0 < sg /\ let m := mkOpt sg 0 0 false in
  exp (cev_log_mass_zero gsf loggamma beta m 1 1) < c * cev_mass_zero gsf beta m 1 1.
Proof. exact log_mass_bad. Qed.
Print Assumptions C49_log_mass_refuted.

Example C49_ex : exists Gam cdf sf pdf, gamma_function Gam /\ ncx2_routines Gam cdf sf pdf /\ let m := mkOpt 2 (/ 20) (/ 10) false in
  cev_pde 2 (/ 2) (/ 20) (/ 10) (fun S T => cev_price cdf sf (/ 2) m 90 S T 1) 1 1.
Proof.
  destruct C49_routines_exist as (Gam & cdf & sf & pdf & _ & _ & HG & HR & _). exists Gam, cdf, sf, pdf. split; [exact HG|]. split; [exact HR|].
  set (m := mkOpt 2 (/ 20) (/ 10) false). apply (C49_pde Gam cdf sf pdf HG HR (/ 2) 1 ltac:(lra) (or_introl eq_refl) m 90 1 1); try reflexivity; unfold m; cbn [sigma intr divr is_fwd]; try lra.
  unfold FWD. replace (1 * exp ((/ 20 - / 10) * 1)) with (exp (/ 20 - / 10)) by (rewrite Rmult_1_r; ring). assert (0 < Rpower (exp (/ 20 - / 10)) (1 - / 2) <= 1).
  { unfold Rpower. split; [apply exp_pos|]. rewrite ln_exp. apply Rle_trans with (exp 0); [apply exp_le; lra|rewrite exp_0; lra]. }
  set (p := Rpower _ _) in *. clearbody p. assert (1 <= / p) by (rewrite <- Rinv_1; apply Rinv_le_contravar; lra). pose proof P_OptRefute.eps_small. unfold Rdiv. assert (2 <= 2 * / p) by lra. set (w := 2 * / p) in *. clearbody w. nra.
Qed.
