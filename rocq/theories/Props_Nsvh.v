(** Property theorems C37: hyperbolic-normal SV model (nsvh.py). *)
From Coq Require Import Reals Lra Arith Lia List.
From Coquelicot Require Import Coquelicot.
From Verif Require Import Gauss Sums Spec_Opt Spec_Expect Spec_Sabr M_Opt P_Bsm M_Heston M_Fd M_Sabr P_Nsvh P_Nsvh2 P_Nsvh3.
Import ListNotations.
Open Scope R_scope.

(** Nsvh1.price is the discounted expected payoff of the S_U-distributed terminal price ... *)
Theorem C37_price_is_expectation : forall mo p K S T cp, call_or_put cp -> 0 < b_sigma p -> 0 < b_vov p -> -1 < b_rho p < 1 -> 0 < T ->
  gauss_expect (fun z => DF (intr mo) T * payoff cp K
      (nsvh1_terminal (FWD (intr mo) (divr mo) (is_fwd mo) S T) (b_sigma p) (b_vov p) (b_rho p) (b_vov p * sqrt T) z))
    (nsvh1_price mo p false K S T cp).
Proof. exact nsvh1_expect. Qed.
Print Assumptions C37_price_is_expectation.
(** ... and cdf is the probability of the same terminal price being above (cp = 1) or not above (cp = -1) the strike. *)
Theorem C37_cdf_is_probability : forall mo p K S T, 0 < b_sigma p -> 0 < b_vov p -> -1 < b_rho p < 1 -> 0 < T ->
  exists c, (forall z, K < nsvh1_terminal (FWD (intr mo) (divr mo) (is_fwd mo) S T) (b_sigma p) (b_vov p) (b_rho p) (b_vov p * sqrt T) z <-> c < z) /\
    nsvh1_cdf mo p K S T 1 = 1 - Phi c /\ nsvh1_cdf mo p K S T (-1) = Phi c.
Proof. exact nsvh1_cdf_event. Qed.
Print Assumptions C37_cdf_is_probability.
Theorem C37_parity : forall mo p atm K S T,
  nsvh1_price mo p atm K S T 1 - nsvh1_price mo p atm K S T (-1) = DF (intr mo) T * (FWD (intr mo) (divr mo) (is_fwd mo) S T - K).
Proof. exact nsvh1_parity. Qed.
Print Assumptions C37_parity.
(** is_atmvol: sigma is the at-the-money Bachelier volatility. *)
Theorem C37_atm_vol : forall mo p S T cp, call_or_put cp -> 0 < b_sigma p -> 0 < b_vov p -> -1 < b_rho p < 1 -> 0 < T -> eps <= b_sigma p * sqrt T ->
  let F := FWD (intr mo) (divr mo) (is_fwd mo) S T in
  nsvh1_price mo p true F S T cp = norm_price (set_sigma mo (b_sigma p)) F S T cp.
Proof. exact nsvh1_atm. Qed.
Print Assumptions C37_atm_vol.
(** price_vsk: variance, skewness and excess kurtosis of the terminal price. *)
Theorem C37_vsk_true_moments : forall p T F, 0 < b_sigma p -> 0 < b_vov p -> -1 < b_rho p < 1 -> 0 < T ->
  let X := nsvh1_terminal F (b_sigma p) (b_vov p) (b_rho p) (b_vov p * sqrt T) in
  exists m2 m3 m4,
    gauss_expect (fun z => (X z - F) ^ 1) 0 /\ gauss_expect (fun z => (X z - F) ^ 2) m2 /\
    gauss_expect (fun z => (X z - F) ^ 3) m3 /\ gauss_expect (fun z => (X z - F) ^ 4) m4 /\
    nsvh1_vsk p T = (m2, m3 / (m2 * sqrt m2), m4 / m2 ^ 2 - 3).
Proof. exact nsvh1_vsk_true. Qed.
Print Assumptions C37_vsk_true_moments.
(** The general-lambda formula agrees with the dedicated ones at lambda = 1 and (normal SABR) lambda = 0. *)
Theorem C37_lambda_one : forall p T, 0 < b_vov p -> -1 < b_rho p < 1 -> 0 < T -> nsvh_vsk p 1 T = nsvh1_vsk p T.
Proof. exact lam1_agrees. Qed.
Print Assumptions C37_lambda_one.
Theorem C37_lambda_zero : forall p T, 0 < b_vov p -> 0 < T -> nsvh_vsk p 0 T = norm_sabr_vsk p T.
Proof. exact lam0_agrees. Qed.
Print Assumptions C37_lambda_zero.
(** Moment fit: at a root of the search function the fitted model has the requested variance, skewness and kurtosis. *)
Theorem C37_fit_round_trip : forall var skew exkurt T w, 0 < var -> 0 < T -> 1 < w ->
  0 <= 4 + 2 * (w * w - (exkurt + 3 + 3) / (w * w + 2 * w + 3)) ->
  fit_beta1 (exkurt + 3) w = skew ^ 2 ->
  nsvh1_vsk (nsvh1_fit_at var skew exkurt T w) T = (var, skew, exkurt).
Proof. exact fit_reproduces. Qed.
Print Assumptions C37_fit_round_trip.
Example C37_ex : exists m2 m3 m4, nsvh1_vsk (mkSabr 2 (/ 2) (- / 3) 0) 1 = (m2, m3, m4).
Proof.
  destruct (C37_vsk_true_moments (mkSabr 2 (/ 2) (- / 3) 0) 1 100) as (m2 & m3 & m4 & _ & _ & _ & _ & E); cbn; try lra. do 3 eexists. exact E.
Qed.
(** the fit hypotheses are met, with zero skewness: w = 2, t = 3, exkurt = (4 - 5/2) * 11 - 6 *)
Example C37_fit_ex : nsvh1_vsk (nsvh1_fit_at 1 0 (21 / 2) 1 2) 1 = (1, 0, 21 / 2).
Proof.
  assert (E : 4 + 2 * (2 * 2 - (21 / 2 + 3 + 3) / (2 * 2 + 2 * 2 + 3)) = 3 * 3) by field.
  apply C37_fit_round_trip; try lra. unfold fit_beta1. cbv zeta. rewrite E, sqrt_square by lra. ring.
Qed.
