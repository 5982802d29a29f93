(** C92: the conditioning nodes of SabrUncorrChoiWu2021 and SabrMixtureChoi (sabr_int.py), and what their prices and masses at zero inherit.
    [zw], [zw0], [zw1] are any positive symmetric quadrature rules (the Gauss-Hermite ones of scipy are). *)
From Coq Require Import Reals Lra List.
From Coquelicot Require Import Coquelicot.
From Verif Require Import Base Sums M_Opt M_Heston M_Fd M_Sabr M_Dist M_Cev M_SabrVol M_SabrMix Spec_Opt Spec_Dist Spec_Cev Spec_SabrVol P_Gamma2 P_Ncx3 P_Dist P_OptRefute P_SabrMass P_SabrMix P_SabrMix2 P_SabrMix3 P_SabrMix4 P_SabrMix5.
Import ListNotations.
Open Scope R_scope.

(** The conditional mean and scaled variance handed to the lognormal fit are positive for every terminal volatility: no NaN nodes. *)
Theorem C92_conditional_moments_positive : forall v z m s sk k, 0 < v -> cond_avgvar_mvsk v z = (m, s, sk, k) -> 0 < m /\ 0 < s.
Proof. intros v z m s sk k Hv. apply cond_mv_pos, Hv. Qed.
Print Assumptions C92_conditional_moments_positive.
(** Uncorrelated mixture: as many nodes as asked for, positive weights adding up to one, forward ratio one, and the exact mean of the average variance. *)
Theorem C92_uncorr_nodes : forall p T zw, isclose (b_rho p) 0 = true -> positive_rule zw -> symmetric_rule zw ->
  exists l, uncorr_nodes p T zw = Some l /\ length l = length zw /\ total_weight l = 1 /\ avg_forward l = 1 /\
    (forall f v w, In (f, v, w) l -> f = 1 /\ 0 < v /\ 0 < w) /\ avg_variance l = exprel ((b_vov p * sqrt T) ^ 2).
Proof. intros p T zw H P Sy. destruct (uncorr_some p T zw H) as (l & E). exists l. split; [exact E|]. exact (uncorr_facts p T zw l P Sy E). Qed.
Print Assumptions C92_uncorr_nodes.
(** Correlated mixture: the same; the forward ratio averages to one for beta = 0 without any correction, is one at every node when rho = 0, is at least
    1e-20 for beta > 0; and the average variance is (1 - rho^2) times the outer average of the exact conditional mean. *)
Theorem C92_mixture_nodes : forall p T fwd zw0 zw1, supported (b_beta p) -> 0 < b_vov p -> -1 < b_rho p < 1 ->
  positive_rule zw0 -> symmetric_rule zw0 -> positive_rule zw1 -> symmetric_rule zw1 ->
  exists l, mixchoi_nodes p T fwd zw0 zw1 = Some l /\ length l = (length zw0 * length zw1)%nat /\ total_weight l = 1 /\
    (forall f v w, In (f, v, w) l -> 0 < v /\ 0 < w /\ (isclose (b_beta p) 0 = false -> / 10 ^ 20 <= f) /\ (b_rho p = 0 -> f = 1)) /\
    (isclose (b_beta p) 0 = true -> avg_forward l = 1) /\
    avg_variance l = (1 - b_rho p ^ 2) * outer_avg (sabr_vovn p T) zw0 (cond_mean (sabr_vovn p T)).
Proof. exact mixchoi_facts. Qed.
Print Assumptions C92_mixture_nodes.
(** The inner nodes come from a shifted lognormal whose skewness matches the conditional skewness of the average variance to leading order as the
    vol-of-vol tends to zero, at every terminal volatility (this pins the shift 5/6: mean and variance are matched by any shift). *)
Theorem C92_inner_skewness : forall z, exists d : R -> lnd,
  (forall v zw1, mixchoi_inner v z zw1 = ln_quad (d v) zw1) /\
  filterlim (fun v => snd (fst (ln_mvsk (d v))) / snd (fst (cond_avgvar_mvsk v z))) (at_right 0) (locally 1).
Proof. intros z. exists (fun v => mixchoi_fit sln_lam v z). exact (mixchoi_skew z). Qed.
Print Assumptions C92_inner_skewness.
(** A clearly negative beta always raises (UnboundLocalError: the ValueError is built but not raised). *)
Theorem C92_negative_beta_raises : forall p T fwd zw0 zw1, ~ supported (b_beta p) -> zw0 <> [] -> zw1 <> [] -> mixchoi_nodes p T fwd zw0 zw1 = None.
Proof. exact mixchoi_raises. Qed.
Print Assumptions C92_negative_beta_raises.
(** Refuted for beta > 0 and rho <> 0: nothing makes the forward ratio average to one (correct_fwd is off by default); with one outer node the
    average is below one, whatever the other parameters. *)
Theorem C92_forward_refuted : forall p T F zw1, 0 < T -> 0 < F -> 0 < b_vov p -> -1 < b_rho p < 1 -> b_rho p <> 0 -> 0 < b_sigma p -> 0 < b_beta p -> isclose (b_beta p) 0 = false ->
  positive_rule zw1 -> symmetric_rule zw1 -> exists l, mixchoi_nodes p T F [(0, 1)] zw1 = Some l /\ total_weight l = 1 /\ avg_forward l < 1.
Proof. exact mix_forward_one. Qed.
Print Assumptions C92_forward_refuted.
(** Put-call parity of the default prices (no forward correction): beta = 1, beta = 0 (volatilities above the floor), and a Cev base model. *)
Theorem C92_uncorr_parity : forall cdf sf mo p zw K S T, let F := FWD (intr mo) (divr mo) (is_fwd mo) S T in
  0 < F -> 0 < K -> isclose (b_rho p) 0 = true -> positive_rule zw -> symmetric_rule zw ->
  b_beta p = 1 \/ (exists Gam pdf, gamma_function Gam /\ ncx2_routines Gam cdf sf pdf /\ isclose (b_beta p) 1 = false /\ isclose (b_beta p) 0 = false) ->
  exists c q, uncorr_price (cev_price cdf sf) mo p false zw K S T 1 = Some c /\ uncorr_price (cev_price cdf sf) mo p false zw K S T (-1) = Some q /\ c - q = DF (intr mo) T * (F - K).
Proof.
  intros cdf sf mo p zw K S T F HF HK Hr P Sy H. destruct (uncorr_some p T zw Hr) as (l & E). destruct (uncorr_facts p T zw l P Sy E) as (_ & _ & _ & Hin & _).
  destruct H as [Hb|(Gam & pdf & HG & HR & B1 & B0)].
  - apply (uncorr_parity (fun _ => 0) cdf sf (fun _ _ _ => 0) mo p zw K S T l HF HK P Sy E). now left.
  - apply (uncorr_parity Gam cdf sf pdf mo p zw K S T l HF HK P Sy E). right. right. split; [exact HG|]. split; [exact HR|]. split; [exact B1|]. split; [exact B0|]. intros f v w Hi. destruct (Hin _ _ _ Hi) as (-> & _). lra.
Qed.
Print Assumptions C92_uncorr_parity.
Theorem C92_mixture_parity_normal : forall cdf sf mo p zw0 zw1 K S T, let F := FWD (intr mo) (divr mo) (is_fwd mo) S T in
  0 < F -> 0 < K -> 0 < b_vov p -> -1 < b_rho p < 1 -> b_beta p = 0 -> positive_rule zw0 -> symmetric_rule zw0 -> positive_rule zw1 -> symmetric_rule zw1 ->
  (forall l f v w, mixchoi_nodes p T F zw0 zw1 = Some l -> In (f, v, w) l -> eps <= b_sigma p / F * v * sqrt T) ->
  exists c q, mixchoi_price (cev_price cdf sf) mo p false zw0 zw1 K S T 1 = Some c /\ mixchoi_price (cev_price cdf sf) mo p false zw0 zw1 K S T (-1) = Some q /\ c - q = DF (intr mo) T * (F - K).
Proof.
  intros cdf sf mo p zw0 zw1 K S T F HF HK Hv Hr Hb P0 S0 P1 S1 Hfl. assert (Hc : isclose (b_beta p) 0 = true) by (rewrite Hb; apply isclose_refl).
  apply (mixchoi_parity (fun _ => 0) cdf sf (fun _ _ _ => 0) mo p zw0 zw1 K S T HF HK Hv Hr P0 S0 P1 S1); [now left|].
  intros l E. right. left. split; [exact Hb|]. split; [exact HF|]. intros f v w. apply (Hfl l f v w E).
Qed.
Print Assumptions C92_mixture_parity_normal.
(** Uncorrelated lognormal SABR: strict no-arbitrage bounds, and the Black-Scholes price when the vol-of-vol is zero. *)
Theorem C92_uncorr_bounds : forall cevp mo p zw K S T cp, let F := FWD (intr mo) (divr mo) (is_fwd mo) S T in
  0 < S -> 0 < K -> call_or_put cp -> isclose (b_rho p) 0 = true -> b_beta p = 1 -> positive_rule zw -> symmetric_rule zw ->
  exists c, uncorr_price cevp mo p false zw K S T cp = Some c /\ DF (intr mo) T * payoff cp K F < c < DF (intr mo) T * (if Rlt_dec 0 cp then F else K).
Proof. exact uncorr_bounds. Qed.
Print Assumptions C92_uncorr_bounds.
Theorem C92_uncorr_constant_vol : forall cevp mo p zw K S T cp, 0 < S -> isclose (b_rho p) 0 = true -> b_beta p = 1 -> b_vov p = 0 -> positive_rule zw -> symmetric_rule zw ->
  uncorr_price cevp mo p false zw K S T cp = Some (bsm_price (mkOpt (b_sigma p) (intr mo) (divr mo) (is_fwd mo)) K S T cp).
Proof. exact uncorr_vov0. Qed.
Print Assumptions C92_uncorr_constant_vol.
(** The mass at zero of both classes is a probability strictly between 0 and 1. *)
Theorem C92_mass_zero_range : forall Gam gcdf gsf, gamma_function Gam -> gamma_routines Gam gcdf gsf -> forall mo p c zw0 zw1 l S T,
  0 < S -> 0 < T -> b_beta p < 1 -> b_sigma p <> 0 -> positive_rule zw0 -> symmetric_rule zw0 -> positive_rule zw1 -> symmetric_rule zw1 ->
  uncorr_nodes p T zw0 = Some l \/ (0 < b_beta p /\ isclose (b_beta p) 0 = false /\ 0 < b_vov p /\ -1 < b_rho p < 1 /\ mixchoi_nodes p T (forward mo S T) zw0 zw1 = Some l) ->
  0 < mix_mass_zero gsf mo p c l S T < 1.
Proof.
  intros Gam gcdf gsf HG HR mo p c zw0 zw1 l S T HS HT Hb Hs P0 S0 P1 S1 H. apply (mix_range Gam gcdf gsf HG HR); try assumption.
  destruct H as [H|(A & B & C & D & H)]; [exact (uncorr_nodes_ok p T zw0 l P0 S0 H)|exact (mixchoi_nodes_ok p T _ zw0 zw1 l A B C D P0 S0 P1 S1 H)].
Qed.
Print Assumptions C92_mass_zero_range.
(** non-vacuity: a two-point rule, beta = 1/2 and beta = 0 *)
Lemma two_rule : positive_rule [(-1, 1); (1, 1)] /\ symmetric_rule [(-1, 1); (1, 1)].
Proof. split; [split; [discriminate|repeat constructor; cbn; lra]|]. intros f. unfold rule_sum. cbn. replace (- -1) with 1 by lra. replace (- (1)) with (-1) by lra. ring. Qed.
Example C92_ex_normal : exists l, mixchoi_nodes (mkSabr (/ 5) (/ 2) (- / 2) 0) 1 1 [(-1, 1); (1, 1)] [(-1, 1); (1, 1)] = Some l /\ length l = 4%nat /\ avg_forward l = 1.
Proof.
  destruct two_rule as [P S]. assert (H0 : isclose 0 0 = true) by apply isclose_refl.
  destruct (C92_mixture_nodes (mkSabr (/ 5) (/ 2) (- / 2) 0) 1 1 _ _ (or_introl H0) ltac:(cbn; lra) ltac:(cbn; lra) P S P S) as (l & E & L & _ & _ & M & _). exists l. split; [exact E|]. split; [exact L|apply M, H0].
Qed.
Example C92_ex_forward : exists l, mixchoi_nodes (mkSabr (/ 5) (/ 2) (- / 2) (/ 2)) 1 1 [(0, 1)] [(-1, 1); (1, 1)] = Some l /\ total_weight l = 1 /\ avg_forward l < 1.
Proof.
  destruct two_rule as [P S]. apply C92_forward_refuted; cbn [b_vov b_rho b_sigma b_beta]; try lra; try assumption.
  unfold isclose. destruct (Rle_dec _ _) as [L|]; [exfalso|reflexivity]. rewrite Rminus_0_r, Rabs_right, Rabs_R0 in L by lra. simpl in L. lra.
Qed.
Example C92_ex_bounds : exists c, uncorr_price (fun _ _ _ _ _ _ => 0) (mkOpt 0 (/ 20) 0 false) (mkSabr (/ 5) (/ 2) 0 1) false [(-1, 1); (1, 1)] 100 100 1 1 = Some c /\ 0 < c.
Proof.
  destruct two_rule as [P S]. assert (H0 : isclose 0 0 = true) by apply isclose_refl.
  destruct (C92_uncorr_bounds (fun _ _ _ _ _ _ => 0) (mkOpt 0 (/ 20) 0 false) (mkSabr (/ 5) (/ 2) 0 1) [(-1, 1); (1, 1)] 100 100 1 1 ltac:(lra) ltac:(lra) ltac:(now left) H0 eq_refl P S) as (c & E & L & _).
  exists c. split; [exact E|]. eapply Rle_lt_trans; [|exact L]. apply Rmult_le_pos; [left; apply exp_pos|]. unfold payoff. apply Rmax_r.
Qed.
