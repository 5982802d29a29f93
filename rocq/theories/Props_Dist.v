(** Property theorems C39 and C40: distributions, their moments, fits and quadratures (disthelper.py). *)
From Coq Require Import Reals Lra Arith Lia List.
From Coquelicot Require Import Coquelicot.
From Verif Require Import Gauss Sums Spec_Opt Spec_Expect Spec_Misc Spec_Dist M_Opt M_Sabr M_Dist P_Dist P_Dist2 P_Dist3 P_Half P_Dist4 P_Dist5.
Import ListNotations.
Open Scope R_scope.

(** *** C39: quadratures. The base rules enter through their textbook properties (Spec_Dist). *)
(** DistLognormal.quad: total weight one and the exact mean from any positive symmetric rule; positive nodes and weights. *)
Theorem C39_lognormal_mass : forall d zw, positive_rule zw -> rule_sum (fun _ => 1) (ln_quad d zw) = 1.
Proof. exact ln_quad_mass. Qed.
Print Assumptions C39_lognormal_mass.
Theorem C39_lognormal_mean : forall d zw, positive_rule zw -> symmetric_rule zw -> rule_sum (fun x => x) (ln_quad d zw) = ln_mu d.
Proof. exact ln_quad_mean. Qed.
Print Assumptions C39_lognormal_mean.
Theorem C39_lognormal_positive : forall d zw, positive_rule zw -> 0 < ln_mu d -> 0 <= ln_lam d <= 1 ->
  List.Forall (fun p => 0 < fst p /\ 0 < snd p) (ln_quad d zw).
Proof. exact ln_quad_pos. Qed.
Print Assumptions C39_lognormal_positive.
(** DistGamma.quad: exact moments up to order 2n-1. *)
Theorem C39_gamma_exact : forall n c d xw k, 0 < gm_shape d -> 0 < gm_rate d ->
  let dens := gamma_density c (gm_shape d) (gm_rate d) in is_density dens -> laguerre_rule n (gm_shape d) xw -> (k <= 2 * n - 1)%nat ->
  pos_expect dens (fun x => x ^ k) (rule_sum (fun x => x ^ k) (gm_quad d xw)).
Proof. intros n c d xw k H1 H2 dens H3 H4 H5. exact (gm_quad_moment n c d xw k H1 H2 H3 H4 H5). Qed.
Print Assumptions C39_gamma_exact.
(** DistInvGauss.quad: mass and mean from any positive symmetric rule; from the n-point Gauss-Hermite rule, exact
    moments of every order -(n-1), ..., n; the inverse mean is 1/mu + 1/lambda. *)
Theorem C39_ig_mass_mean : forall mu lam zw, 0 < mu -> 0 < lam -> positive_rule zw -> symmetric_rule zw ->
  rule_sum (fun _ => 1) (ig_quad (mkIg mu lam) zw) = 1 /\ rule_sum (fun x => x) (ig_quad (mkIg mu lam) zw) = mu.
Proof. intros mu lam zw H1 H2. exact (ig_quad_mass_mean mu lam H1 H2 zw). Qed.
Print Assumptions C39_ig_mass_mean.
Theorem C39_ig_exact : forall mu lam n zw k, 0 < mu -> 0 < lam -> hermite_rule n zw -> (k <= n)%nat -> (1 <= n)%nat ->
  pos_expect (ig_density mu lam) (fun x => x ^ k) (rule_sum (fun x => x ^ k) (ig_quad (mkIg mu lam) zw)).
Proof. intros mu lam n zw k H1 H2. exact (ig_quad_moment mu lam H1 H2 n zw k). Qed.
Print Assumptions C39_ig_exact.
Theorem C39_ig_exact_inverse : forall mu lam n zw k, 0 < mu -> 0 < lam -> hermite_rule n zw -> (S k <= n)%nat ->
  pos_expect (ig_density mu lam) (fun x => / x ^ k) (rule_sum (fun x => / x ^ k) (ig_quad (mkIg mu lam) zw)).
Proof. intros mu lam n zw k H1 H2. exact (ig_quad_moment_inv mu lam H1 H2 n zw k). Qed.
Print Assumptions C39_ig_exact_inverse.
Theorem C39_ig_inverse_mean : forall mu lam, 0 < mu -> 0 < lam -> pos_expect (ig_density mu lam) (fun x => / x) (/ mu + / lam).
Proof. exact ig_inv_mean. Qed.
Print Assumptions C39_ig_inverse_mean.
Theorem C39_ig_positive : forall mu lam zw, 0 < mu -> 0 < lam -> positive_rule zw -> List.Forall (fun p => 0 < fst p /\ 0 < snd p) (ig_quad (mkIg mu lam) zw).
Proof. intros mu lam zw H1 H2. exact (ig_quad_pos mu lam H1 H2 zw). Qed.
Print Assumptions C39_ig_positive.
(** DistGig.quad: for index p = m - 1/2 the reweighted inverse Gaussian rule is exact to order n - m; with correct=True
    the weights always sum to one; for p = -1/2 it is the inverse Gaussian rule itself. *)
Theorem C39_gig_exact : forall kve gm dl p n zw m k, 0 < gm -> 0 < dl -> 0 < kve p (gm * dl) ->
  p = - / 2 + INR m -> hermite_rule n zw -> (k + m <= n)%nat -> (1 <= n)%nat ->
  let kp := kve p (gm * dl) * exp (- (gm * dl)) in bessel_K p (gm * dl) kp ->
  pos_expect (gig_density gm dl p kp) (fun x => x ^ k) (rule_sum (fun x => x ^ k) (gig_quad kve (mkGig gm dl p) false zw)).
Proof. intros kve gm dl p n zw m k H1 H2 H3. exact (gig_quad_moment gm dl p H1 H2 kve H3 n zw m k). Qed.
Print Assumptions C39_gig_exact.
Theorem C39_gig_corrected_mass : forall kve gm dl p zw, 0 < gm -> 0 < dl -> positive_rule zw ->
  rule_sum (fun _ => 1) (gig_quad kve (mkGig gm dl p) true zw) = 1.
Proof. intros kve gm dl p zw H1 H2. exact (gig_quad_correct_mass gm dl p H1 H2 kve zw). Qed.
Print Assumptions C39_gig_corrected_mass.
Theorem C39_gig_half_is_ig : forall kve gm dl zw, 0 < gm -> 0 < dl -> kve (- / 2) (gm * dl) = sqrt (PI / (2 * (gm * dl))) -> positive_rule zw ->
  bessel_K (- / 2) (gm * dl) (kve (- / 2) (gm * dl) * exp (- (gm * dl))) /\
  gig_quad kve (mkGig gm dl (- / 2)) false zw = ig_quad (ig_from_gig gm dl) zw.
Proof.
  intros kve gm dl zw H1 H2 H3 H4. split; [|exact (gig_half_quad kve gm dl zw H1 H2 H3 H4)]. rewrite H3. apply bessel_half. nra.
Qed.
Print Assumptions C39_gig_half_is_ig.
(** DistGh / DistNig on the cached quadrature: moments, cdf and quantile search. *)
Theorem C39_gh_quad_moments : forall d, pos_nodes (gh_quad d) ->
  exists mean c2 c3 c4,
    nvm_sum (gh_quad d) (gh_mu d) (gh_beta d) (fun y => y) mean /\ nvm_sum (gh_quad d) (gh_mu d) (gh_beta d) (fun y => (y - mean) ^ 2) c2 /\
    nvm_sum (gh_quad d) (gh_mu d) (gh_beta d) (fun y => (y - mean) ^ 3) c3 /\ nvm_sum (gh_quad d) (gh_mu d) (gh_beta d) (fun y => (y - mean) ^ 4) c4 /\
    gh_mvsk_quad d = (mean, c2, c3 / sqrt c2 ^ 3, c4 / c2 ^ 2 - 3).
Proof. exact gh_mvsk_quad_true. Qed.
Print Assumptions C39_gh_quad_moments.
Theorem C39_gh_cdf : forall d, pos_nodes (gh_quad d) -> gh_quad d <> [] ->
  let mass := rule_sum (fun _ => 1) (gh_quad d) in
  (forall y, nvm_sum (gh_quad d) (gh_mu d) (gh_beta d) (fun t => if Rle_dec t y then 1 else 0) (gh_cdf d y)) /\
  (forall y1 y2, y1 < y2 -> gh_cdf d y1 < gh_cdf d y2) /\ (forall y, 0 < gh_cdf d y < mass) /\
  is_lim (gh_cdf d) p_infty mass /\ is_lim (gh_cdf d) m_infty 0.
Proof.
  intros d P N mass. split; [intros; now apply gh_cdf_prob|]. split; [exact (gh_cdf_incr d P N)|]. split; [exact (gh_cdf_bounds d P N)|].
  exact (gh_cdf_lim d (gh_quad d) P).
Qed.
Print Assumptions C39_gh_cdf.
(** ppf: whenever the quadrature has mass one, the bracket handed to brentq contains the unique quantile for every
    q in [4e-6, 1 - 4e-6]. *)
Theorem C39_gh_quantile : forall d q, pos_nodes (gh_quad d) -> gh_quad d <> [] -> rule_sum (fun _ => 1) (gh_quad d) = 1 ->
  / 500 ^ 2 <= q <= 1 - / 500 ^ 2 ->
  let '(lo, hi) := gh_bracket d q in (gh_cdf d lo - q) * (gh_cdf d hi - q) <= 0 /\
  exists y, lo <= y <= hi /\ gh_cdf d y = q /\ forall y', gh_cdf d y' = q -> y' = y.
Proof. exact gh_ppf_ok. Qed.
Print Assumptions C39_gh_quantile.
(** The cached quadrature matches the parameters whenever n_quad was assigned after the last change of gamma, delta or p ... *)
Theorem C39_gh_cache_fresh : forall kve herm d pre n post, forallb keeps_mixer post = true ->
  let d' := gh_run kve herm d (pre ++ SetN n :: post) in gh_quad d' = gig_quad kve (gh_mixer d') false (herm n).
Proof. exact gh_fresh. Qed.
Print Assumptions C39_gh_cache_fresh.
(** ... and is stale after any other assignment: cdf and mvsk_quad keep describing the old distribution. *)
Theorem C39_gh_cache_refuted : forall mu beta gm dl gm' zw kve, positive_rule zw -> symmetric_rule zw ->
  0 < gm -> 0 < dl -> 0 < gm' -> gm' <> gm -> beta <> 0 ->
  let d := nig_set_nquad (fun _ => zw) (mkGh mu beta gm dl (- / 2) []) 32 in let d' := gh_step kve (fun _ => zw) d (SetGamma gm') in
  (forall y, gh_cdf d' y = gh_cdf d y) /\
  fst (fst (fst (gh_mvsk_quad d))) = fst (fst (fst (nig_mvsk mu beta gm dl))) /\
  fst (fst (fst (gh_mvsk_quad d'))) <> fst (fst (fst (nig_mvsk mu beta gm' dl))).
Proof.
  intros mu beta gm dl gm' zw kve H1 H2 H3 H4 H5 H6 H7 d d'. split; [exact (proj1 (gh_stale kve (fun _ => zw) d (SetGamma gm') I))|].
  exact (gh_stale_mean mu beta gm dl gm' zw kve H1 H2 H3 H4 H5 H6 H7).
Qed.
Print Assumptions C39_gh_cache_refuted.
Example C39_ex_hermite : hermite_rule 2 [(-1, / 2); (1, / 2)]. Proof. exact gh2_rule. Qed.
Example C39_ex_gamma : is_density (gamma_density 1 1 1) /\ laguerre_rule 1 1 [(1, 1)].
Proof.
  split; [exact exp_density|]. split; [split; [discriminate|repeat constructor; cbn; lra]|]. intros k Hk. assert (k = 0 \/ k = 1)%nat as [-> | ->] by lia; cbn; lra.
Qed.
Example C39_ex_gh : let d := nig_set_nquad (fun _ => gh2) (mkGh 0 1 1 1 (- / 2) []) 2 in pos_nodes (gh_quad d) /\ gh_quad d <> [] /\ rule_sum (fun _ => 1) (gh_quad d) = 1.
Proof.
  destruct gh2_rule as (P & S & _). split; [exact (ig_quad_pos (1 / 1) (1 ^ 2) ltac:(lra) ltac:(lra) gh2 P)|]. split; [discriminate|].
  exact (proj1 (ig_quad_mass_mean (1 / 1) (1 ^ 2) ltac:(lra) ltac:(lra) gh2 P S)).
Qed.
