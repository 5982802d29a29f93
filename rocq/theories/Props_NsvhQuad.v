(** C85: NsvhGaussQuad.  C86: NsvhMc. *)
From Coq Require Import Reals Lra Lia List Psatz.
From Coquelicot Require Import Coquelicot.
From Verif Require Import Base Sums M_Opt M_Fd M_Sabr M_Dist M_NsvhQuad Spec_Expect Spec_Dist Spec_NsvhQuad P_NsvhQuad3 P_NsvhQuad4 P_NsvhMc P_NsvhMc2 P_NsvhMc3.
Import ListNotations.
Open Scope R_scope.

(** *** C85: NsvhGaussQuad.price is the discounted expected payoff of the law NsvhMc simulates.  A z is the expected payoff
    given that the normal driving the volatility is z; the z-rule is applied to A after a shift of the normal by
    vov sqrt(texp)/2 (a change of measure, next theorem) and normalised; the two inner integrals are exact as soon as the
    Laguerre rule is exact for its integrand *)
Theorem C85_price_is_expectation : forall (mo : opt) (p : sabrp) (lam : R) (zr vr : list (R * R)) (strike spot texp cp : R) (A : R -> R),
  / 2 ^ 52 <= texp -> 0 < b_vov p -> 0 < b_sigma p -> b_rho p ^ 2 < 1 -> cp = 1 \/ cp = - (1) ->
  (forall x w, In (x, w) vr -> 0 < x) ->
  let '(fwd, df, _) := fwd_df_divf mo spot texp in
  (forall z, plane_expect (fun x y => Rmax (cp * (fwd + fst (nmc_prices p lam texp x y z) - strike)) 0) (A z)) ->
  (forall z w, In (z, w) zr -> laguerre_exact vr (nq_target p lam texp (strike - fwd) z)) ->
  let h := b_vov p * sqrt texp / 2 in
  nq_price1 mo p lam zr vr strike spot texp cp = df * rule_sum (shifted h A) zr * exp (h ^ 2 / 2) / rule_sum (fun z => exp (h * z)) zr.
Proof. exact nq_price_expect. Qed.
Print Assumptions C85_price_is_expectation.
(** the shifted integrand has the same expectation, and the normalisation is exact for exponentials: with exact rules the
    price is the discounted expected payoff *)
Theorem C85_measure_change : forall (h : R) (A : R -> R) (v : R), line_expect A v -> line_expect (shifted h A) v /\ line_expect (fun z => exp (h * z)) (exp (h ^ 2 / 2)).
Proof. intros h A v H. split; [now apply line_shift|apply line_exp]. Qed.
Print Assumptions C85_measure_change.
(** the conditional expectation exists for every strike, is unique, and for every node and abscissa there is an exact rule *)
Theorem C85_slices_exist : forall (p : sabrp) (lam T K cp : R), 0 < T -> 0 < b_vov p -> 0 < b_sigma p -> b_rho p ^ 2 < 1 -> cp = 1 \/ cp = - (1) ->
  (forall z, exists a, plane_expect (fun x y => Rmax (cp * (fst (nmc_prices p lam T x y z) - K)) 0) a /\
     forall b, plane_expect (fun x y => Rmax (cp * (fst (nmc_prices p lam T x y z) - K)) 0) b -> b = a) /\
  (forall z x, 0 < x -> nq_target p lam T K z x <> 0 -> exists w, laguerre_exact [(x, w)] (nq_target p lam T K z)).
Proof.
  intros p lam T K cp HT Hv Hs Hr Hcp. split.
  - intros z. destruct (plane_exists p lam T K cp z HT Hv Hs Hr Hcp) as [a Ha]. exists a. split; [exact Ha|]. intros b Hb. exact (plane_unique _ _ _ Hb Ha).
  - intros z x Hx Hn. now apply exact_rule_exists.
Qed.
Print Assumptions C85_slices_exist.
(** an exact rule at the money (uncorrelated normal SABR, one node): the hypotheses of the price theorem hold together *)
Example C85_ex : exists w, let p := mkSabr 1 1 0 0 in
  (forall z, exists a, plane_expect (fun x y => Rmax (1 * (0 + fst (nmc_prices p 0 1 x y z) - 0)) 0) a) /\ laguerre_exact [(1, w)] (nq_target p 0 1 (0 - 0) 0).
Proof.
  set (p := mkSabr 1 1 0 0).
  assert (X : forall z, exists a, plane_expect (fun x y => Rmax (1 * (fst (nmc_prices p 0 1 x y z) - 0)) 0) a).
  { intros z. apply plane_exists; cbn; try lra. }
  assert (N : nq_target p 0 1 (0 - 0) 0 1 <> 0).
  { unfold nq_target. cbv zeta. assert (S : nmc_std p 1 = 1) by (unfold nmc_std; cbn; replace (1 * (1 * 1) * 1) with 1 by ring; apply sqrt_1). rewrite S. change (b_vov p) with 1; change (b_sigma p) with 1; change (b_rho p) with 0.
    replace (1 / 1 * (0 - 0)) with 0 by field. assert (U : nq_u 0 1 0 = 0) by (unfold nq_u; ring). rewrite U.
    assert (G : nq_g 0 0 1 0 0 = 0) by (unfold nq_g; cbv zeta; unfold Rdiv; ring). rewrite (g0_v0 0 0 1 0 0 ltac:(lra) ltac:(lra) G), G.
    unfold nq_zv. rewrite Rabs_R0, Rmult_0_l, Rminus_0_r. replace (nq_h 0 1 0 0 (2 * 1) ^ 2 - 0 ^ 2) with (nq_h 0 1 0 0 (2 * 1) ^ 2) by ring.
    assert (P : 0 < nq_h 0 1 0 0 (2 * 1)) by (apply (P_NsvhQuad2.H_pos 0 1 0 ltac:(lra) ltac:(lra)); lra). rewrite sqrt_pow2 by lra. rewrite sqrt_1. pose proof PI_RGT_0. assert (0 < nq_h 0 1 0 0 (2 * 1) / (PI * 1)) by (apply Rdiv_lt_0_compat; lra). lra. }
  destruct (exact_rule_exists p 0 1 (0 - 0) 0 1 ltac:(lra) ltac:(cbn; lra) ltac:(cbn; lra) ltac:(cbn; lra) ltac:(lra) N) as [w Hw].
  exists w. split; [|exact Hw]. intros z. destruct (X z) as [a [B [B1 B2]]]. exists a, B. split; [|exact B2]. intros r Hr. eapply circle_ext; [|exact (B1 r Hr)]. intros t. cbv beta. now rewrite Rplus_0_l.
Qed.
(** *** put-call parity of the quadrature prices and complementarity of the distribution function, for every symmetric
    z-rule with positive weights and every v-rule (total weight 1 for cdf): the normalisation makes both exact *)
Theorem C85_parity : forall (mo : opt) (p : sabrp) (lam : R) (zr vr : list (R * R)) (strike spot texp : R),
  b_vov p <> 0 -> b_sigma p <> 0 -> symmetric_rule zr -> zr <> nil -> (forall z w, In (z, w) zr -> 0 < w) ->
  let '(fwd, df, _) := fwd_df_divf mo spot texp in
  nq_price1 mo p lam zr vr strike spot texp 1 - nq_price1 mo p lam zr vr strike spot texp (- (1)) = df * (fwd - strike).
Proof. exact nq_parity. Qed.
Print Assumptions C85_parity.
Theorem C85_cdf_complement : forall (mo : opt) (p : sabrp) (lam : R) (zr vr : list (R * R)) (strike spot texp : R),
  b_rho p ^ 2 < 1 -> 0 < b_vov p -> symmetric_rule zr -> zr <> nil -> (forall z w, In (z, w) zr -> 0 < w) -> rule_sum (fun _ => 1) vr = 1 ->
  nq_cdf1 mo p lam zr vr strike spot texp 1 + nq_cdf1 mo p lam zr vr strike spot texp (- (1)) = 1.
Proof. exact nq_cdf_parity. Qed.
Print Assumptions C85_cdf_complement.
Example C85_ex_rules : let zr := [(- (1), / 2); (1, / 2)] in symmetric_rule zr /\ zr <> nil /\ (forall z w, In (z, w) zr -> 0 < w) /\ rule_sum (fun _ => 1) [(1, 1)] = 1.
Proof.
  cbv zeta. split; [|split; [discriminate|split]].
  - intros f. unfold rule_sum, lsum. cbn [map fold_right fst snd]. rewrite Ropp_involutive. ring.
  - intros z w [E|[E|[]]]; inversion E; lra.
  - unfold rule_sum, lsum. cbn. ring.
Qed.
(** a scalar strike raises in both classes, an array never does *)
Theorem C85_scalar_strike_refuted : forall (mo : opt) (p : sabrp) (lam : R) (zr vr : list (R * R)) (z : list (R * R * R)) (spot texp cp : R),
  nq_price mo p lam zr vr None spot texp cp = None /\ nmc_price mo p lam z None spot texp cp = None /\
  forall ks, exists l, nq_price mo p lam zr vr (Some ks) spot texp cp = Some l /\ length l = length ks.
Proof.
  intros. split; [reflexivity|]. split; [unfold nmc_price; destruct (fwd_df_divf mo spot texp) as [[a b] c]; reflexivity|]. intros ks. eexists. split; [reflexivity|]. apply map_length.
Qed.
Print Assumptions C85_scalar_strike_refuted.

(** *** C86: the point simulated by mc_vol_price, (W0, W1, sigma_T/sigma_0), lies at hyperbolic distance vov sqrt(texp) |Z|
    from the start, where Z is the (drift-shifted) normal vector *)
Theorem C86_distance : forall s z0 z1 u : R, 0 < s -> 0 < z0 ^ 2 + z1 ^ 2 ->
  let '(w0, w1) := nmc_dfw s z0 z1 u in hyp_dist w0 w1 (nmc_dfz s u) = s * sqrt (z0 ^ 2 + z1 ^ 2 + u ^ 2).
Proof. exact dist_eq. Qed.
Print Assumptions C86_distance.
(** its density is [hyp_density]: in coordinates (squared radius, angle, third normal) -> (squared radius, same angle,
    volatility) the map is triangular and the density of the normals is the hyperbolic density times the Jacobian (pi d(rho^2)
    is the area element averaged over the angle) *)
Theorem C86_density : forall (p : sabrp) (lam T r th z2 : R), 0 < T -> 0 < b_vov p -> 0 < r ->
  let s := nmc_std p T in let w := fun r z2 => nmc_dfw s (sqrt r * cos th) (sqrt r * sin th) (nmc_z lam s z2) in let zt := fun z2 => nmc_dfz s (nmc_z lam s z2) in
  exists J1 J2, 0 < J1 /\ 0 < J2 /\ is_derive (fun r => sqn (w r z2)) r J1 /\ is_derive zt z2 J2 /\
    fst (w r z2) = sqrt (sqn (w r z2)) * cos th /\ snd (w r z2) = sqrt (sqn (w r z2)) * sin th /\
    / 2 * exp (- r / 2) * gauss_density z2 = PI * hyp_density lam (b_vov p ^ 2 * T) (fst (w r z2)) (snd (w r z2)) (zt z2) * J1 * J2.
Proof. exact density_push. Qed.
Print Assumptions C86_density.
Theorem C86_onto : forall lam s x y z : R, 0 < s -> 0 < z -> 0 < x ^ 2 + y ^ 2 ->
  exists z0 z1 z2, 0 < z0 ^ 2 + z1 ^ 2 /\ nmc_dfw s z0 z1 (nmc_z lam s z2) = (x, y) /\ nmc_dfz s (nmc_z lam s z2) = z.
Proof. exact mc_onto. Qed.
Print Assumptions C86_onto.
(** ... and that density solves the forward equation of dX = Z dB1, dY = Z dB2, dZ = (lam/2) Z dt + Z dB3, so one step of any
    length samples the diffusion without discretisation error (Z = sigma_t/sigma_0, time vov^2 t) *)
Theorem C86_forward_equation : forall lam t x y z : R, 0 < t -> 0 < z -> ~ (x = 0 /\ y = 0 /\ z = 1) ->
  exists qt axx ayy azz bz, is_derive (fun t => hyp_density lam t x y z) t qt /\
    deriv2 (fun x => z ^ 2 * hyp_density lam t x y z) x axx /\ deriv2 (fun y => z ^ 2 * hyp_density lam t x y z) y ayy /\
    deriv2 (fun z => z ^ 2 * hyp_density lam t x y z) z azz /\ is_derive (fun z => z * hyp_density lam t x y z) z bz /\
    qt = / 2 * (axx + ayy + azz) - lam / 2 * bz.
Proof. exact forward_equation. Qed.
Print Assumptions C86_forward_equation.
Example C86_ex_point : 0 < 1 /\ 0 < 2 /\ ~ (1 = 0 /\ 0 = 0 /\ 2 = 1). Proof. lra. Qed.
(** the price increment has mean zero (both components), the volatility the mean of the drifted geometric motion *)
Theorem C86_martingale : forall (p : sabrp) (lam T : R), 0 <= T ->
  space_expect (fun x y z => fst (nmc_prices p lam T x y z)) 0 /\ space_expect (fun x y z => snd (nmc_prices p lam T x y z)) 0 /\
  line_expect (fun z2 => nmc_dfz (nmc_std p T) (nmc_z lam (nmc_std p T) z2)) (exp (/ 2 * lam * (b_vov p ^ 2 * T))).
Proof. intros p lam T HT. destruct (mc_martingale p lam T HT) as [A B]. split; [exact A|]. split; [exact B|now apply dfz_mean]. Qed.
Print Assumptions C86_martingale.
(** the price is the discounted sample mean of the payoff over both components of every row of normals and of its negative;
    call minus put is the discounted difference of the sample mean price and the strike *)
Theorem C86_sample_price : forall (mo : opt) (p : sabrp) (lam : R) (z : list (R * R * R)) (ks : list R) (spot T cp : R),
  let '(fwd, df, _) := fwd_df_divf mo spot T in
  nmc_price mo p lam z (Some ks) spot T cp = Some (map (fun k => df * mean (map (fun x => Rmax (cp * (fwd + x - k)) 0) (nmc_sample p lam T z))) ks).
Proof. exact price_sample. Qed.
Print Assumptions C86_sample_price.
Theorem C86_parity : forall (mo : opt) (p : sabrp) (lam : R) (z : list (R * R * R)) (k spot T : R), z <> nil ->
  let '(fwd, df, _) := fwd_df_divf mo spot T in
  exists c q, nmc_price mo p lam z (Some [k]) spot T 1 = Some [c] /\ nmc_price mo p lam z (Some [k]) spot T (- (1)) = Some [q] /\
    c - q = df * (fwd + mean (nmc_sample p lam T z) - k).
Proof.
  intros mo p lam z k spot T Hz. pose proof (price_sample mo p lam z [k] spot T 1) as P1. pose proof (price_sample mo p lam z [k] spot T (- (1))) as P2. destruct (fwd_df_divf mo spot T) as [[fwd df] dv].
  eexists _, _. split; [exact P1|]. split; [exact P2|]. rewrite <- (mean_parity (nmc_sample p lam T z) fwd k); [ring|]. destruct z as [|[[a b] c] l]; [now elim Hz|]. unfold nmc_sample. cbn. discriminate.
Qed.
Print Assumptions C86_parity.
