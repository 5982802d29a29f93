(** C87: the chi-square routine and the terminal-price draw of SabrMcCai2017Exact; C88: the conditional transform of the average variance. *)
From Coq Require Import Reals List Lra Lia.
From Coquelicot Require Import Coquelicot.
From Verif Require Import Base P_SabrTight Sums Spec_Opt Spec_Cev Spec_NsvhQuad Spec_SabrCai M_Opt M_Cev M_SabrCai P_Gamma2 P_Ncx3 P_SabrCai2 P_SabrCai3 P_SabrCai4.
Import ListNotations.
Open Scope R_scope.

(** For arguments up to 500 the loop always stops, and its value is the non-central chi-square distribution function from below within 1e-7. *)
Theorem C87_chi2_error : forall Gam P x df nc, gamma_function Gam -> 0 < df -> 0 < x <= 500 -> 0 <= nc <= 500 -> cdf_of (ncx2_pdf Gam df nc) P ->
  exists v N, (forall fuel, (N <= fuel)%nat -> chi2_cdf_appr Gam fuel x df nc = Some v) /\ P x - / 10 ^ 7 <= v < P x.
Proof. exact near_cdf. Qed.
Print Assumptions C87_chi2_error.
(** It decreases strictly in the non-centrality, so an equation in the strike has at most one root. *)
Theorem C87_chi2_decreasing : forall Gam x df nc1 nc2 n1 n2 v1 v2, gamma_function Gam -> 0 < df -> 0 < x <= 500 -> 0 <= nc1 -> nc1 < nc2 -> nc2 <= 500 ->
  chi2_cdf_appr Gam n1 x df nc1 = Some v1 -> chi2_cdf_appr Gam n2 x df nc2 = Some v2 -> v2 < v1.
Proof. exact near_decr. Qed.
Print Assumptions C87_chi2_decreasing.
(** Outside that range the approximation puts the arguments below (above) the mean df + nc on the right side of one half. *)
Theorem C87_chi2_far : forall Gam fuel x df nc v, 0 < x -> 0 < df -> 0 < nc -> 500 < x \/ 500 < nc -> chi2_cdf_appr Gam fuel x df nc = Some v ->
  (x < df + nc -> v <= / 2) /\ (df + nc < x -> / 2 <= v).
Proof.
  intros Gam fuel x df nc v Hx Hd Hn Hfar E. assert (v = pr_cdf x df nc) as ->.
  { unfold chi2_cdf_appr in E. destruct (Rle_dec x 500), (Rle_dec nc 500); cbn [andb] in E; try (injection E; intros; congruence). lra. }
  now apply pr_side.
Qed.
Print Assumptions C87_chi2_far.
(** The terminal price drawn from the uniform u and the integrated variance sigma^2 T is zero exactly on the CEV mass at zero, and otherwise, when the
    root finder has solved its equation, it is the CEV quantile of a probability within 1e-7 of u. *)
Theorem C87_draw : forall Gam, gamma_function Gam -> forall beta sg T S, beta < 1 -> 0 < sg -> 0 < T -> 0 < S ->
  forall cdf sf pdf gcdf gsf chi2cdf appr root u, ncx2_routines Gam cdf sf pdf -> gamma_routines Gam gcdf gsf ->
  (forall k, 0 < k -> cdf_of (chi2_pdf Gam k) (fun x => chi2cdf x k)) ->
  (forall x k l, 0 < x <= 500 -> 0 < k -> 0 <= l <= 500 -> exists n, chi2_cdf_appr Gam n x k l = Some (appr x k l)) ->
  cai_A0 beta (sg ^ 2 * T) S <= 500 -> let s := simu_ST appr chi2cdf root beta (sg ^ 2 * T) S u in let m := mkOpt sg 0 0 false in
  (u <= cev_mass_zero gsf beta m S T -> s = 0) /\
  (cev_mass_zero gsf beta m S T < u -> 0 < s -> cai_C0 (sg ^ 2 * T) beta s <= 500 -> 1 - sabr_chi2_cdf appr beta (sg ^ 2 * T) S s = u ->
   cev_cdf cdf sf beta m s S T (-1) <= u <= cev_cdf cdf sf beta m s S T (-1) + / 10 ^ 7).
Proof. exact draw_thm. Qed.
Print Assumptions C87_draw.
Example C87_ex : exists Gam P, gamma_function Gam /\ cdf_of (ncx2_pdf Gam 2 3) P /\ exists v N, (forall fuel, (N <= fuel)%nat -> chi2_cdf_appr Gam fuel 4 2 3 = Some v) /\ P 4 - / 10 ^ 7 <= v < P 4.
Proof.
  destruct gamma_exists as [Gam HG]. exists Gam, (fun x => Hn Gam (2 / 2) (3 / 2) (x / 2)). split; [exact HG|]. assert (C := Hn_cdf Gam HG 2 3 ltac:(lra) ltac:(lra)). split; [exact C|].
  apply (C87_chi2_error Gam _ 4 2 3 HG ltac:(lra) ltac:(lra) ltac:(lra) C).
Qed.
Example C87_ex_range : cai_A0 (/ 2) (2 ^ 2 * 1) 100 <= 500 /\ cai_C0 (2 ^ 2 * 1) (/ 2) 90 <= 500.
Proof.
  unfold cai_A0, cai_C0. replace (1 - / 2) with (/ 2) by field. rewrite Rpower_sqrt by lra. replace (2 * / 2) with 1 by field. rewrite Rpower_1 by lra. split; [|lra].
  replace ((sqrt 100 / / 2) ^ 2) with (4 * (sqrt 100 * sqrt 100)) by field. rewrite sqrt_sqrt by lra. lra.
Qed.

(** C88.  With v = vov^2 t, A = v * avgvar and uu = -lam/v, the code's transform times the density of the volatility ratio is the joint transform of
    1/A and the volatility: it solves their forward equation, is the density itself at lam = 0, and its ratio to the density vanishes as v -> 0. *)
Theorem C88_transform : (forall v s lam, 0 < v -> 0 < s -> 0 < lam -> invA_forward (fun v s lam => vol_density v s * cond_invavgvar_mgf (- (lam / v)) (sqrt v) s) v s lam) /\
  (forall w s, 0 < w -> 0 < s -> cond_invavgvar_mgf 0 w s = 1) /\
  (forall s lam, 0 < s -> 0 < lam -> filterlim (fun v => cond_invavgvar_mgf (- (lam / v)) (sqrt v) s) (at_right 0) (locally 0)).
Proof.
  split; [exact invA_fwd|]. split; [exact mgf_0|]. intros s lam Hs Hl. apply (filterlim_ext_loc (fun v => hjoint v s lam / vol_density v s)); [|now apply hjoint_0].
  exists (mkposreal 1 Rlt_0_1). intros v _ Hv. unfold hjoint. assert (0 < vol_density v s); [|field; lra]. unfold vol_density. apply Rdiv_lt_0_compat; [apply exp_pos|]. apply Rmult_lt_0_compat; [exact Hs|]. apply sqrt_lt_R0. pose proof PI_RGT_0. apply Rmult_lt_0_compat; lra.
Qed.
Print Assumptions C88_transform.
(** It behaves as E[exp(uu/avgvar)]: values in (0, 1], strictly increasing in uu <= 0, vanishing as uu -> -infinity, so theta -> mgf(-theta)/theta is the transform of a
    distribution function with values between 0 and 1/theta. *)
Theorem C88_mgf_shape : forall w s, 0 < w -> 0 < s ->
  (forall u1 u2, u1 < u2 -> u2 <= 0 -> 0 < cond_invavgvar_mgf u1 w s < cond_invavgvar_mgf u2 w s /\ cond_invavgvar_mgf u2 w s <= 1) /\
  is_lim (fun th => cond_invavgvar_mgf (- th) w s) p_infty 0 /\ (forall th, 0 < th -> 0 < cond_invavgvar_cdf_laplace th w s < / th).
Proof.
  intros w s Hw Hs. split; [|split; [now apply mgf_lim|]].
  - intros u1 u2 H1 H2. split; [split; [apply mgf_range; lra|now apply mgf_incr]|apply mgf_range; lra].
  - intros th Ht. unfold cond_invavgvar_cdf_laplace. assert (0 < / th) by now apply Rinv_0_lt_compat. pose proof (mgf_incr (- th) 0 w s Hw Hs ltac:(lra) ltac:(lra)) as A. rewrite mgf_0 in A by assumption.
    pose proof (mgf_range (- th) w s Hw Hs ltac:(lra)) as [B _]. unfold Rdiv. split; [now apply Rmult_lt_0_compat|]. apply Rlt_le_trans with (1 * / th); [now apply Rmult_lt_compat_r|lra].
Qed.
Print Assumptions C88_mgf_shape.
(** Its mean, E[1/avgvar | sigma_t] = 2 ln(sigma_t) / (sigma_t^2 - 1), is the reciprocal of the average variance of the exponential path from 1 to sigma_t. *)
Theorem C88_mgf_mean : forall w s, 0 < w -> 0 < s -> s <> 1 ->
  is_derive (fun u => cond_invavgvar_mgf u w s) 0 (2 * ln s / (s ^ 2 - 1)) /\ is_RInt (fun x => Rpower s x ^ 2) 0 1 (/ (2 * ln s / (s ^ 2 - 1))).
Proof.
  intros w s Hw Hs N. split; [now apply mgf_mean|]. assert (L : ln s <> 0). { intros E. apply N. rewrite <- (exp_ln s Hs), E. apply exp_0. }
  replace (/ (2 * ln s / (s ^ 2 - 1))) with (minus (Rpower s 1 ^ 2 / (2 * ln s)) (Rpower s 0 ^ 2 / (2 * ln s))).
  - apply (is_RInt_derive (V := R_CompleteNormedModule) (fun x => Rpower s x ^ 2 / (2 * ln s))).
    + intros x _. unfold Rpower. auto_derive; [exact I|]. set (e := exp _). clearbody e. field. exact L.
    + intros x _. apply (ex_derive_continuous (K := R_AbsRing) (V := R_NormedModule)). unfold Rpower. auto_derive. exact I.
  - rewrite Rpower_1, Rpower_O by lra. unfold minus, plus, opp; cbn -[ln pow]. assert (s ^ 2 - 1 <> 0). { intros E. apply N. assert ((s - 1) * (s + 1) = 0) as F by (rewrite <- E; ring). apply Rmult_integral in F. lra. } field. split; assumption.
Qed.
Print Assumptions C88_mgf_mean.
(** The binomial weights sum to one, and for transforms whose real parts on the inversion grid are positive mixtures of geometric decays the Euler transformation
    replaces the infinite alternating sum of the inversion formula with relative error at most 2^(-m), whatever n. *)
Theorem C88_euler_error : forall m n M ss u (L : list (R * R)) S, 0 < u -> (forall c r, In (c, r) L -> 0 <= c /\ 0 <= r < 1) ->
  (forall j, ss u j = lsum (map (fun p => fst p * snd p ^ j) L)) -> is_series (fun j => (-1) ^ j * ss u j) S ->
  Rabs (inv_laplace m n M ss u - exp (M / 2) / u * (S - ss u 0%nat / 2)) <= exp (M / 2) / u * ss u 0%nat / 2 ^ m.
Proof. exact inversion_err. Qed.
Print Assumptions C88_euler_error.
(** exact remainder for one geometric decay *)
Theorem C88_euler_geometric : forall m n r, r <> -1 -> euler_sum m n (fun j => r ^ j) = / (1 + r) - (- r) ^ (n + 1) / (1 + r) * ((1 - r) / 2) ^ m.
Proof. intros m n r H. rewrite Nat.add_1_r. now apply euler_geom. Qed.
Print Assumptions C88_euler_geometric.
Theorem C88_weights : forall m, rsum (S m) (comb_coef m) = 1.
Proof. intros m. rewrite (rsum_ext _ _ (fun i => comb_coef m i * 1 ^ i)) by (intros; rewrite pow1; ring). rewrite comb_sum. replace ((1 + 1) / 2) with 1 by field. apply pow1. Qed.
Print Assumptions C88_weights.
Example C88_ex : invA_forward (fun v s lam => vol_density v s * cond_invavgvar_mgf (- (lam / v)) (sqrt v) s) (/ 4) 2 3.
Proof. apply C88_transform; lra. Qed.
Example C88_ex_euler : is_series (fun j => (-1) ^ j * lsum (map (fun p => fst p * snd p ^ j) [(2, / 2); (1, / 3)])) (2 / (1 + / 2) + (1 / (1 + / 3) + 0)).
Proof. apply mix_series. intros c r [E|[E|[]]]; injection E as <- <-; lra. Qed.

(** The drawn average variance is the point where the inverted transform equals the uniform draw, whenever the root finder delivers a root. *)
Theorem C88_draw_solves : forall root m n m_inv ss uu, let f := (fun x => inv_laplace m n m_inv ss x - uu) in f (root f) = 0 -> root f <> 0 ->
  inv_laplace m n m_inv ss (1 / draw_cond_avgvar root m n m_inv ss uu) = uu.
Proof. exact draw_solves. Qed.
Print Assumptions C88_draw_solves.
(** A step started at c times the volatility gives c times the terminal volatility and c^2 times the average variance. *)
Theorem C88_step_scaling : forall ratio av s c,
  cai_states_step ratio av (c * s) = (c * fst (cai_states_step ratio av s), c ^ 2 * snd (cai_states_step ratio av s)) /\ cai_states_step ratio av 1 = (ratio, av).
Proof. exact cai_scale. Qed.
Print Assumptions C88_step_scaling.
