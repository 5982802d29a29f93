(** C53: every pricer modelled, against the is_fwd flag (Spec_Fwd.v). *)
From Coq Require Import Reals List Lra.
From Verif Require Import Base M_Opt M_Mgf M_Cos M_Cache M_Mc M_Fd M_Sabr M_Cev M_Svi M_Garch M_Recip M_Multi Spec_Opt Spec_Fwd P_Fwd P_Fwd2.
Open Scope R_scope.

Theorem C53_closed_form : honours_is_fwd bsm_price /\ honours_is_fwd norm_price /\ (forall cdf sf beta, honours_is_fwd (cev_price cdf sf beta)) /\
  (forall p atm, honours_is_fwd (fun m => nsvh1_price m p atm)) /\ (forall igc igs, honours_is_fwd (invgauss_price igc igs)) /\
  (forall sg vov rho smooth shift, honours_is_fwd (fun m => svi_price (mkSvi sg vov rho smooth shift (intr m) (divr m) (is_fwd m)))).
Proof. exact (conj h_bsm (conj h_norm (conj h_cev (conj h_nsvh1 (conj h_invgauss h_svi))))). Qed.
Print Assumptions C53_closed_form.
Theorem C53_transform : (forall re im n a b, honours_is_fwd (fun m => cos_price m re im n a b)) /\
  (forall re im n a b, honours_is_fwd (fun m => lefloch_price m re im n a b)) /\
  (forall p L c1 re im n, honours_is_fwd (fun m => hcos_price m p L c1 re im n)) /\
  (forall sp, honours_is_fwd (fun m => fft_price m sp)) /\ (forall sp, honours_is_fwd (fun m => simpson_price m sp)) /\
  (forall o nodes, honours_is_fwd (fun m => subo_quad_price m o nodes)).
Proof. exact (conj h_cos (conj h_lefloch (conj h_hcos (conj h_fft (conj h_simpson h_subo))))). Qed.
Print Assumptions C53_transform.
Theorem C53_simulation_and_grids : (forall cf sg samples, honours_is_fwd (fun m => cond_mc_price m cf sg samples)) /\
  (forall cf sg samples, honours_is_fwd (fun m => mixture_price m cf sg samples)) /\
  (forall cevp p cf paths, honours_is_fwd (fun m => sabr_mc_price cevp m p cf paths)) /\
  (forall cevp p cf nodes, honours_is_fwd (fun m => sabr_mix_price cevp m p cf nodes)) /\
  (forall p N M L th, honours_is_fwd (fun m => sabr_fd_price m p N M L th)) /\
  (forall p cev N M L th, honours_is_fwd (fun m => heston_fd_price m p cev N M L th)).
Proof. exact (conj h_cond_mc (conj h_mixture (conj h_sabr_mc (conj h_sabr_mix (conj h_sabr_fd h_heston_fd))))). Qed.
Print Assumptions C53_simulation_and_grids.
Theorem C53_sabr : (forall p order atm, honours_is_fwd (fun m => norm_sabr_price m p order atm)) /\ (forall p, honours_is_fwd (fun m => norm_analytic_price m p)) /\
  (forall p order, honours_is_fwd (fun m K S T (_ : R) => choiwu_h_vol m p order K S T)).
Proof. exact (conj h_norm_sabr (conj h_norm_analytic h_choiwu)). Qed.
Print Assumptions C53_sabr.
Theorem C53_spread : forall (o : spr) (bvn : R -> R -> R -> R) (cps : list R) (K : R) (S : nat -> R) (T cp : R), k_isf (sp_m o) = false ->
  let F := forwards (sp_m o) S T in let o' := spread_as_forward o in
  kirk_price o' K F T cp = kirk_price o K S T cp /\ bjerk_price o' K F T cp = bjerk_price o K S T cp /\
  max2_price bvn o' cps K F T cp = max2_price bvn o cps K S T cp.
Proof. exact h_spread. Qed.
Print Assumptions C53_spread.
Theorem C53_basket : forall (o : bsk) (K : R) (S : nat -> R) (T cp : R), k_isf (bk_m o) = false ->
  let F := forwards (bk_m o) S T in let o' := basket_as_forward o in
  norm_basket_price o' K F T cp = norm_basket_price o K S T cp /\ geo_basket_price o' K F T cp = geo_basket_price o K S T cp /\
  (forall corr, ju_price o' corr K F T cp = ju_price o corr K S T cp) /\
  (forall gc, milevsky_price gc o' K F T cp = milevsky_price gc o K S T cp) /\
  (forall p, nsvh_basket_price o' p K F T cp = nsvh_basket_price o p K S T cp) /\
  (forall x, bm1_price o' x K F T cp = bm1_price o x K S T cp) /\
  (forall v1 rows, choi_price o' v1 rows K F T cp = choi_price o v1 rows K S T cp) /\
  (forall cv anti chol zs, bsm_mc_price cv anti o' chol zs K F T cp = bsm_mc_price cv anti o chol zs K S T cp).
Proof. exact h_basket. Qed.
Print Assumptions C53_basket.

(** the pricers that ignore the flag: they misprice the call or the put at every strike as soon as intr <> divr *)
Theorem C53_refuted : (forall gc, ignores_is_fwd (invgam_price gc)) /\ (forall p n, ignores_is_fwd (fun m => heston_uncorr_price m p n)) /\
  (forall p, ignores_is_fwd (fun m => ousv_uncorr_price m p 0)) /\ (forall p n, (n <= 2)%nat -> ignores_is_fwd (fun m => garch_uncorr_price m p n)) /\
  (forall ppf mass, ignores_is_fwd (fun m K S T cp => price_from_mass_zero ppf m K S T cp mass)).
Proof. exact (conj i_invgam (conj i_heston (conj i_ousv (conj i_garch i_mass)))). Qed.
Print Assumptions C53_refuted.
(** SabrHagan2002 computes alpha from the number it is given, so the at-the-money price depends on the quoting *)
Theorem C53_hagan_refuted : forall p m S T cp, call_or_put cp -> is_fwd m = false -> intr m <> divr m -> 0 < S -> 0 < T -> 0 < b_beta p < 1 -> 0 < b_sigma p ->
  let F := S * exp ((intr m - divr m) * T) in eps < sabr_alpha p S * sqrt T -> eps < sabr_alpha p F * sqrt T ->
  hagan_price (as_forward m) p 0 F F T cp <> hagan_price m p 0 F S T cp.
Proof. exact i_hagan. Qed.
Print Assumptions C53_hagan_refuted.
(** Monte-Carlo that simulates with the drift whatever the flag: BsmNdMc grows the forward again; CevMc ends higher on every surviving path *)
Theorem C53_nd_mc_refuted : forall o chol tobs k zs S i, let F := forwards (bk_m o) S (tobs k) in
  bsm_nd_price (basket_as_forward o) chol tobs k zs F (fun x => x i) = exp ((k_r (bk_m o) - k_q (bk_m o) i) * tobs k) * bsm_nd_price o chol tobs k zs S (fun x => x i).
Proof. exact i_nd. Qed.
Print Assumptions C53_nd_mc_refuted.
Theorem C53_cev_mc_refuted : forall beta m gam pg S T, beta < 1 -> 0 < sigma m -> divr m < intr m -> 0 < S -> 0 < T ->
  (forall x, 0 < x -> 0 < pg x) -> (forall x y, 0 < x -> x < y -> pg x < pg y) -> 0 < cevmc_step beta m gam pg S T ->
  cevmc_step beta m gam pg S T < cevmc_step beta (as_forward m) gam pg (S * exp ((intr m - divr m) * T)) T.
Proof. exact i_cevmc_drift. Qed.
Print Assumptions C53_cev_mc_refuted.
Example C53_ex : exists m : opt, is_fwd m = false /\ intr m <> divr m /\ 0 < sigma m /\
  bsm_price (as_forward m) 100 (100 * exp ((intr m - divr m) * 1)) 1 1 = bsm_price m 100 100 1 1.
Proof. exists (mkOpt (1/5) (1/20) (1/50) false). cbn [is_fwd intr divr sigma]. repeat split; try lra. apply (h_bsm (mkOpt (1/5) (1/20) (1/50) false)); cbn; try reflexivity; lra. Qed.
