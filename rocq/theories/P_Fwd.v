From Coq Require Import Reals Lra Lia List FunctionalExtensionality.
From Coquelicot Require Import Coquelicot.
From Verif Require Import Base Gauss Sums M_Opt M_Numeric M_Params M_Mgf M_Cos M_Cache M_Mc M_Heston M_Fd M_Sabr M_Cev M_Svi M_Garch M_Recip M_Multi Spec_Opt Spec_Fwd P_Bsm P_Norm P_Recip P_Recip2 P_Garch3.
Open Scope R_scope.

Lemma fdd_fwd m S T : is_fwd m = false -> exists d, fwd_df_divf m S T = (S * exp ((intr m - divr m) * T), exp (- intr m * T), d).
Proof.
  intros H. unfold fwd_df_divf. rewrite H. eexists. f_equal. f_equal. unfold Rdiv. rewrite Rmult_assoc. f_equal.
  rewrite <- exp_Ropp, <- exp_plus. f_equal. ring.
Qed.
Lemma fdd_as m S T : fwd_df_divf (as_forward m) S T = (S, exp (- intr m * T), 1).
Proof. reflexivity. Qed.
Lemma fwd_as m S T : forward (as_forward m) S T = S.
Proof. reflexivity. Qed.
Lemma fwd_sp m S T : is_fwd m = false -> forward m S T = S * exp ((intr m - divr m) * T).
Proof. intros H. unfold forward. rewrite H. reflexivity. Qed.
Ltac fdd := intros m K S T cp Hf HK HS; destruct (fdd_fwd m S T Hf) as [d Ed].

Lemma ratio_exp r q T : exp (- T * q) / exp (- T * r) = exp ((r - q) * T).
Proof. unfold Rdiv. rewrite <- exp_Ropp, <- exp_plus. f_equal. ring. Qed.
Lemma bsm_formula_fwd K S s T cp r q : bsm_price_formula K (S * exp ((r - q) * T)) s T cp r q true = bsm_price_formula K S s T cp r q false.
Proof. unfold bsm_price_formula. cbv zeta iota. rewrite ratio_exp, Rmult_1_r. reflexivity. Qed.
Lemma norm_formula_fwd K S s T cp r q : norm_price_formula K (S * exp ((r - q) * T)) s T cp r q true = norm_price_formula K S s T cp r q false.
Proof. unfold norm_price_formula. cbv zeta iota. rewrite ratio_exp, Rmult_1_r. reflexivity. Qed.
Lemma h_bsm : honours_is_fwd bsm_price.
Proof. intros m K S T cp Hf _ _. unfold bsm_price. cbn [as_forward sigma intr divr is_fwd]. rewrite Hf. apply bsm_formula_fwd. Qed.
Lemma h_norm : honours_is_fwd norm_price.
Proof. intros m K S T cp Hf _ _. unfold norm_price. cbn [as_forward sigma intr divr is_fwd]. rewrite Hf. apply norm_formula_fwd. Qed.
Lemma h_cev cdf sf beta : honours_is_fwd (cev_price cdf sf beta).
Proof.
  intros m K S T cp Hf _ _. unfold cev_price. cbn [as_forward sigma intr divr is_fwd]. rewrite Hf. unfold cev_price_formula. cbv zeta iota. rewrite ratio_exp, Rmult_1_r. reflexivity.
Qed.
Lemma h_cos re im n a b : honours_is_fwd (fun m => cos_price m re im n a b).
Proof. fdd. unfold cos_price. rewrite fdd_as, Ed. reflexivity. Qed.
Lemma h_lefloch re im n a b : honours_is_fwd (fun m => lefloch_price m re im n a b).
Proof. fdd. unfold lefloch_price. rewrite fdd_as, Ed. reflexivity. Qed.
Lemma h_hcos p L c1 re im n : honours_is_fwd (fun m => hcos_price m p L c1 re im n).
Proof. fdd. unfold hcos_price, hcos_range. rewrite fdd_as, Ed. reflexivity. Qed.
Lemma h_fft sp : honours_is_fwd (fun m => fft_price m sp).
Proof. fdd. unfold fft_price. rewrite fdd_as, Ed. reflexivity. Qed.
Lemma h_simpson sp : honours_is_fwd (fun m => simpson_price m sp).
Proof. fdd. unfold simpson_price. rewrite fdd_as, Ed. reflexivity. Qed.
Lemma h_subo o nodes : honours_is_fwd (fun m => subo_quad_price m o nodes).
Proof. fdd. unfold subo_quad_price. rewrite fdd_as, Ed. reflexivity. Qed.
Lemma h_sabr_fd p N M L th : honours_is_fwd (fun m => sabr_fd_price m p N M L th).
Proof. fdd. unfold sabr_fd_price. rewrite fdd_as, Ed. reflexivity. Qed.
Lemma h_heston_fd p cev N M L th : honours_is_fwd (fun m => heston_fd_price m p cev N M L th).
Proof. fdd. unfold heston_fd_price. rewrite fdd_as, Ed. reflexivity. Qed.
Lemma h_norm_analytic p : honours_is_fwd (fun m => norm_analytic_price m p).
Proof. fdd. unfold norm_analytic_price. rewrite fdd_as, Ed. reflexivity. Qed.
Lemma h_nsvh1 p atm : honours_is_fwd (fun m => nsvh1_price m p atm).
Proof. fdd. unfold nsvh1_price. rewrite fdd_as, Ed. reflexivity. Qed.
Lemma h_invgauss igc igs : honours_is_fwd (invgauss_price igc igs).
Proof. fdd. unfold invgauss_price. rewrite fdd_as, Ed. reflexivity. Qed.
Lemma h_norm_sabr p order atm : honours_is_fwd (fun m => norm_sabr_price m p order atm).
Proof.
  intros m K S T cp Hf HK HS. unfold norm_sabr_price. unfold norm_sabr_vol. rewrite fwd_as, (fwd_sp m S T Hf). cbv zeta.
  match goal with |- norm_price (set_sigma _ ?v) _ _ _ _ = _ => exact (h_norm (set_sigma m v) K S T cp Hf HK HS) end.
Qed.
Lemma h_choiwu p order : honours_is_fwd (fun m K S T (_ : R) => choiwu_h_vol m p order K S T).
Proof. fdd. unfold choiwu_h_vol. rewrite fdd_as, Ed. reflexivity. Qed.
Lemma h_sabr_mc cevp p cf paths : honours_is_fwd (fun m => sabr_mc_price cevp m p cf paths).
Proof. intros m K S T cp Hf HK HS. unfold sabr_mc_price. rewrite fwd_as, (fwd_sp m S T Hf). reflexivity. Qed.
Lemma h_sabr_mix cevp p cf nodes : honours_is_fwd (fun m => sabr_mix_price cevp m p cf nodes).
Proof. intros m K S T cp Hf HK HS. unfold sabr_mix_price. rewrite fwd_as, (fwd_sp m S T Hf). reflexivity. Qed.
Lemma h_svi sv vov rho sm sh : honours_is_fwd (fun m => svi_price (mkSvi sv vov rho sm sh (intr m) (divr m) (is_fwd m))).
Proof.
  intros m K S T cp Hf HK HS. unfold svi_price, svi_vol, svi_base, forward. cbn [s_r s_q s_isf s_sigma s_vov s_rho s_smooth s_shift is_fwd intr divr as_forward]. rewrite Hf.
  unfold svi_var. cbn [s_r s_q s_isf s_sigma s_vov s_rho s_smooth s_shift].
  match goal with |- bsm_price (mkOpt ?v _ _ _) _ _ _ _ = _ => exact (h_bsm (mkOpt v (intr m) (divr m) false) K S T cp eq_refl HK HS) end.
Qed.

(** conditional Monte-Carlo: homogeneity *)
Lemma bsm_scale (K f g s T cp r q : R) : 0 < g -> bsm_price_formula (K / g) f s T cp r q true * g = bsm_price_formula K (f * g) s T cp r q true.
Proof.
  intros Hg. unfold bsm_price_formula. cbv zeta iota. replace (f * 1 / (K / g)) with (f * g * 1 / K); [field; lra|]. unfold Rdiv. rewrite Rinv_mult, Rinv_inv. ring.
Qed.
Lemma cond_term m K S T cp x f : is_fwd m = false -> 0 < S -> let g := exp ((intr m - divr m) * T) in
  S * g * bsm_price (set_sigma (as_forward m) x) (K / (S * g)) f T cp = S * bsm_price (set_sigma m x) (K / S) f T cp.
Proof.
  intros Hf HS g. assert (Hg : 0 < g) by apply exp_pos. unfold bsm_price. cbn [set_sigma as_forward sigma intr divr is_fwd]. rewrite Hf, <- bsm_formula_fwd. fold g.
  rewrite <- (bsm_scale (K / S) f g) by exact Hg. replace (K / (S * g)) with (K / S / g) by (field; lra). ring.
Qed.
Lemma lsum_scal {A} (c : R) (F : A -> R) l : c * lsum (map F l) = lsum (map (fun a => c * F a) l).
Proof. symmetry. apply lsum_map_scal. Qed.
Lemma lmean_scal {A} (c : R) (F : A -> R) l : c * lmean (map F l) = lmean (map (fun a => c * F a) l).
Proof. unfold lmean. rewrite !map_length, <- lsum_scal. unfold Rdiv. ring. Qed.
Lemma h_cond_mc cf sg samples : honours_is_fwd (fun m => cond_mc_price m cf sg samples).
Proof.
  intros m K S T cp Hf HK HS. unfold cond_mc_price. cbv zeta. rewrite !lmean_scal. f_equal. apply map_ext. intros [f s].
  exact (cond_term m K S T cp _ _ Hf HS).
Qed.
Lemma h_mixture cf sg samples : honours_is_fwd (fun m => mixture_price m cf sg samples).
Proof.
  intros m K S T cp Hf HK HS. unfold mixture_price. rewrite !lsum_scal. f_equal. apply map_ext. intros [[f s] w]. rewrite <- !Rmult_assoc. f_equal.
  exact (cond_term m K S T cp _ _ Hf HS).
Qed.

(** ** several assets *)
Lemma mkf m S T : k_isf m = false -> mk_fwd m S T = forwards m S T.
Proof.
  intros H. apply functional_extensionality. intros i. unfold mk_fwd, forwards, mk_df. rewrite H. unfold Rdiv. rewrite Rmult_assoc. f_equal. rewrite <- exp_Ropp, <- exp_plus. f_equal. ring.
Qed.
Lemma mkf_as m F T : mk_fwd (as_forward_n m) F T = F.
Proof. apply functional_extensionality. reflexivity. Qed.
Lemma h_spread (o : spr) (bvn : R -> R -> R -> R) (cps : list R) (K : R) (S : nat -> R) (T cp : R) : k_isf (sp_m o) = false ->
  kirk_price (spread_as_forward o) K (forwards (sp_m o) S T) T cp = kirk_price o K S T cp /\
  bjerk_price (spread_as_forward o) K (forwards (sp_m o) S T) T cp = bjerk_price o K S T cp /\
  max2_price bvn (spread_as_forward o) cps K (forwards (sp_m o) S T) T cp = max2_price bvn o cps K S T cp.
Proof.
  intros H. unfold kirk_price, bjerk_price, max2_price. cbn [spread_as_forward sp_m sp_s1 sp_s2 sp_rho]. rewrite mkf_as, (mkf _ S T H). repeat split.
Qed.
Lemma h_basket (o : bsk) (K : R) (S : nat -> R) (T cp : R) : k_isf (bk_m o) = false -> let F := forwards (bk_m o) S T in let o' := basket_as_forward o in
  norm_basket_price o' K F T cp = norm_basket_price o K S T cp /\ geo_basket_price o' K F T cp = geo_basket_price o K S T cp /\
  (forall corr, ju_price o' corr K F T cp = ju_price o corr K S T cp) /\
  (forall gc, milevsky_price gc o' K F T cp = milevsky_price gc o K S T cp) /\
  (forall p, nsvh_basket_price o' p K F T cp = nsvh_basket_price o p K S T cp) /\
  (forall x, bm1_price o' x K F T cp = bm1_price o x K S T cp) /\
  (forall v1 rows, choi_price o' v1 rows K F T cp = choi_price o v1 rows K S T cp) /\
  (forall cv anti chol zs, bsm_mc_price cv anti o' chol zs K F T cp = bsm_mc_price cv anti o chol zs K S T cp).
Proof.
  intros H F o'. assert (E : mk_fwd (bk_m o') F T = F) by apply mkf_as. pose proof (mkf _ S T H) as E'. fold F in E'.
  assert (B : basket_fwd o' F T = basket_fwd o S T) by (unfold basket_fwd; rewrite E, E'; reflexivity).
  refine (conj _ (conj _ (conj _ (conj _ (conj _ (conj _ (conj _ _))))))).
  - unfold norm_basket_price. rewrite B. reflexivity.
  - unfold geo_basket_price. rewrite B. reflexivity.
  - intros corr. unfold ju_price. rewrite E, E'. reflexivity.
  - intros gc. unfold milevsky_price. rewrite E, E'. reflexivity.
  - intros p. unfold nsvh_basket_price. rewrite B. reflexivity.
  - intros x. unfold bm1_price. rewrite E, E'. reflexivity.
  - intros v1 rows. unfold choi_price. rewrite E, E'. reflexivity.
  - intros cv anti chol zs. unfold bsm_mc_price, bsm_mc_B. rewrite E, E'. reflexivity.
Qed.

(** ** pricers that ignore the flag *)
Lemma fwd_neq m K S T (c p c' p' D : R) : intr m <> divr m -> 0 < S -> 0 < T -> 0 < D ->
  let g := exp ((intr m - divr m) * T) in
  c' - p' = D * (S * g * g - K) -> c - p = D * (S * g - K) -> c' <> c \/ p' <> p.
Proof.
  intros Hr HS HT HD g E' E. destruct (Req_dec c' c) as [->|N]; [right|now left]. intros ->. rewrite E in E'. apply Rmult_eq_reg_l in E'; [|lra].
  assert (Hg : 0 < g) by apply exp_pos. assert (X : g = 1) by (apply (Rmult_eq_reg_l (S * g)); [lra|apply Rgt_not_eq, Rmult_lt_0_compat; assumption]).
  unfold g in X. rewrite <- exp_0 in X. apply exp_inv in X. apply Rmult_integral in X. lra.
Qed.
Lemma ign (price : opt -> R -> R -> R -> R -> R) (D : opt -> R -> R) : (forall m T, 0 < D m T) -> (forall m T, D (as_forward m) T = D m T) ->
  (forall m K S T, 0 < sigma m -> 0 < K -> 0 < S -> 0 < T -> price m K S T 1 - price m K S T (-1) = D m T * (S * exp ((intr m - divr m) * T) - K)) ->
  ignores_is_fwd price.
Proof.
  intros HD HA HP m K S T Hf Hr Hs HK HS HT. assert (Hg : 0 < S * exp ((intr m - divr m) * T)) by (apply Rmult_lt_0_compat; [assumption|apply exp_pos]).
  pose proof (HP (as_forward m) K _ T Hs HK Hg HT) as A. pose proof (HP m K S T Hs HK HS HT) as B. rewrite HA in A. cbn [as_forward intr divr] in A.
  destruct (fwd_neq m K S T _ _ _ _ (D m T) Hr HS HT (HD m T) A B) as [N|N]; [exists 1|exists (-1)]; auto.
Qed.
Lemma i_invgam gc : ignores_is_fwd (invgam_price gc).
Proof.
  apply (ign _ (fun m T => DF (intr m) T)); [intros; unfold DF; apply exp_pos|reflexivity|]. intros m K S T Hs HK HS HT. apply invgam_par; try assumption.
  apply Rmult_lt_0_compat; [now apply pow_lt|assumption].
Qed.
Lemma i_heston p n : ignores_is_fwd (fun m => heston_uncorr_price m p n).
Proof. apply (ign _ (fun m T => DF (intr m) T)); [intros; unfold DF; apply exp_pos|reflexivity|]. intros m K S T _ _ _ _. apply heston_uncorr_parity. Qed.
Lemma i_bsm_at (sg : opt -> R -> R -> R -> R) : 
  (forall m K S T, let b := mkOpt (sg m K S T) (intr m) (divr m) false in bsm_price b K S T 1 - bsm_price b K S T (-1) = DF (intr m) T * (S * exp ((intr m - divr m) * T) - K)).
Proof. intros m K S T b. exact (bsm_parity b K S T). Qed.
Lemma i_ousv p : ignores_is_fwd (fun m => ousv_uncorr_price m p 0).
Proof.
  intros m K S T Hf Hr Hs HK HS HT. cbn [ousv_uncorr_price Nat.ltb Nat.leb]. 
  assert (I : ignores_is_fwd (fun m K S T cp => match ousv_uncorr_price m p 0 K S T cp with Some v => v | None => 0 end)).
  { apply (ign _ (fun m T => DF (intr m) T)); [intros; unfold DF; apply exp_pos|reflexivity|]. intros m' K' S' T' _ _ _ _. exact (ousv_uncorr_parity m' p 0%nat K' S' T' _ _ eq_refl eq_refl). }
  destruct (I m K S T Hf Hr Hs HK HS HT) as (cp & Hc & N). exists cp. split; [exact Hc|]. intros E. apply N. unfold ousv_uncorr_price in *. cbn [Nat.ltb Nat.leb] in *. injection E. auto.
Qed.
Lemma i_garch p n : (n <= 2)%nat -> ignores_is_fwd (fun m => garch_uncorr_price m p n).
Proof.
  intros Hn m K S T Hf Hr Hs HK HS HT.
  assert (Hv : forall m K S T cp, exists v, garch_uncorr_price m p n K S T cp = Some v).
  { intros m' K' S' T' cp. unfold garch_uncorr_price. destruct garch_avgvar_mv as [a v]. destruct (Nat.eqb n 2); [eauto|]. destruct (Nat.ltb 2 n) eqn:E; [apply Nat.ltb_lt in E; lia|eauto]. }
  assert (I : ignores_is_fwd (fun m K S T cp => match garch_uncorr_price m p n K S T cp with Some v => v | None => 0 end)).
  { apply (ign _ (fun m T => DF (intr m) T)); [intros; unfold DF; apply exp_pos|reflexivity|]. intros m' K' S' T' _ _ _ _.
    destruct (Hv m' K' S' T' 1) as [c Ec]. destruct (Hv m' K' S' T' (-1)) as [d Ed]. rewrite Ec, Ed. exact (garch_uncorr_parity m' p n K' S' T' _ _ Ec Ed). }
  destruct (I m K S T Hf Hr Hs HK HS HT) as (cp & Hc & N). exists cp. split; [exact Hc|]. intros E. apply N. cbv beta in E. rewrite E. reflexivity.
Qed.
Lemma i_mass ppf mass : ignores_is_fwd (fun m K S T cp => price_from_mass_zero ppf m K S T cp mass).
Proof.
  intros m K S T Hf Hr Hs HK HS HT. set (g := exp ((intr m - divr m) * T)).
  assert (P : forall m K S T, price_from_mass_zero ppf m K S T 1 mass - price_from_mass_zero ppf m K S T (-1) mass = S - K).
  { intros m' K' S' T'. unfold price_from_mass_zero. rewrite bsm_parity. unfold DF, FWD. cbn [intr divr is_fwd]. replace (- (0 * T')) with 0 by ring. replace ((0 - 0) * T') with 0 by ring. rewrite exp_0. ring. }
  pose proof (P (as_forward m) K (S * g) T) as A. pose proof (P m K S T) as B.
  destruct (Req_dec (price_from_mass_zero ppf (as_forward m) K (S * g) T 1 mass) (price_from_mass_zero ppf m K S T 1 mass)) as [E|N]; [|exists 1; auto].
  exists (-1). split; [auto|]. intros E'. fold g in E'. rewrite E, E' in A. assert (X : g = 1) by (apply (Rmult_eq_reg_l S); lra).
  unfold g in X. rewrite <- exp_0 in X. apply exp_inv in X. apply Rmult_integral in X. lra.
Qed.
(** BsmNdMc simulates with the drift whatever the flag: the underlying quoted by its forward grows twice *)
Lemma i_nd o chol tobs k zs S i : let F := forwards (bk_m o) S (tobs k) in
  bsm_nd_price (basket_as_forward o) chol tobs k zs F (fun x => x i) = exp ((k_r (bk_m o) - k_q (bk_m o) i) * tobs k) * bsm_nd_price o chol tobs k zs S (fun x => x i).
Proof.
  intros F. unfold bsm_nd_price, F, forwards, basket_as_forward. cbn [bk_m as_forward_n k_r]. unfold lmean, Rdiv. rewrite !map_length. rewrite <- !Rmult_assoc. f_equal.
  rewrite (Rmult_comm (exp ((k_r _ - _) * _))), !Rmult_assoc. f_equal. rewrite lsum_scal. f_equal. apply map_ext. intros z. unfold bsm_nd_path, bn. cbn [bk_m as_forward_n k_r k_q bk_ma]. ring.
Qed.
(** CevMc: the step does not look at the flag *)
Lemma i_cevmc beta m gam pg S dt : cevmc_step beta (as_forward m) gam pg S dt = cevmc_step beta m gam pg S dt.
Proof. reflexivity. Qed.
