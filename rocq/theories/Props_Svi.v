(** Property theorems C50: the SVI surface. *)
From Coq Require Import Reals Lra.
From Coquelicot Require Import Coquelicot.
From Verif Require Import Base Gauss Spec_Opt Spec_Expect M_Opt P_Bsm P_Expect M_Svi Spec_Svi P_Svi.
Open Scope R_scope.

(** The minimum, attained, and hence exactly when the variance is non-negative everywhere. *)
Theorem C50_minimum : forall m, -1 < s_rho m < 1 -> 0 <= s_vov m ->
  let vmin := s_sigma m + s_vov m * (Rabs (s_smooth m) * sqrt (1 - s_rho m ^ 2)) in
  (forall k, vmin <= svi_var m k) /\
  svi_var m (s_shift m - s_rho m * Rabs (s_smooth m) / sqrt (1 - s_rho m ^ 2)) = vmin /\
  ((forall k, 0 <= svi_var m k) <-> 0 <= vmin).
Proof.
  intros m Hr Hv vmin. split; [intros; now apply svi_min|]. split; [now apply svi_argmin|]. split.
  - intros H. unfold vmin. rewrite <- (svi_argmin m Hr). apply H.
  - intros H k. pose proof (svi_min m k Hr Hv). unfold vmin in H. lra.
Qed.
Print Assumptions C50_minimum.
Theorem C50_convex : forall m, 0 <= s_vov m -> convex_fun (svi_var m).
Proof. exact svi_convex. Qed.
Print Assumptions C50_convex.
(** Wings: linear asymptotes with slopes vov (1 + rho) and vov (1 - rho), with an explicit error. *)
Theorem C50_wings : forall m, 0 <= s_vov m -> forall z, 0 < z ->
  0 <= svi_var m (s_shift m + z) - (s_sigma m + s_vov m * (1 + s_rho m) * z) <= s_vov m * (s_smooth m ^ 2 / (2 * z)) /\
  0 <= svi_var m (s_shift m - z) - (s_sigma m + s_vov m * (1 - s_rho m) * z) <= s_vov m * (s_smooth m ^ 2 / (2 * z)).
Proof. exact svi_wings. Qed.
Print Assumptions C50_wings.
(** Prices: parity always; above the volatility floor the price is the lognormal expected payoff with variance svi_var at the
    log-moneyness ln(K/F). *)
Theorem C50_price : forall m K S T, let F := FWD (s_r m) (s_q m) (s_isf m) S T in let D := DF (s_r m) T in
  svi_price m K S T 1 - svi_price m K S T (-1) = D * (F - K) /\
  forall cp, call_or_put cp -> 0 < K -> 0 < S -> 0 < T -> let v := svi_var m (ln (K / F)) in eps ^ 2 <= v * T ->
  gauss_expect (fun z => D * payoff cp K (F * exp (sqrt (v * T) * z - v * T / 2))) (svi_price m K S T cp).
Proof.
  intros m K S T F D. split.
  - unfold svi_price. rewrite (bsm_parity (svi_base m (svi_vol m K S T)) K S T). reflexivity.
  - intros cp Hc HK HS HT v Hv.
    assert (e0 : 0 < eps) by exact eps_pos. assert (V0 : 0 <= v) by (destruct (Rle_lt_dec 0 v) as [|N]; [assumption|exfalso; nra]).
    assert (E : svi_vol m K S T * sqrt T = sqrt (v * T)) by (rewrite sqrt_mult by lra; reflexivity).
    assert (V1 : eps <= sqrt (v * T)) by (rewrite <- (sqrt_pow2 eps) by lra; apply sqrt_le_1_alt; exact Hv).
    pose proof (bsm_expect (svi_base m (svi_vol m K S T)) K S T cp Hc HK HS) as B. cbn [sigma intr divr is_fwd svi_base] in B. rewrite E in B. specialize (B V1).
    unfold svi_price. eapply gauss_expect_ext; [|exact B]. intros z. cbv beta. unfold svi_base. fold F. fold D. rewrite sqrt_sqrt by nra. reflexivity.
Qed.
Print Assumptions C50_price.
(** What init_from_heston computes: the Gatheral-Jacquier smile with w2 = sigma/(mr theta). *)
Theorem C50_from_heston : forall sigma vov rho mr theta texp r q isf k, 0 < sigma -> 0 < vov -> -1 < rho < 1 -> 0 < mr -> 0 < theta -> 0 < texp ->
  svi_var (svi_from_heston sigma vov rho mr theta texp r q isf) k = gj_smile (gj_w1 mr theta vov rho) (sigma / (mr * theta)) rho (k / texp).
Proof. exact from_heston. Qed.
Print Assumptions C50_from_heston.
(** The smile with w2 = vov/(mr theta) is the large-maturity Heston smile: for every moneyness per unit time its constant-variance
    rate function equals that of the Heston model. *)
Theorem C50_heston_limit : forall mr theta vov rho x, 0 < mr -> 0 < theta -> 0 < vov -> -1 < rho < 1 ->
  let w := gj_smile (gj_w1 mr theta vov rho) (vov / (mr * theta)) rho x in
  0 < w /\ exists rate, is_max_on (heston_dom mr vov rho) (fun u => u * x - heston_cgf mr theta vov rho u) rate /\
    is_max_on (fun _ => True) (fun u => u * x - bs_cgf w u) rate.
Proof.
  intros mr theta vov rho x Hm Ht Hv Hr w. pose proof (smile_pos mr theta vov rho Hm Ht Hv Hr x) as W. split; [exact W|].
  exists (rate mr theta vov rho x). split; [now apply heston_max|]. rewrite <- (smile_rate mr theta vov rho Hm Ht Hv Hr x). now apply bs_max.
Qed.
Print Assumptions C50_heston_limit.
(** "init_from_heston gives the equivalent Heston smile" is false: the initial variance is used where the vol of vol belongs. *)
Theorem C50_from_heston_refuted : exists sigma vov rho mr theta texp k, 0 < sigma /\ 0 < vov /\ -1 < rho < 1 /\ 0 < mr /\ 0 < theta /\ 0 < texp /\
  svi_var (svi_from_heston sigma vov rho mr theta texp 0 0 false) k <> gj_smile (gj_w1 mr theta vov rho) (vov / (mr * theta)) rho (k / texp).
Proof.
  exists (3 / 4), (4 / 3), 0, 1, 1, 1, 1. repeat (split; [lra|]). rewrite from_heston by lra. intros H.
  pose proof (smile_pos 1 1 (4 / 3) 0 ltac:(lra) ltac:(lra) ltac:(lra) ltac:(lra) (1 / 1)) as W. unfold gj_smile in *. set (w1 := gj_w1 1 1 (4 / 3) 0) in *. clearbody w1.
  replace ((3 / 4 / (1 * 1) * (1 / 1) + 0) ^ 2 + (1 - 0 ^ 2)) with ((5 / 4) ^ 2) in H by field. replace ((4 / 3 / (1 * 1) * (1 / 1) + 0) ^ 2 + (1 - 0 ^ 2)) with ((5 / 3) ^ 2) in * by field.
  rewrite !sqrt_pow2 in * by lra. nra.
Qed.
Print Assumptions C50_from_heston_refuted.
Definition svi_ex : svi := mkSvi (/ 100) (/ 10) (- (2 / 5)) (/ 10) 0 (/ 20) (/ 10) false.
Example C50_ex : -1 < s_rho svi_ex < 1 /\ 0 <= s_vov svi_ex /\ 0 <= s_sigma svi_ex + s_vov svi_ex * (Rabs (s_smooth svi_ex) * sqrt (1 - s_rho svi_ex ^ 2)).
Proof.
  cbn [svi_ex s_rho s_vov s_sigma s_smooth]. split; [lra|]. split; [lra|]. rewrite Rabs_right by lra. pose proof (sqrt_pos (1 - (- (2 / 5)) ^ 2)). lra.
Qed.
