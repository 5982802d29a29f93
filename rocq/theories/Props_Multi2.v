(** Property theorems C66 (baskets and spreads driven by one Brownian motion) and C67 (multi-asset Monte-Carlo). *)
From Coq Require Import Reals Lra Arith Lia List.
From Coquelicot Require Import Coquelicot.
From Verif Require Import Base Gauss Sums Spec_Opt Spec_Expect Spec_Multi M_Opt M_Params M_Multi Spec_Multi2
  P_Bsm P_Expect P_OptRefute P_Conv2 P_Multi P_Multi2 P_Multi3 P_Multi4 P_Multi5 P_Multi6 P_Multi9 Props_Multi.
Import ListNotations.
Open Scope R_scope.

(** *** C66 *)
(** Whatever boundary x is used, the price is the exact value of exercising above x, so it satisfies parity and never
    exceeds the true price. *)
Theorem C66_strategy_value : forall o spot T K x,
  let B := one_factor_basket (bn o) (mk_fwd (bk_m o) spot T) (bk_w o) (fun i => ma_sigma (bk_ma o) i * sqrt T) in
  gauss_expect (fun z => mk_df (bk_m o) T * ((B z - K) * exercised x z)) (bm1_price o x K spot T 1) /\
  gauss_expect (fun z => mk_df (bk_m o) T * ((K - B z) * (1 - exercised x z))) (bm1_price o x K spot T (-1)) /\
  bm1_price o x K spot T 1 - bm1_price o x K spot T (-1) = mk_df (bk_m o) T * (basket_fwd o spot T - K) /\
  forall cp p, call_or_put cp -> gauss_expect (fun z => mk_df (bk_m o) T * payoff cp K (B z)) p -> bm1_price o x K spot T cp <= p.
Proof.
  intros. split; [apply bm1_call|]. split; [apply bm1_put|]. split; [apply bm1_parity|]. intros. eapply bm1_lower; eassumption.
Qed.
Print Assumptions C66_strategy_value.
(** At an exact root the price is exact; in general the error is at most the discounted residual of the root. Covers
    spreads (negative weights with opposite-sign loadings). *)
Theorem C66_exact_at_root : forall o spot T K,
  (forall i, (i < bn o)%nat -> 0 <= bm1_fac o spot T i * (ma_sigma (bk_ma o) i * sqrt T)) ->
  let B := one_factor_basket (bn o) (mk_fwd (bk_m o) spot T) (bk_w o) (fun i => ma_sigma (bk_ma o) i * sqrt T) in
  forall x cp, call_or_put cp ->
  (B x = K -> gauss_expect (fun z => mk_df (bk_m o) T * payoff cp K (B z)) (bm1_price o (XFin x) K spot T cp)) /\
  (forall p, gauss_expect (fun z => mk_df (bk_m o) T * payoff cp K (B z)) p -> p - bm1_price o (XFin x) K spot T cp <= mk_df (bk_m o) T * Rabs (B x - K)).
Proof. intros o spot T K Hm B x cp Hc. split; [intros; now apply bm1_exact|]. intros p Hp. eapply bm1_error; eassumption. Qed.
Print Assumptions C66_exact_at_root.
(** The root finder for positive weights: it always returns a boundary for each strike, and after its at most 32 sweeps the
    boundary overshoots the strike by at most the tolerance or the explicit geometric factor. *)
Theorem C66_root_finder : forall n fac std lo hi, (0 < n)%nat -> (forall i, (i < n)%nat -> 0 < fac i) -> 0 < lo ->
  (forall i, (i < n)%nat -> lo <= std i <= hi) -> forall strikes,
  exists res, root n fac std strikes = Some res /\ (forall K, In K strikes -> exists x, In (K, x) res) /\
  forall K x, In (K, x) res -> In K strikes /\
    match x with
    | XNeg => K <= ysum n fac std (- (9)) | XPos => ysum n fac std 9 <= K
    | XFin x => 0 < K /\ 0 <= ln (ysum n fac std x / K) <= Rmax IMPVOL_TOL ((1 - lo / hi) ^ 32 * ln (INR n))
    end.
Proof. exact root_basket. Qed.
Print Assumptions C66_root_finder.
(** The ValueError is raised exactly when some asset's contribution decreases in the common factor. *)
Theorem C66_root_raises : forall n fac std strikes, root n fac std strikes = None <-> exists i, (i < n)%nat /\ fac i * std i < 0.
Proof. exact root_raises. Qed.
Print Assumptions C66_root_raises.
(** End to end: the price computed with the root finder is between the true price and the true price minus an explicit
    error, for every list of strikes. *)
Theorem C66_price_accuracy : forall o spot T lo hi strikes, (0 < bn o)%nat -> 0 < lo -> 0 < T ->
  (forall i, (i < bn o)%nat -> lo <= ma_sigma (bk_ma o) i * sqrt T <= hi /\ 0 < spot i * bk_w o i) ->
  let s := fun i => ma_sigma (bk_ma o) i * sqrt T in
  let B := one_factor_basket (bn o) (mk_fwd (bk_m o) spot T) (bk_w o) s in
  let tol := Rmax IMPVOL_TOL ((1 - lo / hi) ^ 32 * ln (INR (bn o))) in
  exists res, root (bn o) (bm1_fac o spot T) s strikes = Some res /\
  forall K, In K strikes -> exists x, In (K, x) res /\
  forall cp p, call_or_put cp -> 0 <= K -> gauss_expect (fun z => mk_df (bk_m o) T * payoff cp K (B z)) p ->
    0 <= p - bm1_price o x K spot T cp /\
    p - bm1_price o x K spot T cp <= mk_df (bk_m o) T *
      match x with XFin _ => K * (exp tol - 1) | XNeg => K * Phi (- (9))
      | XPos => rsum (bn o) (fun i => mk_fwd (bk_m o) spot T i * bk_w o i * Phi (s i - 9)) end.
Proof. exact bm1_run. Qed.
Print Assumptions C66_price_accuracy.
Example C66_ex : (0 < bn ex_bsk)%nat /\ forall i, (i < bn ex_bsk)%nat ->
  / 5 <= ma_sigma (bk_ma ex_bsk) i * sqrt 1 <= / 5 /\ 0 < (fun _ : nat => 100) i * bk_w ex_bsk i.
Proof. split; [cbn; lia|]. intros i Hi. rewrite sqrt_1. cbn. lra. Qed.
Example C66_ex_raises : root 2 (fun i => if Nat.eqb i 0 then 1 else -1) (fun _ => / 5) [100] = None.
Proof. apply C66_root_raises. exists 1%nat. split; [lia|]. cbn. lra. Qed.

(** *** C67 *)
(** BsmNdMc: for any non-decreasing observation dates the simulated relatives have mean exp((r-q) t) and the exact
    lognormal cross moments between any two assets at any two dates. *)
Theorem C67_bsm_paths : forall o chol tobs, ok_basket o chol -> (forall s, 0 <= nd_dt tobs s) ->
  forall k l i j, (k <= l)%nat -> (i < bn o)%nat -> (j < bn o)%nat ->
  let m := fun i t => exp ((k_r (bk_m o) - k_q (bk_m o) i) * t) in
  normals_expect (S l * bn o) (fun z => bsm_nd_path o chol tobs k z i) (m i (tobs k)) /\
  normals_expect (S l * bn o) (fun z => bsm_nd_path o chol tobs k z i * bsm_nd_path o chol tobs l z j)
    (m i (tobs k) * m j (tobs l) * exp (ma_cov (bk_ma o) i j * tobs k)).
Proof. exact bsm_nd_moments. Qed.
Print Assumptions C67_bsm_paths.
Theorem C67_norm_paths : forall o chol tobs, ok_basket o chol -> (forall s, 0 <= nd_dt tobs s) ->
  forall k l i j, (k <= l)%nat -> (i < bn o)%nat -> (j < bn o)%nat ->
  normals_expect (S l * bn o) (fun z => norm_nd_path o chol tobs k z i) 0 /\
  normals_expect (S l * bn o) (fun z => norm_nd_path o chol tobs k z i * norm_nd_path o chol tobs l z j) (ma_cov (bk_ma o) i j * tobs k).
Proof. exact norm_nd_moments. Qed.
Print Assumptions C67_norm_paths.
(** price_european is unbiased for any payoff of the terminal prices, any number of paths, with or without antithetic draws. *)
Theorem C67_unbiased : forall o chol tobs k m anti spot pay p, (0 < m)%nat ->
  normals_expect (S k * bn o) (fun z => pay (fun i => bsm_nd_path o chol tobs k z i * spot i)) p ->
  normals_expect (m * (S k * bn o)) (fun Z => bsm_nd_price o chol tobs k (mc_draws anti (draws (S k * bn o) m Z)) spot pay) (exp (- k_r (bk_m o) * tobs k) * p).
Proof. exact bsm_nd_unbiased. Qed.
Print Assumptions C67_unbiased.
(** BsmNdMc reprices the discounted asset and each asset's Black-Scholes vanilla. *)
Theorem C67_bsm_reprices : forall o chol tobs, ok_basket o chol -> (forall s, 0 <= nd_dt tobs s) ->
  forall k m anti spot i, (0 < m)%nat -> (i < bn o)%nat ->
  normals_expect (m * (S k * bn o)) (fun Z => bsm_nd_price o chol tobs k (mc_draws anti (draws (S k * bn o) m Z)) spot (fun x => x i)) (spot i * exp (- k_q (bk_m o) i * tobs k)) /\
  forall K cp, call_or_put cp -> 0 < K -> 0 < spot i -> 0 < ma_sigma (bk_ma o) i -> 0 < tobs k -> eps <= ma_sigma (bk_ma o) i * sqrt (tobs k) ->
  normals_expect (m * (S k * bn o)) (fun Z => bsm_nd_price o chol tobs k (mc_draws anti (draws (S k * bn o) m Z)) spot (fun x => payoff cp K (x i)))
    (bsm_price (mkOpt (ma_sigma (bk_ma o) i) (k_r (bk_m o)) (k_q (bk_m o) i) false) K (spot i) (tobs k) cp).
Proof.
  intros o chol tobs HO Ht k m anti spot i Hm Hi. split; [now apply bsm_nd_forward|]. intros. now apply bsm_nd_vanilla.
Qed.
Print Assumptions C67_bsm_reprices.
(** NormNdMc: the discounted asset is repriced at spot exp(-r T) whatever the dividend rate ... *)
Theorem C67_norm_forward : forall o chol tobs, ok_basket o chol -> (forall s, 0 <= nd_dt tobs s) ->
  forall k m anti spot i, (0 < m)%nat -> (i < bn o)%nat ->
  normals_expect (m * (S k * bn o)) (fun Z => norm_nd_price o chol tobs k (mc_draws anti (draws (S k * bn o) m Z)) spot (fun x => x i)) (spot i * exp (- k_r (bk_m o) * tobs k)).
Proof. exact norm_nd_forward. Qed.
Print Assumptions C67_norm_forward.
(** ... so with rate 5%, dividend 2% it does not reprice the underlying at spot exp(-q T). *)
Theorem C67_norm_forward_refuted : exists o chol tobs k m spot i, ok_basket o chol /\ (forall s, 0 <= nd_dt tobs s) /\ (0 < m)%nat /\ (i < bn o)%nat /\
  ~ normals_expect (m * (S k * bn o)) (fun Z => norm_nd_price o chol tobs k (mc_draws false (draws (S k * bn o) m Z)) spot (fun x => x i)) (spot i * exp (- k_q (bk_m o) i * tobs k)).
Proof.
  exists ex_bsk, ex_chol, (fun _ => 1), 0%nat, 1%nat, (fun _ => 100), 0%nat.
  assert (Hs : forall s, 0 <= nd_dt (fun _ => 1) s) by (intros [|s]; unfold nd_dt; lra).
  split; [apply ex_ok|]. split; [exact Hs|]. split; [lia|]. split; [cbn; lia|]. intros H.
  pose proof (norm_nd_forward ex_bsk ex_chol (fun _ => 1) ex_ok Hs 0%nat 1%nat false (fun _ => 100) 0%nat ltac:(lia) ltac:(cbn; lia)) as G.
  pose proof (normals_unique _ _ _ _ H G) as E. cbn [bk_m ex_bsk k_q k_r] in E.
  assert (exp (- / 20 * 1) < exp (- / 50 * 1)) by (apply exp_increasing; lra). lra.
Qed.
Print Assumptions C67_norm_forward_refuted.
(** BsmBasketMc: unbiased for the true basket price with every control variate and with antithetic draws. *)
Theorem C67_basket_unbiased : forall cv anti m o chol K spot T cp p, call_or_put cp -> 0 < T -> 0 < K -> (0 < m)%nat -> ok_basket o chol ->
  (forall i j, (i < bn o)%nat -> (j < bn o)%nat -> ma_cov (bk_ma o) i j = ma_sigma (bk_ma o) j * ma_cor (bk_ma o) i j * ma_sigma (bk_ma o) i) ->
  match cv with CvNone => True | CvGeo => eps <= sqrt (basket_var o) * sqrt T /\ 0 < basket_fwd o spot T
  | CvNorm => eps <= sqrt (basket_var (norm_ctrl o (mk_fwd (bk_m o) spot T))) * sqrt T end ->
  normals_expect (bn o) (fun z => mk_df (bk_m o) T * payoff cp K (ln_basket (bn o) (mk_fwd (bk_m o) spot T) (bk_w o) chol (ma_cov (bk_ma o)) T z)) p ->
  normals_expect (m * bn o) (fun Z => bsm_mc_price cv anti o chol (draws (bn o) m Z) K spot T cp) p.
Proof. exact bsm_mc_unbiased. Qed.
Print Assumptions C67_basket_unbiased.
(** With one asset the geometric control variate removes all simulation noise: the result is the Black-Scholes price for
    every set of draws. *)
Theorem C67_single_asset_exact : forall anti o chol zs K spot T cp, bn o = 1%nat -> bk_w o 0%nat = 1 -> 0 <= ma_sigma (bk_ma o) 0%nat ->
  ma_cov (bk_ma o) 0%nat 0%nat = ma_sigma (bk_ma o) 0%nat ^ 2 ->
  bsm_mc_price CvGeo anti o chol zs K spot T cp = mk_df (bk_m o) T * bsm_price_formula K (mk_fwd (bk_m o) spot T 0%nat) (ma_sigma (bk_ma o) 0%nat) T cp 0 0 true.
Proof. exact bsm_mc_single. Qed.
Print Assumptions C67_single_asset_exact.
(** Sample parity: call - put = DF (sample mean of the basket - K), every sample. *)
Theorem C67_sample_parity : forall df K B, B <> [] -> mc_mean df 1 K B - mc_mean df (-1) K B = df * (lmean B - K).
Proof. exact mc_mean_parity. Qed.
Print Assumptions C67_sample_parity.
Example C67_ex : ok_basket ex_bsk ex_chol /\ (forall s, 0 <= nd_dt (fun k => INR (S k) / 4) s) /\
  forall i j, (i < bn ex_bsk)%nat -> (j < bn ex_bsk)%nat -> ma_cov (bk_ma ex_bsk) i j = ma_sigma (bk_ma ex_bsk) j * ma_cor (bk_ma ex_bsk) i j * ma_sigma (bk_ma ex_bsk) i.
Proof.
  split; [apply ex_ok|]. split.
  - intros [|s]; unfold nd_dt; [cbn; lra|]. rewrite (S_INR (S s)). lra.
  - intros i j Hi Hj. cbn in *. destruct (Nat.eqb i j); lra.
Qed.
