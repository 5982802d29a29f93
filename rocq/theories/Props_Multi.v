(** Property theorems C43-C45: spread, max-of-two and basket options (multiasset.py). *)
From Coq Require Import Reals Lra Arith Lia List.
From Coquelicot Require Import Coquelicot.
From Verif Require Import Base Gauss Sums Spec_Opt Spec_Expect Spec_Multi M_Opt M_Params M_Fd M_Sabr M_Multi Spec_Multi2
  P_Bsm P_Expect P_OptRefute P_Multi P_Multi2 P_Multi3 P_Multi7 P_Multi8.
Import ListNotations.
Open Scope R_scope.

(** *** C43: spread and two-asset options *)
(** Kirk and Bjerksund-Stensland: call - put = DF (F1 - F2 - K), all inputs. *)
Theorem C43_spread_parity : forall o K spot T,
  let v := mk_df (sp_m o) T * (mk_fwd (sp_m o) spot T 0%nat - mk_fwd (sp_m o) spot T 1%nat - K) in
  kirk_price o K spot T 1 - kirk_price o K spot T (-1) = v /\ bjerk_price o K spot T 1 - bjerk_price o K spot T (-1) = v.
Proof. intros. split; [apply kirk_parity|apply bjerk_parity]. Qed.
Print Assumptions C43_spread_parity.
(** Both are Margrabe's exchange option at zero strike: the exact discounted expectation of the payoff S1 - S2. *)
Theorem C43_exchange_exact : forall o spot T cp, valid_spread o spot T -> call_or_put cp ->
  let X1 := asset1 (mk_fwd (sp_m o) spot T 0%nat) (sp_s1 o) T in
  let X2 := asset2 (mk_fwd (sp_m o) spot T 1%nat) (sp_s2 o) (sp_rho o) T in
  normals_expect 2 (fun z => mk_df (sp_m o) T * payoff cp 0 (X1 z - X2 z)) (bjerk_price o 0 spot T cp) /\
  (eps <= spread_vol o * sqrt T -> normals_expect 2 (fun z => mk_df (sp_m o) T * payoff cp 0 (X1 z - X2 z)) (kirk_price o 0 spot T cp)).
Proof.
  intros o spot T cp V Hcp X1 X2. split; [now apply bjerk_exchange|]. intros He. rewrite kirk_bjerk_zero by assumption. now apply bjerk_exchange.
Qed.
Print Assumptions C43_exchange_exact.
(** For any strike the Bjerksund-Stensland price is the exact discounted value of exercising by the rule
    S1 >= a S2^b / E[S2^b] (whose normalisation E[S2^b] is the expectation it claims to be) ... *)
Theorem C43_bjerksund_strategy : forall o K spot T, valid_spread o spot T ->
  let f1 := mk_fwd (sp_m o) spot T 0%nat in let f2 := mk_fwd (sp_m o) spot T 1%nat in 0 < f2 + K ->
  let X1 := asset1 f1 (sp_s1 o) T in let X2 := asset2 f2 (sp_s2 o) (sp_rho o) T in let df := mk_df (sp_m o) T in
  let b := f2 / (f2 + K) in
  normals_expect 2 (fun z => Rpower (X2 z) b) (Rpower f2 b * exp (b * (b - 1) / 2 * (sp_s2 o ^ 2 * T))) /\
  normals_expect 2 (fun z => df * ((X1 z - X2 z - K) * exercise f2 (sp_s2 o) T K (X1 z) (X2 z))) (bjerk_price o K spot T 1) /\
  normals_expect 2 (fun z => df * ((K - (X1 z - X2 z)) * (1 - exercise f2 (sp_s2 o) T K (X1 z) (X2 z)))) (bjerk_price o K spot T (-1)).
Proof. exact bjerk_strategy. Qed.
Print Assumptions C43_bjerksund_strategy.
(** ... hence never above the true value of the spread option. *)
Theorem C43_bjerksund_lower_bound : forall o K spot T cp p, valid_spread o spot T -> call_or_put cp ->
  let f1 := mk_fwd (sp_m o) spot T 0%nat in let f2 := mk_fwd (sp_m o) spot T 1%nat in 0 < f2 + K ->
  normals_expect 2 (fun z => mk_df (sp_m o) T * payoff cp K (asset1 f1 (sp_s1 o) T z - asset2 f2 (sp_s2 o) (sp_rho o) T z)) p ->
  bjerk_price o K spot T cp <= p.
Proof. exact bjerk_lower. Qed.
Print Assumptions C43_bjerksund_lower_bound.
(** Kirk's price is strictly above the discounted intrinsic value of the forward spread. *)
Theorem C43_kirk_intrinsic : forall o K spot T cp, valid_spread o spot T -> call_or_put cp ->
  mk_df (sp_m o) T * Rmax (cp * (mk_fwd (sp_m o) spot T 0%nat - mk_fwd (sp_m o) spot T 1%nat - K)) 0 < kirk_price o K spot T cp.
Proof. exact kirk_intrinsic. Qed.
Print Assumptions C43_kirk_intrinsic.
(** BsmMax2 (Stulz): with an exact bivariate normal cdf the price is the exact discounted expected payoff on the
    maximum, for calls and puts; in particular the ValueError branch is never taken. *)
Theorem C43_max2_exact : forall bvn o cps K spot T cp, valid_spread o spot T -> eps <= spread_vol o * sqrt T -> 0 < K -> bivariate_cdf bvn -> call_or_put cp ->
  exists v, max2_price bvn o cps K spot T cp = Some (mk_df (sp_m o) T * v) /\
    normals_expect 2 (fun z => payoff cp K (Rmax (asset1 (mk_fwd (sp_m o) spot T 0%nat) (sp_s1 o) T z) (asset2 (mk_fwd (sp_m o) spot T 1%nat) (sp_s2 o) (sp_rho o) T z))) v.
Proof. exact max2_exact. Qed.
Print Assumptions C43_max2_exact.
(** Parity of BsmMax2 for any bivariate cdf routine whatsoever: call - put = DF (E[max] - K); and the flags of the
    other strikes of the call do not change a price. *)
Theorem C43_max2_parity : forall bvn o cps cps' K spot T c p, valid_spread o spot T -> eps <= spread_vol o * sqrt T ->
  max2_price bvn o cps K spot T 1 = Some c -> max2_price bvn o cps' K spot T (-1) = Some p ->
  exists M, normals_expect 2 (fun z => Rmax (asset1 (mk_fwd (sp_m o) spot T 0%nat) (sp_s1 o) T z) (asset2 (mk_fwd (sp_m o) spot T 1%nat) (sp_s2 o) (sp_rho o) T z)) M /\
    c - p = mk_df (sp_m o) T * (M - K).
Proof. exact max2_parity. Qed.
Print Assumptions C43_max2_parity.
Theorem C43_max2_flags : forall bvn o cps cps' K spot T cp, call_or_put cp -> max2_price bvn o cps K spot T cp = max2_price bvn o cps' K spot T cp.
Proof. exact max2_flags. Qed.
Print Assumptions C43_max2_flags.
Definition ex_spr : spr := mkSpr (/ 5) (3 / 10) (/ 2) (mkMkt (/ 20) (fun _ => / 100) false).
Example C43_ex : valid_spread ex_spr (fun i => match i with O => 100 | _ => 95 end) 2 /\ eps <= spread_vol ex_spr * sqrt 2 /\
  0 < mk_fwd (sp_m ex_spr) (fun i => match i with O => 100 | _ => 95 end) 2 1%nat + 10.
Proof.
  assert (V : valid_spread ex_spr (fun i => match i with O => 100 | _ => 95 end) 2) by (unfold valid_spread, ex_spr; cbn; repeat split; lra).
  split; [exact V|]. split.
  - unfold spread_vol, ex_spr. cbn [sp_s1 sp_s2 sp_rho]. replace ((/ 5) ^ 2 - 2 * / 2 * / 5 * (3 / 10) + (3 / 10) ^ 2) with (7 / 100) by field.
    rewrite <- sqrt_mult by lra. apply Rle_trans with (/ 10); [pose proof eps_small; lra|].
    rewrite <- (sqrt_square (/ 10)) by lra. apply sqrt_le_1_alt. lra.
  - apply Rplus_lt_0_compat; [apply mk_fwd_pos; lra|lra].
Qed.

(** *** C44: baskets *)
(** price_mvsk: the matrix-product formulas are the first four moments of the basket of lognormals, for any number of
    assets and any factorisation of the covariance matrix ... *)
Theorem C44_basket_moments : forall o l fwd T, factor_of (bn o) l (ma_cov (bk_ma o)) -> 0 <= T ->
  let B := ln_basket (bn o) fwd (bk_w o) l (ma_cov (bk_ma o)) T in
  normals_expect (bn o) B (mv_m1 o fwd) /\ normals_expect (bn o) (fun z => B z ^ 2) (mv_m2 o fwd T) /\
  normals_expect (bn o) (fun z => B z ^ 3) (mv_m3 o fwd T) /\ normals_expect (bn o) (fun z => B z ^ 4) (mv_m4 o fwd T).
Proof. exact mvsk_moments. Qed.
Print Assumptions C44_basket_moments.
(** ... and price_mvsk returns their mean, scaled variance, skewness and excess kurtosis. *)
Theorem C44_mvsk : forall o l fwd T m1 m2 m3 m4, factor_of (bn o) l (ma_cov (bk_ma o)) -> 0 <= T ->
  let B := ln_basket (bn o) fwd (bk_w o) l (ma_cov (bk_ma o)) T in
  normals_expect (bn o) B m1 -> normals_expect (bn o) (fun z => B z ^ 2) m2 ->
  normals_expect (bn o) (fun z => B z ^ 3) m3 -> normals_expect (bn o) (fun z => B z ^ 4) m4 ->
  m1 <> 0 -> 0 < var_of_raw m1 m2 ->
  price_mvsk o fwd T = (m1, var_of_raw m1 m2 / m1 ^ 2, skew_of_raw m1 m2 m3, exkurt_of_raw m1 m2 m3 m4).
Proof.
  intros o l fwd T m1 m2 m3 m4 HF HT B H1 H2 H3 H4 N P. destruct (mvsk_moments o l fwd T HF HT) as (G1 & G2 & G3 & G4).
  rewrite <- (P_Conv2.normals_unique _ _ _ _ G1 H1) in *. rewrite <- (P_Conv2.normals_unique _ _ _ _ G2 H2) in *.
  rewrite <- (P_Conv2.normals_unique _ _ _ _ G3 H3), <- (P_Conv2.normals_unique _ _ _ _ G4 H4). now apply mvsk_correct.
Qed.
Print Assumptions C44_mvsk.
(** Parity with the basket forward: Bachelier, geometric, Levy/Ju, Milevsky-Posner (any gamma cdf routine), NSVh. *)
Theorem C44_parity : forall o K spot T,
  let v := mk_df (bk_m o) T * (basket_fwd o spot T - K) in
  (eps <= sqrt (basket_var o) * sqrt T -> norm_basket_price o K spot T 1 - norm_basket_price o K spot T (-1) = v) /\
  geo_basket_price o K spot T 1 - geo_basket_price o K spot T (-1) = v /\
  (forall corr, ju_price o corr K spot T 1 - ju_price o corr K spot T (-1) = v) /\
  (forall gc, 0 < basket_fwd o spot T -> 0 < mv_var_scaled o (mk_fwd (bk_m o) spot T) T -> milevsky_price gc o K spot T 1 - milevsky_price gc o K spot T (-1) = v) /\
  (forall p, nsvh_basket_price o p K spot T 1 - nsvh_basket_price o p K spot T (-1) = v).
Proof.
  intros. split; [intros; now apply norm_basket_parity|]. split; [apply geo_basket_parity|]. split; [intros; apply ju_parity|].
  split; [intros; now apply milevsky_parity|]. intros; apply nsvh_basket_parity.
Qed.
Print Assumptions C44_parity.
(** NormBasket is exact for Bachelier assets; BsmBasketGeoApprox is exact for the geometric-average proxy. *)
Theorem C44_norm_exact : forall o l K spot T cp, call_or_put cp -> 0 < T -> factor_of (bn o) l (ma_cov (bk_ma o)) ->
  eps <= sqrt (basket_var o) * sqrt T ->
  normals_expect (bn o) (fun z => mk_df (bk_m o) T * payoff cp K (n_basket (bn o) (mk_fwd (bk_m o) spot T) (bk_w o) l T z)) (norm_basket_price o K spot T cp).
Proof. exact norm_basket_exact. Qed.
Print Assumptions C44_norm_exact.
Theorem C44_geo_exact : forall o chol K spot T cp, call_or_put cp -> 0 < T -> factor_of (bn o) chol (ma_cov (bk_ma o)) ->
  eps <= sqrt (basket_var o) * sqrt T -> 0 < basket_fwd o spot T -> 0 < K ->
  normals_expect (bn o) (fun z => mk_df (bk_m o) T * payoff cp K (geo_mc_G o chol spot T z)) (geo_basket_price o K spot T cp).
Proof. exact geo_exact. Qed.
Print Assumptions C44_geo_exact.
(** Levy: the price is that of a lognormal with exactly the basket's first two moments; Milevsky-Posner likewise with a
    reciprocal gamma law (mean beta/(alpha-1), second moment beta^2/((alpha-1)(alpha-2))). *)
Theorem C44_levy : forall o K spot T cp, let fwd := mk_fwd (bk_m o) spot T in let s := sqrt (ln (1 + mv_var_scaled o fwd T)) in
  0 < mv_m1 o fwd -> 0 < var_of_raw (mv_m1 o fwd) (mv_m2 o fwd T) ->
  let X := fun z => basket_fwd o spot T * exp (s * z - s ^ 2 / 2) in
  gauss_expect X (mv_m1 o fwd) /\ gauss_expect (fun z => X z ^ 2) (mv_m2 o fwd T) /\
  (call_or_put cp -> 0 < K -> eps <= s -> gauss_expect (fun z => mk_df (bk_m o) T * payoff cp K (X z)) (ju_price o false K spot T cp)).
Proof.
  intros o K spot T cp fwd s H1 H2 X. destruct (levy_matched o fwd T H1 H2) as [A B].
  split; [exact A|]. split; [exact B|]. intros Hc HK He. now apply levy_price.
Qed.
Print Assumptions C44_levy.
Theorem C44_milevsky_moments : forall o fwd T, 0 < mv_m1 o fwd -> 0 < var_of_raw (mv_m1 o fwd) (mv_m2 o fwd T) ->
  let alpha := 1 / mv_var_scaled o fwd T + 2 in let beta := (alpha - 1) * mv_m1 o fwd in
  2 < alpha /\ beta / (alpha - 1) = mv_m1 o fwd /\ beta ^ 2 / ((alpha - 1) * (alpha - 2)) = mv_m2 o fwd T.
Proof. exact milevsky_matched. Qed.
Print Assumptions C44_milevsky_moments.
(** two assets, volatility 1/5, correlation 3/5 *)
Definition ex_bsk : bsk := mkBsk
  (mkMa 2 (fun _ => / 5) (Some (3 / 5)) (fun i j => if Nat.eqb i j then 1 else 3 / 5) (fun i j => if Nat.eqb i j then / 25 else 3 / 125))
  (fun _ => / 2) (mkMkt (/ 20) (fun _ => / 50) false).
Definition ex_chol : mat := fun i j => match i, j with O, O => / 5 | 1%nat, O => 3 / 25 | 1%nat, 1%nat => 4 / 25 | _, _ => 0 end.
Lemma ex_ok : ok_basket ex_bsk ex_chol.
Proof.
  split.
  - intros i j Hi Hj. cbn in Hi, Hj. destruct i as [|[|]], j as [|[|]]; try lia; cbn; lra.
  - intros i Hi. cbn in Hi. destruct i as [|[|]]; try lia; cbn; lra.
Qed.
Lemma ex_var : basket_var ex_bsk = 4 / 125.
Proof. unfold basket_var. cbn. lra. Qed.
Example C44_ex : factor_of (bn ex_bsk) ex_chol (ma_cov (bk_ma ex_bsk)) /\ eps <= sqrt (basket_var ex_bsk) * sqrt 1 /\
  0 < mv_m1 ex_bsk (fun _ => 100) /\ 0 < var_of_raw (mv_m1 ex_bsk (fun _ => 100)) (mv_m2 ex_bsk (fun _ => 100) 1).
Proof.
  split; [apply ex_ok|]. split; [|split].
  - rewrite ex_var, sqrt_1, Rmult_1_r. apply Rle_trans with (/ 10); [pose proof eps_small; lra|].
    rewrite <- (sqrt_square (/ 10)) by lra. apply sqrt_le_1_alt. lra.
  - unfold mv_m1, mv_v. cbn. lra.
  - unfold var_of_raw, mv_m1, mv_m2, msum, mv_M2, mv_v, mv_P. cbn [bn bk_ma ma_n rsum bk_w ex_bsk ma_cov Nat.eqb].
    pose proof (exp_ineq1 (/ 25 * 1) ltac:(lra)). pose proof (exp_ineq1 (3 / 125 * 1) ltac:(lra)). nra.
Qed.

(** *** C45: the rotation of BsmBasketChoi2018 *)
(** householder: a symmetric orthogonal matrix for every dimension and non-zero vector, whose first column is the
    normalised vector (up to 200 machine epsilons in squared distance when the vector already is the first axis). *)
Theorem C45_householder : forall n v, (0 < n)%nat -> 0 < rsum n (fun i => v i * v i) ->
  (forall i j, householder n v i j = householder n v j i) /\
  (forall i j, (i < n)%nat -> (j < n)%nat -> rsum n (fun k => householder n v k i * householder n v k j) = kd i j) /\
  (eps * 100 <= Rabs (v 0%nat / norm2 n v - 1) -> forall i, householder n v i 0%nat = v i / norm2 n v) /\
  (Rabs (v 0%nat / norm2 n v - 1) < eps * 100 -> rsum n (fun i => (householder n v i 0%nat - v i / norm2 n v) ^ 2) <= 200 * eps).
Proof.
  intros n v Hn Hv. split; [apply house_sym|]. split; [now apply house_orth|]. split; [intros; now apply house_col|]. intros; now apply house_near.
Qed.
Print Assumptions C45_householder.
(** The first factor: q1 is a unit vector, v1 = chol q1, and each loading has the sign of its weight. *)
Theorem C45_first_factor : forall o chol solve fwd, factor_of (bn o) chol (ma_cov (bk_ma o)) ->
  (forall b i, (i < bn o)%nat -> rsum (bn o) (fun j => chol i j * solve b j) = b i) ->
  (forall i, (i < bn o)%nat -> 0 < ma_sigma (bk_ma o) i) ->
  0 < rsum (bn o) (fun i => rsum (bn o) (fun j => ma_cov (bk_ma o) i j * unit_w o fwd j) * unit_w o fwd i) ->
  let v1 := fst (v1_q1 o chol solve fwd) in let q1 := snd (v1_q1 o chol solve fwd) in
  rsum (bn o) (fun i => q1 i * q1 i) = 1 /\ (forall i, (i < bn o)%nat -> v1 i = rsum (bn o) (fun k => chol i k * q1 k)) /\
  (forall i, (i < bn o)%nat -> 0 <= unit_w o fwd i * v1 i).
Proof.
  intros o chol solve fwd HF HS Hsig HP v1 q1. destruct (v1_q1_spec o chol solve fwd HF HS Hsig HP) as [A B].
  split; [exact A|]. split; [exact B|]. now apply v1_sign.
Qed.
Print Assumptions C45_first_factor.
(** The loading matrix keeps the covariance: V V^T = cov, for any SVD routine that preserves A A^T. *)
Theorem C45_covariance : forall o chol solve svd fwd, (0 < bn o)%nat -> factor_of (bn o) chol (ma_cov (bk_ma o)) ->
  (forall b i, (i < bn o)%nat -> rsum (bn o) (fun j => chol i j * solve b j) = b i) ->
  (forall i, (i < bn o)%nat -> 0 < ma_sigma (bk_ma o) i) ->
  0 < rsum (bn o) (fun i => rsum (bn o) (fun j => ma_cov (bk_ma o) i j * unit_w o fwd j) * unit_w o fwd i) ->
  eps * 100 <= Rabs (snd (v1_q1 o chol solve fwd) 0%nat - 1) ->
  (forall A i j, (i < bn o)%nat -> (j < bn o)%nat -> rsum (bn o - 1) (fun k => svd A i k * svd A j k) = rsum (bn o - 1) (fun k => A i k * A j k)) ->
  forall i j, (i < bn o)%nat -> (j < bn o)%nat ->
  rsum (bn o) (fun k => v_matrix o chol solve svd fwd i k * v_matrix o chol solve svd fwd j k) = ma_cov (bk_ma o) i j.
Proof.
  intros o chol solve svd fwd Hn HF HS Hsig HP He HV. destruct (v1_q1_spec o chol solve fwd HF HS Hsig HP) as [A B].
  apply v_matrix_cov; assumption.
Qed.
Print Assumptions C45_covariance.
(** Parity of the quadrature price: weights summing to one give exactly DF (basket forward - K), any nodes. *)
Theorem C45_parity : forall o v1 rows K spot T, lsum (map (fun row => snd (fst row)) rows) = 1 ->
  choi_price o v1 rows K spot T 1 - choi_price o v1 rows K spot T (-1) = mk_df (bk_m o) T * (basket_fwd o spot T - K).
Proof. intros o v1 rows K spot T H. rewrite choi_parity, H. ring. Qed.
Print Assumptions C45_parity.
(** Without quadrature (n_quad = 0) the price is the exact value of exercising when q1.Z >= -d, hence a lower bound of
    the true basket price for every boundary d. *)
Theorem C45_lower_bound : forall o chol q1 spot T K d, factor_of (bn o) chol (ma_cov (bk_ma o)) -> 0 <= T ->
  rsum (bn o) (fun i => q1 i * q1 i) = 1 ->
  let v1 := fun i => rsum (bn o) (fun k => chol i k * q1 k) * sqrt T in
  let B := ln_basket (bn o) (mk_fwd (bk_m o) spot T) (bk_w o) chol (ma_cov (bk_ma o)) T in
  let ex := fun z => when_le (- d) (rsum (bn o) (fun i => q1 i * z i)) in
  let rows := [((fun _ => 1), 1, d)] in
  normals_expect (bn o) (fun z => mk_df (bk_m o) T * ((B z - K) * ex z)) (choi_price o v1 rows K spot T 1) /\
  normals_expect (bn o) (fun z => mk_df (bk_m o) T * ((K - B z) * (1 - ex z))) (choi_price o v1 rows K spot T (-1)) /\
  forall cp p, call_or_put cp -> normals_expect (bn o) (fun z => mk_df (bk_m o) T * payoff cp K (B z)) p -> choi_price o v1 rows K spot T cp <= p.
Proof.
  intros o chol q1 spot T K d HF HT H1 v1 B ex rows. split; [now apply choi0_call|]. split; [now apply choi0_put|].
  intros cp p Hc Hp. eapply choi0_lower; eassumption.
Qed.
Print Assumptions C45_lower_bound.
Example C45_ex : (0 < 3)%nat /\ 0 < rsum 3 (fun i => INR (S i) * INR (S i)) /\ eps * 100 <= Rabs (INR 1 / norm2 3 (fun i => INR (S i)) - 1).
Proof.
  split; [lia|]. split; [cbn; lra|]. unfold norm2. cbn [rsum INR]. replace (0 + 1 * 1 + (1 + 1) * (1 + 1) + (1 + 1 + 1) * (1 + 1 + 1)) with 14 by ring.
  assert (2 < sqrt 14) by (rewrite <- (sqrt_square 2) by lra; apply sqrt_lt_1_alt; lra).
  assert (H1 : 1 / sqrt 14 < / 2) by (unfold Rdiv; rewrite Rmult_1_l; apply Rinv_lt_contravar; lra).
  rewrite Rabs_left by lra. pose proof eps_small. lra.
Qed.
(** the hypotheses of C45_first_factor and C45_covariance hold for the two-asset basket (forward substitution as solve) *)
Definition ex_solve : vec -> vec := fun b i => match i with O => 5 * b 0%nat | 1%nat => (b 1%nat - 3 / 25 * (5 * b 0%nat)) * (25 / 4) | _ => 0 end.
Example C45_ex_solve : (forall b i, (i < bn ex_bsk)%nat -> rsum (bn ex_bsk) (fun j => ex_chol i j * ex_solve b j) = b i) /\
  0 < rsum (bn ex_bsk) (fun i => rsum (bn ex_bsk) (fun j => ma_cov (bk_ma ex_bsk) i j * unit_w ex_bsk (fun _ => 100) j) * unit_w ex_bsk (fun _ => 100) i).
Proof.
  split.
  - intros b i Hi. cbn in Hi. destruct i as [|[|]]; try lia; cbn; field.
  - unfold unit_w, norm2, mv_v. cbn [bn bk_ma ma_n rsum bk_w ex_bsk ma_cov Nat.eqb].
    set (d := 100 * / 2 / sqrt _). assert (0 < d). { apply Rdiv_lt_0_compat; [lra|apply sqrt_lt_R0; lra]. } nra.
Qed.
