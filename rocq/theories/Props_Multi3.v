(** C44, C45, continued: the moments implied by Ju's corrected prices, Milevsky-Posner's law, and the conditional prices behind
    Choi's quadrature. *)
From Coq Require Import Reals Lra Lia Arith.
From Coquelicot Require Import Coquelicot.
From Verif Require Import Base Gauss Sums Spec_Expect Spec_Opt Spec_Dist Spec_Cev Spec_Recip Spec_Multi M_Opt M_Params M_Multi P_OptRefute P_Multi10 P_Ju3 Props_Multi.
Open Scope R_scope.

(** The k-th moment of a law can be read off its undiscounted call prices C: it is the integral of k (k-1) K^(k-2) C(K) over K > 0.
    BsmBasketJu2002's corrected prices imply the basket's own second, third and fourth moments, up to an error of order four in
    time to expiry - for any number of assets, positively weighted, and any covariance. *)
Theorem C44_ju_moments : forall o spot l, k_isf (bk_m o) = true -> factor_of (bn o) l (ma_cov (bk_ma o)) ->
  (forall i, (i < bn o)%nat -> 0 <= mv_v o spot i) -> 0 < mv_m1 o spot ->
  forall k M, (2 <= k <= 4)%nat -> 0 < M -> exists Q, forall T mk, 0 < T <= M -> eps <= sqrt (ln (1 + mv_var_scaled o spot T)) ->
  normals_expect (bn o) (fun z => ln_basket (bn o) spot (bk_w o) l (ma_cov (bk_ma o)) T z ^ k) mk ->
  exists J, half_line (fun K => INR k * (INR k - 1) * K ^ (k - 2) * ju_price o true K spot T 1) (mk_df (bk_m o) T * J) /\ Rabs (J - mk) <= Q * T ^ 4.
Proof. exact ju_moments. Qed.
Print Assumptions C44_ju_moments.
Definition ex_bskf : bsk := mkBsk (bk_ma ex_bsk) (bk_w ex_bsk) (mkMkt (/ 20) (fun _ => / 50) true).
Example C44_ex_ju : k_isf (bk_m ex_bskf) = true /\ factor_of (bn ex_bskf) ex_chol (ma_cov (bk_ma ex_bskf)) /\
  (forall i, (i < bn ex_bskf)%nat -> 0 <= mv_v ex_bskf (fun _ => 100) i) /\ 0 < mv_m1 ex_bskf (fun _ => 100) /\
  eps <= sqrt (ln (1 + mv_var_scaled ex_bskf (fun _ => 100) 1)).
Proof.
  split; [reflexivity|]. split; [exact (proj1 C44_ex)|]. split; [|split].
  - intros i _. unfold mv_v. cbn. lra.
  - exact (proj1 (proj2 (proj2 C44_ex))).
  - set (v := mv_var_scaled ex_bskf (fun _ => 100) 1). assert (V : / 50 <= v).
    { unfold v, mv_var_scaled, mv_m1, mv_m2, msum, mv_M2, mv_v, mv_P. cbn [bn bk_ma ma_n rsum bk_w ex_bskf ex_bsk ma_cov Nat.eqb].
      pose proof (exp_ineq1 (/ 25 * 1) ltac:(lra)). pose proof (exp_ineq1 (3 / 125 * 1) ltac:(lra)).
      match goal with |- _ <= ?a / ?b - 1 => replace b with 10000 by field end. lra. }
    assert (L : / 100 <= ln (1 + v)).
    { apply Rle_trans with (ln (1 + / 50)); [|apply Base.ln_le_R; lra].
      rewrite <- (Ropp_involutive (ln (1 + / 50))), <- ln_Rinv by lra.
      pose proof (Rlt_le _ _ (exp_pos (ln (/ (1 + / 50))))) as _. pose proof (exp_ineq1_le (ln (/ (1 + / 50)))) as H. rewrite exp_ln in H by (apply Rinv_0_lt_compat; lra). lra. }
    apply Rle_trans with (/ 10); [pose proof eps_small; lra|]. rewrite <- (sqrt_square (/ 10)) by lra. apply sqrt_le_1_alt. lra.
Qed.

(** BsmBasketMilevsky1998: the price is the discounted expected payoff of a reciprocal gamma law be / G that has exactly the basket's
    mean and second moment, whatever (correct) gamma distribution function scipy provides. *)
Theorem C44_milevsky_law : forall Gam gc o K spot T, gamma_function Gam -> gamma_cdf_routine Gam gc -> 0 < K ->
  let fwd := mk_fwd (bk_m o) spot T in
  0 < mv_m1 o fwd -> 0 < var_of_raw (mv_m1 o fwd) (mv_m2 o fwd T) ->
  exists al be, 2 < al /\ 0 < be /\
  pos_expect (gamma_pdf Gam al) (fun g => be / g) (mv_m1 o fwd) /\
  pos_expect (gamma_pdf Gam al) (fun g => (be / g) ^ 2) (mv_m2 o fwd T) /\
  forall cp, call_or_put cp -> exists c, pos_expect (gamma_pdf Gam al) (fun g => payoff cp K (be / g)) c /\
    milevsky_price gc o K spot T cp = mk_df (bk_m o) T * c.
Proof. exact milevsky_law. Qed.
Print Assumptions C44_milevsky_law.

(** BsmBasketChoi2018: one row of the quadrature - nodes z for the factors 2..n, boundary -d for the first factor - is the expectation
    over the first factor, given the others, of the option exercised exactly when the first factor is above -d ... *)
Theorem C45_conditional : forall o m vm spot T K, bn o = S m -> factor_of (bn o) vm (ma_cov (bk_ma o)) -> 0 <= T ->
  let fwd := mk_fwd (bk_m o) spot T in
  let B := fun z z1 => ln_basket (bn o) fwd (bk_w o) vm (ma_cov (bk_ma o)) T (fun j => match j with O => z1 | S j => z j end) in
  let v1 := fun i => vm i O * sqrt T in forall z d,
  gauss_expect (fun z1 => (B z z1 - K) * when_le (- d) z1) (choi_terms o v1 fwd K 1 (choi_f m vm T z, 1, d)) /\
  gauss_expect (fun z1 => (K - B z z1) * (1 - when_le (- d) z1)) (choi_terms o v1 fwd K (-1) (choi_f m vm T z, 1, d)) /\
  ((forall z1, - d <= z1 -> K <= B z z1) -> (forall z1, z1 < - d -> B z z1 <= K) ->
   forall cp, call_or_put cp -> gauss_expect (fun z1 => payoff cp K (B z z1)) (choi_terms o v1 fwd K cp (choi_f m vm T z, 1, d))).
Proof.
  intros o m vm spot T K Hn HF HT fwd B v1 z d. split; [exact (choi_cond_call o m vm spot T K Hn HF HT z d)|].
  split; [exact (choi_cond_put o m vm spot T K Hn HF HT z d)|exact (choi_cond_price o m vm spot T K Hn HF HT z d)].
Qed.
Print Assumptions C45_conditional.
(** ... and the conditional forwards average to the forwards: the factors f have mean one over the other normals. *)
Theorem C45_factor_mean : forall m vm T i, normals_expect m (fun z => choi_f m vm T z i) 1.
Proof. exact choi_f_mean. Qed.
Print Assumptions C45_factor_mean.
Example C45_ex_conditional : bn ex_bsk = S 1 /\ factor_of (bn ex_bsk) ex_chol (ma_cov (bk_ma ex_bsk)).
Proof. split; [reflexivity|exact (proj1 C44_ex)]. Qed.
