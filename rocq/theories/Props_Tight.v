(** C09, C10, C18, C28: additions from mutation testing. *)
From Coq Require Import Reals Lra Lia List.
From Coquelicot Require Import Coquelicot.
From Verif Require Import Base Sums Spec_Opt M_Mgf M_Heston Spec_Misc P_Tight M_Opt P_Tight2.
Open Scope R_scope.

(** the 3/2 model's hypergeometric loop adds up the terms 0 .. n+1 of 1F1(a; b; x) *)
Theorem C18_hyp1f1_series : forall n a b x, (forall j, (j <= n)%nat -> b + INR j <> 0) ->
  hyp1f1 n a b x = rsum (n + 2) (hyp_term a b x).
Proof. exact hyp1f1_series. Qed.
Print Assumptions C18_hyp1f1_series.
Example C18_hyp1f1_ex : hyp1f1 1 1 1 2 = 1 + 2 + 2.
Proof. rewrite hyp1f1_series by (intros j _; pose proof (pos_INR j); lra). unfold hyp_term. simpl. field. Qed.
(** draw_from_mv: the inverse-Gaussian and gamma draws have the requested mean and variance mean^2 * vs *)
Theorem C28_moment_matched : forall mean vs, 0 < mean -> 0 < vs ->
  (let '(mu, lam) := dfm_ig mean vs in ig_mean_var mu lam) = (mean, mean ^ 2 * vs) /\
  (let '(factor, shape) := dfm_ga mean vs in gamma_mean_var factor shape) = (mean, mean ^ 2 * vs).
Proof. exact dfm_matched. Qed.
Print Assumptions C28_moment_matched.
Example C28_moment_matched_ex : dfm_ga 2 (/ 4) = (/ 4 * 2, 1 / / 4). Proof. reflexivity. Qed.
(** the standardised Bachelier price and price/vega ratio *)
Theorem C09_standardised_ratio : forall sig k, eps <= sig ->
  norm_price_vega_std sig k true = norm_price (mkOpt sig 0 0 true) k 0 1 1 /\
  norm_price_vega_std sig k false = norm_price (mkOpt sig 0 0 true) k 0 1 1 / norm_vega (mkOpt sig 0 0 true) k 0 1 1.
Proof. exact norm_pvs. Qed.
Print Assumptions C09_standardised_ratio.
Example C09_standardised_ex : norm_price_vega_std 1 2 true = norm_price (mkOpt 1 0 0 true) 2 0 1 1.
Proof. apply C09_standardised_ratio. unfold eps. pose proof (pow_lt 2 52 ltac:(lra)). assert (1 <= 2 ^ 52) by (apply pow_R1_Rle; lra). first [apply Rle_trans with (/ 1); [apply Rinv_le_contravar; lra|lra] | lra]. Qed.

(** what BsmDisp.theta returns: the Black-Scholes theta identity evaluated at the displaced strike and spot with the derivatives of
    the displaced price there, over beta: strike and spot are displaced twice *)
Theorem C10_disp_theta_characterised : forall m K S T cp, call_or_put cp -> d_beta m <> 0 ->
  let s := disp_spot m S in let k := disp_strike m K T in
  0 < disp_strike m k T -> 0 < disp_spot m s -> eps < d_sigma m * d_beta m * sqrt T ->
  exists delta vega, is_derive (fun x => disp_price m k x T cp) s delta /\
    is_derive (fun u => disp_price (disp_set m u) k s T cp) (d_sigma m) vega /\
    d_beta m * disp_theta m K S T cp = d_intr m * disp_price m k s T cp
      - (if d_isf m then 0 else (d_intr m - d_divr m) * s * delta) - d_sigma m * d_beta m / (2 * T) * vega.
Proof. exact disp_theta_twice. Qed.
Print Assumptions C10_disp_theta_characterised.
Example C10_disp_theta_ex : let m := mkDisp 1 (/ 2) 1 0 0 true in
  call_or_put 1 /\ d_beta m <> 0 /\ 0 < disp_strike m (disp_strike m 1 1) 1 /\ 0 < disp_spot m (disp_spot m 1) /\ eps < d_sigma m * d_beta m * sqrt 1.
Proof.
  cbv zeta. split; [now left|]. split; [cbn; lra|]. split; [unfold disp_strike, forward; cbn; lra|]. split; [unfold disp_spot; cbn; lra|]. rewrite sqrt_1. cbn [d_sigma d_beta].
  unfold eps. rewrite !Rmult_1_l, Rmult_1_r. apply Rinv_lt_contravar; [apply Rmult_lt_0_compat; [lra|apply pow_lt; lra]|]. assert (4 <= 2 ^ 52) by (replace 4 with (2 ^ 2) by ring; apply Rle_pow; [lra|auto with arith; repeat constructor]). lra.
Qed.
