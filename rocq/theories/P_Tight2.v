(** Norm.price_vega_std, BsmDisp.theta; added after mutation testing. *)
From Coq Require Import Reals Lra.
From Coquelicot Require Import Coquelicot.
From Verif Require Import Base Gauss Spec_Opt M_Opt P_Bsm P_Norm P_Numeric Props_Opt.
Open Scope R_scope.
(** ** Norm.price_vega_std *)
Lemma norm_pvs sig k : eps <= sig ->
  norm_price_vega_std sig k true = norm_price (mkOpt sig 0 0 true) k 0 1 1 /\
  norm_price_vega_std sig k false = norm_price (mkOpt sig 0 0 true) k 0 1 1 / norm_vega (mkOpt sig 0 0 true) k 0 1 1.
Proof.
  intros H. pose proof eps_pos as He. assert (E : norm_price (mkOpt sig 0 0 true) k 0 1 1 = sig * npdf (k / sig) - k * Phi (- (k / sig))).
  { unfold norm_price, norm_price_formula. cbn [M_Opt.sigma intr divr is_fwd]. rewrite sqrt_1, !Rmult_1_r, Rmult_0_r, exp_0. rewrite Rmax_left by lra.
    replace ((0 - k) / sig) with (- (k / sig)) by (field; lra). rewrite npdf_even, !Rmult_1_l. field. lra. }
  pose proof (npdf_pos (k / sig)) as P. rewrite E. unfold norm_price_vega_std, mills. split; [field; lra|].
  unfold norm_vega, fwd_df_divf, norm_d, sigma_std. cbn [M_Opt.sigma intr divr is_fwd]. rewrite sqrt_1, !Rmult_1_r. rewrite Rmax_left by lra.
  replace ((0 - k) / sig) with (- (k / sig)) by (field; lra). rewrite npdf_even. rewrite ?Rmult_0_r, ?Ropp_0, ?exp_0, ?Rmult_1_l. field. lra.
Qed.

(** ** BsmDisp.theta *)
Lemma disp_theta_twice m K S T cp : call_or_put cp -> d_beta m <> 0 -> let s := disp_spot m S in let k := disp_strike m K T in
  0 < disp_strike m k T -> 0 < disp_spot m s -> eps < d_sigma m * d_beta m * sqrt T ->
  exists delta vega, is_derive (fun x => disp_price m k x T cp) s delta /\ is_derive (fun u => disp_price (disp_set m u) k s T cp) (d_sigma m) vega /\
    d_beta m * disp_theta m K S T cp = d_intr m * disp_price m k s T cp
      - (if d_isf m then 0 else (d_intr m - d_divr m) * s * delta) - d_sigma m * d_beta m / (2 * T) * vega.
Proof.
  intros Hc Hb s k Hk Hs He. exists (disp_delta m k s T cp), (disp_vega m k s T cp). split; [now apply C10_disp_delta|]. split; [now apply C10_disp_vega|].
  unfold disp_theta. fold s. fold k. set (A := disp_price m k s T cp). set (B := disp_delta m k s T cp). set (C := disp_vega m k s T cp). clearbody A B C.
  replace (1 / d_beta m) with (/ d_beta m) by (unfold Rdiv; ring). rewrite <- Rmult_assoc, Rinv_r by exact Hb. rewrite Rmult_1_l. reflexivity.
Qed.
