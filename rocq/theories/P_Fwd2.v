From Coq Require Import Reals Lra Lia List.
From Coquelicot Require Import Coquelicot.
From Verif Require Import Base Gauss Sums M_Opt M_Heston M_Fd M_Sabr M_Cev Spec_Opt Spec_Fwd P_Bsm P_Cev P_Sabr4 P_Fwd.
Open Scope R_scope.

Lemma rpower_lt a x y : 0 < a -> 0 < x -> x < y -> Rpower x a < Rpower y a.
Proof. intros Ha Hx H. unfold Rpower. apply exp_increasing. apply Rmult_lt_compat_l; [exact Ha|]. now apply ln_increasing. Qed.
Lemma i_cevmc_drift beta m gam pg S T : beta < 1 -> 0 < sigma m -> divr m < intr m -> 0 < S -> 0 < T ->
  (forall x, 0 < x -> 0 < pg x) -> (forall x y, 0 < x -> x < y -> pg x < pg y) -> 0 < cevmc_step beta m gam pg S T ->
  cevmc_step beta m gam pg S T < cevmc_step beta (as_forward m) gam pg (S * exp ((intr m - divr m) * T)) T.
Proof.
  intros Hb Hs Hr HS HT Hp Hi. rewrite i_cevmc. unfold cevmc_step, cevmc_lam, cevmc_var. set (g := exp ((intr m - divr m) * T)). assert (Hg : 1 < g). { unfold g. rewrite <- exp_0. apply exp_increasing. nra. }
  assert (HS' : 0 < S * g) by nra. destruct (Rlt_dec 0 S); [|lra]. destruct (Rlt_dec 0 (S * g)); [|lra]. cbv zeta.
  set (var := ((1 - beta) * sigma m) ^ 2 * T * exprel (2 * (intr m - divr m) * (1 - beta) * T)).
  assert (Hv : 0 < var).
  { unfold var. apply Rmult_lt_0_compat; [apply Rmult_lt_0_compat; [apply pow_lt, Rmult_lt_0_compat; lra|exact HT]|]. apply exprel_gt0. }
  assert (Hz : Rpower (g * S) (2 * (1 - beta)) / var < Rpower (g * (S * g)) (2 * (1 - beta)) / var).
  { apply Rmult_lt_compat_r; [now apply Rinv_0_lt_compat|]. apply rpower_lt; [lra|nra|]. nra. }
  set (z := Rpower (g * S) (2 * (1 - beta)) / var) in *. set (z' := Rpower (g * (S * g)) (2 * (1 - beta)) / var) in *. clearbody z z'.
  destruct (Rle_dec ((z - 2 * gam) / 2) 0); [lra|]. destruct (Rle_dec ((z' - 2 * gam) / 2) 0); [lra|]. intros _.
  apply rpower_lt.
  - apply Rdiv_lt_0_compat; lra.
  - apply Rmult_lt_0_compat; [exact Hv|]. specialize (Hp ((z - 2 * gam) / 2) ltac:(lra)). lra.
  - apply Rmult_lt_compat_l; [exact Hv|]. specialize (Hi ((z - 2 * gam) / 2) ((z' - 2 * gam) / 2) ltac:(lra) ltac:(lra)). lra.
Qed.
Lemma hagan_atm0 p S F T : 0 < T -> 0 < F -> hagan_vol_at p 0 S F F T = sabr_alpha p S.
Proof.
  intros HT HF. unfold hagan_vol_at. destruct (Rle_dec T 0); [lra|]. cbv zeta. replace (F / F) with 1 by (field; lra). rewrite ln_1.
  replace (npow 1 ((1 - b_beta p) / 2)) with 1. 2:{ unfold npow. destruct Req_EM_T; [reflexivity|]. destruct Req_EM_T; [lra|]. unfold Rpower. rewrite ln_1, Rmult_0_r, exp_0. reflexivity. }
  replace (- (1 * 0 * b_vov p / Rmax (sabr_alpha p S) eps)) with 0 by (unfold Rdiv; ring).
  rewrite hh_0.
  unfold Rdiv. replace (1 * (1 + (1 - b_beta p) ^ 2 * / 24 * (0 * 0) * (1 + (1 - b_beta p) ^ 2 * / 80 * (0 * 0)))) with 1 by ring. rewrite Rinv_1. ring.
Qed.
Lemma i_hagan p m S T cp : call_or_put cp -> is_fwd m = false -> intr m <> divr m -> 0 < S -> 0 < T -> 0 < b_beta p < 1 -> 0 < b_sigma p ->
  let F := S * exp ((intr m - divr m) * T) in eps < sabr_alpha p S * sqrt T -> eps < sabr_alpha p F * sqrt T ->
  hagan_price (as_forward m) p 0 F F T cp <> hagan_price m p 0 F S T cp.
Proof.
  intros Hc Hf Hr HS HT Hb Hsg F H1 H2. assert (Hg : 0 < exp ((intr m - divr m) * T)) by apply exp_pos. assert (HF : 0 < F) by (apply Rmult_lt_0_compat; assumption).
  unfold hagan_price, hagan_vol. rewrite fdd_as. destruct (fdd_fwd m S T Hf) as [d ->]. fold F. rewrite !hagan_atm0 by assumption.
  pose proof (h_bsm (set_sigma m (sabr_alpha p F)) F S T cp Hf HF HS) as HB. change (bsm_price (set_sigma (as_forward m) (sabr_alpha p F)) F F T cp = bsm_price (set_sigma m (sabr_alpha p F)) F S T cp) in HB. rewrite HB. clear HB.
  assert (N : sabr_alpha p F <> sabr_alpha p S).
  { unfold sabr_alpha, npow_s, npow. destruct (Req_EM_T (1 - b_beta p) 1); [lra|]. destruct (Req_EM_T (1 - b_beta p) 0); [lra|]. destruct (Req_EM_T F 0); [lra|]. destruct (Req_EM_T S 0); [lra|].
    assert (PF : 0 < Rpower F (1 - b_beta p)) by (unfold Rpower; apply exp_pos). assert (PS : 0 < Rpower S (1 - b_beta p)) by (unfold Rpower; apply exp_pos).
    assert (NE : Rpower F (1 - b_beta p) <> Rpower S (1 - b_beta p)).
    { destruct (Rtotal_order F S) as [L|[L|L]].
      - apply Rlt_not_eq. apply rpower_lt; lra.
      - exfalso. unfold F in L. assert (X : exp ((intr m - divr m) * T) = 1) by (apply (Rmult_eq_reg_l S); lra). rewrite <- exp_0 in X. apply exp_inv in X. apply Rmult_integral in X. lra.
      - apply Rgt_not_eq. apply rpower_lt; lra. }
    intros E. apply NE. unfold Rdiv in E. apply Rmult_eq_reg_l in E; [|lra]. rewrite <- (Rinv_inv (Rpower F (1 - b_beta p))), E. apply Rinv_inv. }
  pose proof (sqrt_lt_R0 T HT) as HQ. destruct (Rtotal_order (sabr_alpha p F) (sabr_alpha p S)) as [L|[L|L]]; [|contradiction|].
  - apply Rlt_not_eq. apply (proj2 (bsm_mono_sigma m _ _ F S T cp Hc HF HS (Rlt_le _ _ H1) ltac:(apply Rmult_lt_compat_r; [exact HQ|exact L]))). exact H1.
  - apply Rgt_not_eq. apply (proj2 (bsm_mono_sigma m _ _ F S T cp Hc HF HS (Rlt_le _ _ H2) ltac:(apply Rmult_lt_compat_r; [exact HQ|exact L]))). exact H2.
Qed.
