(** BsmBasket1Bm end to end: root finder plus price. *)
From Coq Require Import Reals Lra Lia Psatz List Arith Bool.
From Coquelicot Require Import Coquelicot.
From Verif Require Import Base Gauss Sums Spec_Opt Spec_Expect Spec_Multi M_Opt M_Params M_Fd M_Sabr M_Multi Spec_Multi2 P_Black P_Bsm P_Norm P_Expect P_Multi P_Multi2 P_Multi3 P_Multi5 P_Multi6.
Import ListNotations.
Open Scope R_scope.

Lemma bm1_run o spot T lo hi strikes : (0 < bn o)%nat -> 0 < lo -> 0 < T ->
  (forall i, (i < bn o)%nat -> lo <= ma_sigma (bk_ma o) i * sqrt T <= hi /\ 0 < spot i * bk_w o i) ->
  let s := fun i => ma_sigma (bk_ma o) i * sqrt T in
  let B := one_factor_basket (bn o) (mk_fwd (bk_m o) spot T) (bk_w o) s in
  let tol := Rmax IMPVOL_TOL ((1 - lo / hi) ^ 32 * ln (INR (bn o))) in
  exists res, root (bn o) (bm1_fac o spot T) s strikes = Some res /\
  forall K, In K strikes -> exists x, In (K, x) res /\
  forall cp p, call_or_put cp -> 0 <= K -> gauss_expect (fun z => mk_df (bk_m o) T * payoff cp K (B z)) p ->
    0 <= p - bm1_price o x K spot T cp /\
    p - bm1_price o x K spot T cp <= mk_df (bk_m o) T *
      match x with XFin _ => K * (exp tol - 1) | XNeg => K * Phi (- (9))
      | XPos => rsum (bn o) (fun i => mk_fwd (bk_m o) spot T i * bk_w o i * Phi (s i - 9)) end.
Proof.
  intros Hn Hlo HT H s B tol.
  assert (Sp : 0 < sqrt T) by (apply sqrt_lt_R0, HT).
  assert (Hf : forall i, (i < bn o)%nat -> 0 < bm1_fac o spot T i).
  { intros i Hi. unfold bm1_fac, mv_v. apply Rmult_lt_0_compat; [|apply exp_pos]. destruct (H i Hi) as [_ P]. unfold mk_fwd. destruct (k_isf (bk_m o)); [exact P|].
    replace (spot i * exp (- k_q (bk_m o) i * T) / mk_df (bk_m o) T * bk_w o i) with (spot i * bk_w o i * (exp (- k_q (bk_m o) i * T) * / mk_df (bk_m o) T)) by (unfold Rdiv; ring).
    apply Rmult_lt_0_compat; [exact P|]. apply Rmult_lt_0_compat; [apply exp_pos|apply Rinv_0_lt_compat, mk_df_pos]. }
  assert (Hm : forall i, (i < bn o)%nat -> 0 <= bm1_fac o spot T i * (ma_sigma (bk_ma o) i * sqrt T)).
  { intros i Hi. apply Rmult_le_pos; [left; now apply Hf|]. destruct (H i Hi). lra. }
  assert (Hf' : forall i, (i < bn o)%nat -> 0 <= bm1_fac o spot T i) by (intros i Hi; left; now apply Hf).
  destruct (root_basket (bn o) (bm1_fac o spot T) s lo hi Hn Hf Hlo (fun i Hi => proj1 (H i Hi)) strikes) as (res & ER & Hall & Hin).
  exists res. split; [exact ER|]. intros K HK. destruct (Hall K HK) as [x Hx]. exists x. split; [exact Hx|].
  intros cp p Hcp K0 Hp. destruct (Hin K x Hx) as [_ Hc].
  destruct x as [| |x].
  - apply (bm1_far_low o spot T K Hm Hf' cp p Hcp K0); [|exact Hp]. unfold root_lo.
    rewrite (rsum_ext _ _ (fun i => bm1_fac o spot T i * exp (s i * - (9)))); [unfold ysum in Hc; unfold s in *; lra|].
    intros i Hi. change (fun i0 => ma_sigma (bk_ma o) i0 * sqrt T) with s. unfold Rdiv. rewrite <- exp_Ropp. unfold s. do 2 f_equal. ring.
  - apply (bm1_far_high o spot T K Hm Hf' cp p Hcp K0); [|exact Hp]. unfold root_hi.
    rewrite (rsum_ext _ _ (fun i => bm1_fac o spot T i * exp (s i * 9))); [unfold ysum in Hc; unfold s in *; lra|].
    intros i Hi. change (fun i0 => ma_sigma (bk_ma o) i0 * sqrt T) with s. unfold s. do 2 f_equal. ring.
  - destruct Hc as (Kp & L0 & L1). pose proof (bm1_lower o spot T K (XFin x) cp p Hcp Hp) as LB. split; [lra|].
    apply Rle_trans with (1 := bm1_error o spot T K Hm x cp p Hcp Hp). apply Rmult_le_compat_l; [left; apply mk_df_pos|].
    rewrite <- bm1_ysum. change (fun i => ma_sigma (bk_ma o) i * sqrt T) with s. set (Y := ysum (bn o) (bm1_fac o spot T) s x) in *.
    assert (Yp : 0 < Y). { unfold Y, ysum. apply rsum_pos; [exact Hn|]. intros i Hi. apply Rmult_lt_0_compat; [now apply Hf|apply exp_pos]. }
    assert (EY : Y = K * exp (ln (Y / K))). { rewrite exp_ln by (apply Rdiv_lt_0_compat; assumption). field. lra. }
    replace (Y - K) with (K * exp (ln (Y / K)) - K) by lra. pose proof (exp_le _ _ L0) as E0. rewrite exp_0 in E0. pose proof (exp_le _ _ L1) as E1. fold tol in E1.
    rewrite Rabs_right.
    + apply Rle_trans with (K * (exp (ln (Y / K)) - 1)); [lra|]. apply Rmult_le_compat_l; lra.
    + assert (K * 1 <= K * exp (ln (Y / K))) by (apply Rmult_le_compat_l; lra). lra.
Qed.
