(** The moments implied by the corrected basket prices of BsmBasketJu2002. *)
From Coq Require Import Reals Lra Lia Arith List Psatz.
From Coquelicot Require Import Coquelicot.
From Verif Require Import Base Gauss Sums Spec_Expect Spec_Opt Spec_Dist Spec_Multi M_Opt M_Params M_Multi P_Black P_Bsm P_Half P_Multi P_Multi2 P_Conv2 P_Jet P_Jet2 P_Gj P_Graph P_Ju P_Ju2.
Open Scope R_scope.

Section Ju3.
Variables (o : bsk) (spot : vec) (l : mat).
Hypothesis Hisf : k_isf (bk_m o) = true.
Hypothesis HF : factor_of (bn o) l (ma_cov (bk_ma o)).
Hypothesis Hpos : forall i, (i < bn o)%nat -> 0 <= mv_v o spot i.
Hypothesis Hm : 0 < mv_m1 o spot.
Let c := ma_cov (bk_ma o).
Let m := mv_m1 o spot.
Lemma fwd_spot T : mk_fwd (bk_m o) spot T = spot.
Proof using Hisf. unfold mk_fwd. rewrite Hisf. reflexivity. Qed.
Lemma cov_symm i j : (i < bn o)%nat -> (j < bn o)%nat -> c i j = c j i.
Proof using HF. intros Hi Hj. unfold c. rewrite <- (HF i j Hi Hj), <- (HF j i Hj Hi). apply rsum_ext. intros; ring. Qed.
Let WW (k T : R) : R := Wk o spot k T.
Lemma ju_price_form K T : 0 < K -> 0 < T -> let s := sqrt (ln (1 + mv_var_scaled o spot T)) in eps <= s ->
  exists z1 z2 z3, (forall k, 1 + k * (k - 1) * (z1 - k * z2 + k ^ 2 * z3) = WW k T) /\
   forall K, 0 < K -> ju_price o true K spot T 1 = mk_df (bk_m o) T * ju_form m s z1 z2 z3 K.
Proof using Hisf Hpos Hm.
  intros HK HT s He. eexists. eexists. eexists. split; [intros k; unfold WW, Wk; reflexivity|].
  intros K' HK'. unfold ju_price. cbv zeta. rewrite fwd_spot. fold s. rewrite bsm_formula_black.
  assert (Es : sigma_std s 1 = s) by (unfold sigma_std; rewrite sqrt_1, Rmult_1_r; apply Rmax_left, He). rewrite Es.
  rewrite (ju_corr_form o spot Hpos Hm K' T s). fold m. unfold ju_form.
  set (df := mk_df (bk_m o) T). ring.
Qed.
Lemma ln_pos_arg x : 0 < ln x -> 0 < x.
Proof using. intros H. destruct (Rlt_dec 0 x) as [Hx|Hx]; [exact Hx|]. exfalso. revert H. unfold ln. destruct (Rlt_dec 0 x); [contradiction|]. lra. Qed.
Lemma exp_ln_pow N x : 0 < x -> exp (INR N * ln x) = x ^ N.
Proof using. intros Hx. rewrite P_Expect.exp_n, exp_ln by exact Hx. reflexivity. Qed.
Lemma ju_moments k M : (2 <= k <= 4)%nat -> 0 < M -> exists Q, forall T mk, 0 < T <= M -> eps <= sqrt (ln (1 + mv_var_scaled o spot T)) ->
  normals_expect (bn o) (fun z => ln_basket (bn o) spot (bk_w o) l (ma_cov (bk_ma o)) T z ^ k) mk ->
  exists J, half_line (fun K => INR k * (INR k - 1) * K ^ (k - 2) * ju_price o true K spot T 1) (mk_df (bk_m o) T * J) /\ Rabs (J - mk) <= Q * T ^ 4.
Proof using Hisf HF Hpos Hm.
  intros Hk HM.
  pose (mk0 := fun T => match k with 2%nat => mv_m2 o spot T | 3%nat => mv_m3 o spot T | _ => mv_m4 o spot T end).
  pose (N := (k * (k - 1) / 2)%nat).
  assert (HQ : exists Q, 0 <= Q /\ forall T, 0 < T <= M -> Rabs (m ^ k * ((mv_m2 o spot T / m ^ 2) ^ N * WW (INR k) T) - mk0 T) <= Q * T ^ 4).
  { destruct k as [|[|[|[|[|k]]]]]; try lia; unfold mk0, N; cbn [Nat.mul Nat.add Nat.sub Nat.div Nat.divmod fst].
    - replace (INR 2) with 2 by (cbn; ring). exact (ju_2 o spot cov_symm Hm M HM).
    - replace (INR 3) with 3 by (cbn; ring). exact (ju_3 o spot cov_symm Hm M HM).
    - replace (INR 4) with 4 by (cbn; ring). exact (ju_4 o spot cov_symm Hm M HM). }
  destruct HQ as (Q & Q0 & HQ). exists Q. intros T mk HT He Hmk.
  assert (Emk : mk = mk0 T).
  { destruct (mvsk_moments o l spot T HF ltac:(lra)) as (G1 & G2 & G3 & G4). refine (normals_unique _ _ _ _ Hmk _).
    destruct k as [|[|[|[|[|k]]]]]; try lia; unfold mk0; assumption. }
  subst mk. set (s := sqrt (ln (1 + mv_var_scaled o spot T))) in *. pose proof eps_pos as Hep.
  destruct (ju_price_form 1 T ltac:(lra) ltac:(lra) He) as (z1 & z2 & z3 & HW & HP).
  assert (Hs : 0 < s) by lra.
  assert (L0 : 0 < ln (1 + mv_var_scaled o spot T)).
  { destruct (Rlt_dec 0 (ln (1 + mv_var_scaled o spot T))) as [H|H]; [exact H|]. exfalso. assert (s = 0) by (apply sqrt_neg_0; lra). lra. }
  assert (X0 := ln_pos_arg _ L0). assert (Es : s * s = ln (mv_m2 o spot T / m ^ 2)).
  { unfold s. rewrite sqrt_sqrt by lra. f_equal. unfold mv_var_scaled. fold m. ring. }
  assert (X1 : 0 < mv_m2 o spot T / m ^ 2) by (replace (mv_m2 o spot T / m ^ 2) with (1 + mv_var_scaled o spot T) by (unfold mv_var_scaled; fold m; ring); exact X0).
  exists (m ^ k * ((mv_m2 o spot T / m ^ 2) ^ N * WW (INR k) T)). split; [|apply HQ, HT].
  pose proof (ju_implied m s Hm Hs k z1 z2 z3 ltac:(lia)) as HI.
  apply (half_line_scal _ _ (mk_df (bk_m o) T)) in HI. 
  assert (EN : INR k * (INR k - 1) / 2 = INR N).
  { destruct k as [|[|[|[|[|k]]]]]; try lia; unfold N; cbn; field. }
  rewrite EN, Es, exp_ln_pow, HW in HI by exact X1.
  rewrite Rmult_assoc in HI. eapply half_line_ext; [|exact HI].
  intros K HK. cbv beta. rewrite (HP K HK). set (a := ju_form _ _ _ _ _ _). clearbody a. unfold s. ring.
Qed.
End Ju3.
