(** Witness paths for the schemes of heston_rough_mc.py, and the relation with the transform's weights. *)
From Coq Require Import Reals List Lra Lia Psatz ZArith.
From Coquelicot Require Import Coquelicot.
From Verif Require Import Base Sums Spec_Cev P_Gamma2 M_Fd M_Opt M_Rough P_Rough M_RoughMc Spec_RoughMc P_RoughMc.
Import ListNotations.
Open Scope R_scope.
Lemma nth_rep (x : R) n k : (k < n)%nat -> nth k (repeat x n) 0 = x.
Proof. revert k. induction n; intros k H; [lia|]. destruct k; [reflexivity|]. cbn. apply IHn. lia. Qed.
(** no shocks and the variance at its mean: every scheme stays there *)
Lemma em_flat Gam p dt n : gamma_function Gam -> 0 < dt -> rh_alpha p < / 2 -> 0 <= rh_sigma p -> rh_theta p = rh_sigma p -> em_path Gam p dt (fun _ => 0) n = Some (repeat (rh_sigma p) (S n)).
Proof.
  intros HG Hdt Ha Hs Ht. induction n; [reflexivity|]. cbn [em_path]. rewrite IHn. unfold em_next.
  rewrite (rsum_eq0 (S n)) by (intros k Hk; unfold rm_f; rewrite nth_rep by lia; rewrite Ht; ring).
  rewrite (osum_some (S n) _ (fun _ => 0)).
  - rewrite rsum_0 || rewrite (rsum_eq0 (S n)) by reflexivity. rewrite !Rmult_0_r, !Rplus_0_r. f_equal. change (repeat (rh_sigma p) (S (S n))) with (rh_sigma p :: repeat (rh_sigma p) (S n)). symmetry. apply repeat_cons.
  - intros k Hk. rewrite nth_rep by lia. rewrite (proj2 (root_ok_iff _) Hs). destruct (term2_int Gam HG p dt Hdt Ha (S n) k ltac:(lia)) as [w [E _]]. cbv zeta in E. rewrite E. f_equal. ring.
Qed.
Lemma fast_flat Gam p dt L x w n : rh_alpha p < / 2 -> 0 <= rh_sigma p -> rh_theta p = rh_sigma p -> exists H J, fast_state Gam p dt L x w (fun _ => 0) n = Some (rh_sigma p, H, J) /\ (forall l, H l = 0) /\ forall l, J l = 0.
Proof.
  intros Ha Hs Ht. induction n.
  - exists (fun _ => 0), (fun _ => 0). auto.
  - destruct IHn as (H & J & E & H0 & J0). cbn [fast_state]. rewrite E. destruct (Rlt_dec (rh_alpha p) (/ 2)); [|lra]. rewrite (proj2 (root_ok_iff _) Hs).
    assert (Ef : rm_f p (rh_sigma p) = 0) by (unfold rm_f; rewrite Ht; ring).
    match goal with |- exists H0 J0, Some (?v, ?h, ?j) = _ /\ _ => exists h, j; assert (Ev : v = rh_sigma p) end.
    { rewrite (rsum_eq0 L (fun l => w l * exp (- x l * dt) * H l)) by (intros; rewrite H0; ring). rewrite (rsum_eq0 L (fun l => w l * exp (- x l * dt) * J l)) by (intros; rewrite J0; ring). rewrite Ef. ring. }
    split; [now rewrite Ev|]. split; intros l; [unfold rm_H; rewrite H0, Ef; ring|unfold rm_J; rewrite J0; ring].
Qed.
Lemma mf_flat Gam p texp dt N n : 0 <= rh_sigma p -> rh_mr p = 0 -> exists U, mf_state Gam p texp dt N (fun _ => 0) n = Some (rh_sigma p, U) /\ forall j, U j = 0.
Proof.
  intros Hs Hm. induction n; [exists (fun _ => 0); auto|]. destruct IHn as (U & E & U0). cbn [mf_state]. rewrite E, (proj2 (root_ok_iff _) Hs).
  assert (Z : forall j, rm_V_tJ p dt (rm_gam (rh_alpha p) texp N j) (U j) (rh_sigma p) 0 = 0) by (intros j; unfold rm_V_tJ; rewrite U0, Hm; ring).
  match goal with |- exists U0, Some (?v, ?h) = _ /\ _ => exists h; assert (Ev : v = rh_sigma p) end.
  { rewrite (rsum_eq0 N (fun j => rm_c Gam (rh_alpha p) texp N j * rm_V_tJ p dt (rm_gam (rh_alpha p) texp N j) (U j) (rh_sigma p) 0)) by (intros j _; rewrite Z; ring). rewrite Hm. ring. }
  split; [now rewrite Ev|exact Z].
Qed.
(** the drift weights are the transform's predictor weights for the exponent 1 - alpha *)
Lemma drift_weights Gam al dt k j : gamma_function Gam -> al < 1 -> 0 < dt -> (j <= k)%nat ->
  1 / Gam (2 - al) * rm_term1 al dt (rm_grid dt (S k)) (rm_grid dt (S j)) = b_j_kp1 Gam (1 - al) k dt j.
Proof.
  intros HG Ha Hd Hj. unfold rm_term1, b_j_kp1, rm_grid. replace (1 - al + 1) with (2 - al) by ring. pose proof (Gam_pos Gam HG (2 - al) ltac:(lra)). rewrite !S_INR. apply le_INR in Hj.
  replace ((INR k + 1) * dt - (INR j + 1) * dt + dt) with (dt * (INR k - INR j + 1)) by ring. replace ((INR k + 1) * dt - (INR j + 1) * dt) with (dt * (INR k - INR j)) by ring.
  rewrite !(Rmult_comm dt). rewrite !npow_mul by lra. field. lra.
Qed.
