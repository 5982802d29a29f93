(** The standard normal density and distribution function.

    [scipy.stats.norm._pdf] / [scipy.stats.norm._cdf], used throughout /repo/pyfeng
    (e.g. bsm.py:60, norm.py:58), are modelled by their mathematical definitions:
    no property of them is assumed, everything below is proved, including the
    Gaussian integral (limits of [Phi]). *)
From Coq Require Import Reals Lra Psatz.
From Coquelicot Require Import Coquelicot.
From Verif Require Import Base.
Open Scope R_scope.

Definition npdf (x : R) : R := exp (- (x * x) / 2) / sqrt (2 * PI).
Definition Phi (x : R) : R := / 2 + RInt npdf 0 x.

Lemma sqrt_2PI_pos : 0 < sqrt (2 * PI).
Proof. apply sqrt_lt_R0. pose proof PI_RGT_0. lra. Qed.

Lemma npdf_pos x : 0 < npdf x.
Proof. unfold npdf. apply Rdiv_lt_0_compat; [apply exp_pos | apply sqrt_2PI_pos]. Qed.

Lemma npdf_even x : npdf (- x) = npdf x.
Proof. unfold npdf. f_equal. f_equal. lra. Qed.

Lemma is_derive_npdf (x : R) : is_derive npdf x (- x * npdf x).
Proof.
  unfold npdf. pose proof sqrt_2PI_pos.
  auto_derive; [trivial|]. rfield. lra.
Qed.

Lemma continuous_npdf (x : R) : continuous npdf x.
Proof.
  apply (ex_derive_continuous npdf). eexists; apply is_derive_npdf.
Qed.

Lemma ex_RInt_npdf a b : ex_RInt npdf a b.
Proof. apply (ex_RInt_continuous npdf). intros; apply continuous_npdf. Qed.

Lemma is_derive_Phi (x : R) : is_derive Phi x (npdf x).
Proof.
  unfold Phi.
  assert (H : is_derive (fun x => RInt npdf 0 x) x (npdf x)).
  { apply (is_derive_RInt npdf _ 0 x).
    - apply filter_forall. intros y. apply (RInt_correct npdf). apply ex_RInt_npdf.
    - apply continuous_npdf. }
  replace (npdf x) with (plus 0 (npdf x)) by (unfold plus; simpl; lra).
  apply (is_derive_plus (fun _ => / 2) (fun x => RInt npdf 0 x)).
  - apply (is_derive_const (/ 2)).
  - exact H.
Qed.

Lemma Derive_Phi x : Derive Phi x = npdf x.
Proof. apply is_derive_unique, is_derive_Phi. Qed.

Lemma ex_derive_Phi x : ex_derive Phi x.
Proof. eexists; apply is_derive_Phi. Qed.

Lemma continuous_Phi (x : R) : continuous Phi x.
Proof. apply (ex_derive_continuous Phi), ex_derive_Phi. Qed.

Lemma continuity_Phi : continuity Phi.
Proof. intros x. apply continuity_pt_filterlim. apply continuous_Phi. Qed.

Lemma Phi_0 : Phi 0 = / 2.
Proof. unfold Phi. rewrite RInt_point. unfold zero; simpl; lra. Qed.

Lemma is_derive_Phi_comp (f : R -> R) (x df : R) :
  is_derive f x df -> is_derive (fun t => Phi (f t)) x (df * npdf (f x)).
Proof.
  intros H. apply (is_derive_comp Phi f x _ _ (is_derive_Phi (f x)) H).
Qed.

Lemma Phi_sym x : Phi x + Phi (- x) = 1.
Proof.
  transitivity (Phi 0 + Phi (- 0)).
  2:{ rewrite Ropp_0, Phi_0. lra. }
  apply (constant_of_derive_0 (fun x => Phi x + Phi (- x))). clear x. intros x.
  replace 0 with (plus (npdf x) (-1 * npdf (- x)))
    by (rewrite npdf_even; unfold plus; simpl; ring).
  apply (is_derive_plus Phi (fun x => Phi (- x))).
  - apply is_derive_Phi.
  - apply is_derive_Phi_comp. auto_derive; [trivial|]. Req. lra.
Qed.

Lemma Phi_opp x : Phi (- x) = 1 - Phi x.
Proof. pose proof (Phi_sym x). lra. Qed.

Lemma Phi_incr x y : x < y -> Phi x < Phi y.
Proof.
  apply (strictly_increasing_of_derive Phi npdf).
  - apply is_derive_Phi.
  - apply npdf_pos.
Qed.

Lemma Phi_le x y : x <= y -> Phi x <= Phi y.
Proof. intros [H|H]; [left; now apply Phi_incr | subst; lra]. Qed.

(** ** The Gaussian integral *)

Definition gI (x : R) := RInt (fun t => exp (- (t * t))) 0 x.
Definition gJ (x : R) := RInt (fun t => exp (- (x * x * (1 + t * t))) / (1 + t * t)) 0 1.

Lemma one_plus_sq_pos t : 0 < 1 + t * t.
Proof. nra. Qed.

Lemma cont_exp_sq (t : R) : continuous (fun t => exp (- (t * t))) t.
Proof. apply (ex_derive_continuous (fun t => exp (- (t * t)))). auto_derive. trivial. Qed.

Lemma ex_RInt_exp_sq a b : ex_RInt (fun t => exp (- (t * t))) a b.
Proof. apply (ex_RInt_continuous (fun t => exp (- (t * t)))). intros; apply cont_exp_sq. Qed.

Lemma is_derive_gI (x : R) : is_derive gI x (exp (- (x * x))).
Proof.
  unfold gI. apply (is_derive_RInt (fun t => exp (- (t * t))) _ 0 x).
  - apply filter_forall. intros y. apply (RInt_correct (fun t => exp (- (t * t)))).
    apply ex_RInt_exp_sq.
  - apply cont_exp_sq.
Qed.

Lemma ex_RInt_gJ x : ex_RInt (fun t => exp (- (x * x * (1 + t * t))) / (1 + t * t)) 0 1.
Proof.
  apply (ex_RInt_continuous (fun t => exp (- (x * x * (1 + t * t))) / (1 + t * t))).
  intros z _. apply (ex_derive_continuous (fun t => exp (- (x * x * (1 + t * t))) / (1 + t * t))).
  auto_derive. pose proof (one_plus_sq_pos z). lra.
Qed.

Lemma is_derive_gJ_integrand (t x : R) :
  is_derive (fun u : R => exp (- (u * u * (1 + t * t))) / (1 + t * t)) x
            (- (2 * x * exp (- (x * x * (1 + t * t))))).
Proof. pose proof (one_plus_sq_pos t). auto_derive; [lra|]. rfield. lra. Qed.

Lemma is_derive_gJ (x : R) : is_derive gJ x (- (2 * exp (- (x * x)) * gI x)).
Proof.
  unfold gJ.
  pose proof (is_derive_RInt_param
    (fun u t => exp (- (u * u * (1 + t * t))) / (1 + t * t)) 0 1 x) as H.
  assert (E : RInt (fun t => Derive (fun u => exp (- (u * u * (1 + t * t))) / (1 + t * t)) x) 0 1
              = - (2 * exp (- (x * x)) * gI x)).
  { transitivity (RInt (fun t => - (2 * exp (- (x * x))) * (x * exp (- ((x * t + 0) * (x * t + 0))))) 0 1).
    - apply RInt_ext. intros t _.
      etransitivity; [apply is_derive_unique, is_derive_gJ_integrand|].
      replace (- (x * x * (1 + t * t))) with (- (x * x) + - ((x * t + 0) * (x * t + 0))) by ring.
      rewrite exp_plus. Req. ring.
    - rewrite (RInt_scal_R (fun t => x * exp (- ((x * t + 0) * (x * t + 0))))).
      + rewrite (RInt_comp_lin_R (fun y => exp (- (y * y))) x 0 0 1).
        * unfold gI.
          replace (x * 0 + 0) with 0 by ring. replace (x * 1 + 0) with x by ring. Req. ring.
        * apply ex_RInt_exp_sq.
      + apply ex_RInt_of_ex_derive. intros z _. auto_derive. trivial. }
  rewrite <- E. apply H; clear H E.
  - apply filter_forall. intros y t _. eexists. apply is_derive_gJ_integrand.
  - intros t _.
    apply continuity_2d_pt_ext with (f := fun u v => - (2 * u * exp (- (u * u * (1 + v * v))))).
    { intros u v. symmetry. apply is_derive_unique, is_derive_gJ_integrand. }
    apply continuity_2d_pt_opp.
    apply continuity_2d_pt_mult.
    + apply continuity_2d_pt_mult; [apply continuity_2d_pt_const | apply continuity_2d_pt_id1].
    + apply (continuity_1d_2d_pt_comp exp (fun u v => - (u * u * (1 + v * v)))).
      * apply derivable_continuous_pt, derivable_pt_exp.
      * apply continuity_2d_pt_opp. apply continuity_2d_pt_mult.
        -- apply continuity_2d_pt_mult; apply continuity_2d_pt_id1.
        -- apply continuity_2d_pt_plus; [apply continuity_2d_pt_const|].
           apply continuity_2d_pt_mult; apply continuity_2d_pt_id2.
  - apply filter_forall. intros y. apply ex_RInt_gJ.
Qed.

Lemma gI_0 : gI 0 = 0.
Proof. unfold gI. rewrite RInt_point. reflexivity. Qed.

Lemma gJ_0 : gJ 0 = PI / 4.
Proof.
  unfold gJ.
  transitivity (RInt (fun t => / (1 + t * t)) 0 1).
  { apply RInt_ext. intros t _. pose proof (one_plus_sq_pos t).
    replace (- (0 * 0 * (1 + t * t))) with 0 by ring. rewrite exp_0. rfield. lra. }
  apply is_RInt_unique.
  replace (PI / 4) with (minus (atan 1) (atan 0)).
  2:{ unfold minus, plus, opp; simpl. rewrite atan_0, atan_1. lra. }
  apply (is_RInt_derive atan).
  - intros x _. pose proof (one_plus_sq_pos x). auto_derive; [trivial|]. rfield.
    nra.
  - intros x _. apply (ex_derive_continuous (fun t => / (1 + t * t))).
    auto_derive. pose proof (one_plus_sq_pos x). lra.
Qed.

Lemma gIJ x : gI x * gI x + gJ x = PI / 4.
Proof.
  rewrite <- gJ_0.
  transitivity (gI 0 * gI 0 + gJ 0); [| rewrite gI_0; ring].
  apply (constant_of_derive_0 (fun x => gI x * gI x + gJ x)). clear x. intros x.
  assert (H : is_derive (fun x => gI x * gI x + gJ x) x
     (plus (plus (mult (exp (- (x * x))) (gI x)) (mult (gI x) (exp (- (x * x)))))
           (- (2 * exp (- (x * x)) * gI x)))).
  { apply (is_derive_plus (fun x => gI x * gI x) gJ).
    - apply (is_derive_mult gI gI); try apply is_derive_gI.
      intros; apply Rmult_comm.
    - apply is_derive_gJ. }
  replace 0 with (plus (plus (mult (exp (- (x * x))) (gI x)) (mult (gI x) (exp (- (x * x)))))
           (- (2 * exp (- (x * x)) * gI x))); [exact H|].
  unfold plus, mult; simpl. unfold mult; simpl. ring.
Qed.

Lemma gJ_pos x : 0 < gJ x.
Proof.
  unfold gJ. apply RInt_gt_0; [lra| |].
  - intros t _. apply Rdiv_lt_0_compat; [apply exp_pos | apply one_plus_sq_pos].
  - intros z _. apply (ex_derive_continuous (fun t => exp (- (x * x * (1 + t * t))) / (1 + t * t))).
    auto_derive. pose proof (one_plus_sq_pos z). lra.
Qed.

Lemma gJ_le x : gJ x <= exp (- (x * x)).
Proof.
  unfold gJ.
  apply Rle_trans with (RInt (fun _ => exp (- (x * x))) 0 1).
  - apply RInt_le; [lra | apply ex_RInt_gJ | apply ex_RInt_const |].
    intros t _. pose proof (one_plus_sq_pos t).
    apply Rle_trans with (exp (- (x * x)) / 1).
    + unfold Rdiv. apply Rmult_le_compat.
      * left; apply exp_pos.
      * left; apply Rinv_0_lt_compat; lra.
      * destruct (Req_dec (x * x * (t * t)) 0) as [E|E].
        -- replace (- (x * x * (1 + t * t))) with (- (x * x)) by lra. lra.
        -- left. apply exp_increasing. assert (0 <= x * x * (t * t)).
           { apply Rmult_le_pos; nra. } nra.
      * apply Rinv_le_contravar; nra.
    + right. field.
  - rewrite RInt_const. unfold scal; simpl; unfold mult; simpl. lra.
Qed.

Lemma RInt_npdf_gI x : RInt npdf 0 x = gI (x / sqrt 2) / sqrt PI.
Proof.
  pose proof PI_RGT_0 as Hpi. pose proof Rlt_sqrt2_0 as H2.
  assert (HsP : 0 < sqrt PI) by (apply sqrt_lt_R0; lra).
  unfold gI.
  pose proof (RInt_comp_lin_R (fun y => exp (- (y * y))) (/ sqrt 2) 0 0 x (ex_RInt_exp_sq _ _)) as H.
  replace (/ sqrt 2 * 0 + 0) with 0 in H by ring.
  replace (/ sqrt 2 * x + 0) with (x / sqrt 2) in H by (field; lra).
  rewrite <- H. clear H.
  transitivity (/ sqrt PI * RInt (fun y => / sqrt 2 * exp (- ((/ sqrt 2 * y + 0) * (/ sqrt 2 * y + 0)))) 0 x).
  2:{ (Req; field). lra. }
  rewrite <- RInt_scal_R.
  - apply RInt_ext. intros t _. unfold npdf.
    rewrite sqrt_mult by lra.
    replace (- ((/ sqrt 2 * t + 0) * (/ sqrt 2 * t + 0))) with (- (t * t) / (sqrt 2 * sqrt 2)) by (field; lra).
    rewrite sqrt_sqrt by lra. Req. field. lra.
  - apply ex_RInt_of_ex_derive. intros z _. auto_derive. trivial.
Qed.

Lemma Phi_half_sq x : (Phi x - / 2) * (Phi x - / 2) = / 4 - gJ (x / sqrt 2) / PI.
Proof.
  unfold Phi. rewrite RInt_npdf_gI.
  pose proof PI_RGT_0 as Hpi.
  assert (HsP : 0 < sqrt PI) by (apply sqrt_lt_R0; lra).
  pose proof (gIJ (x / sqrt 2)) as H.
  replace ((/ 2 + gI (x / sqrt 2) / sqrt PI - / 2) * (/ 2 + gI (x / sqrt 2) / sqrt PI - / 2))
    with (gI (x / sqrt 2) * gI (x / sqrt 2) / (sqrt PI * sqrt PI)) by (field; lra).
  rewrite sqrt_sqrt by lra.
  replace (gI (x / sqrt 2) * gI (x / sqrt 2)) with (PI / 4 - gJ (x / sqrt 2)) by lra.
  field. lra.
Qed.

Lemma Phi_bounds x : 0 < Phi x < 1.
Proof.
  pose proof (Phi_half_sq x) as H. pose proof (gJ_pos (x / sqrt 2)) as HJ.
  pose proof PI_RGT_0 as Hpi.
  assert (0 < gJ (x / sqrt 2) / PI) by (apply Rdiv_lt_0_compat; lra).
  split; nra.
Qed.

Lemma Phi_pos x : 0 < Phi x. Proof. apply Phi_bounds. Qed.
Lemma Phi_lt_1 x : Phi x < 1. Proof. apply Phi_bounds. Qed.

(** Quantitative tail bound: the distance to the limits decays like exp(-x^2/2). *)
Lemma Phi_tail x : 0 <= x -> 1 - Phi x <= 2 * exp (- (x * x) / 2) / PI.
Proof.
  intros Hx. pose proof (Phi_half_sq x) as H. pose proof (gJ_le (x / sqrt 2)) as HJ.
  pose proof PI_RGT_0 as Hpi. pose proof Rlt_sqrt2_0 as H2.
  replace (- (x / sqrt 2 * (x / sqrt 2))) with (- (x * x) / (sqrt 2 * sqrt 2)) in HJ by (field; lra).
  rewrite sqrt_sqrt in HJ by lra.
  assert (HP : / 2 <= Phi x).
  { rewrite <- Phi_0. now apply Phi_le. }
  pose proof (Phi_lt_1 x) as H1.
  assert (Hq : gJ (x / sqrt 2) / PI <= exp (- (x * x) / 2) / PI).
  { unfold Rdiv. apply Rmult_le_compat_r; [left; apply Rinv_0_lt_compat; lra | exact HJ]. }
  (* (1 - Phi) * Phi = gJ/PI *)
  assert (E : (1 - Phi x) * Phi x = gJ (x / sqrt 2) / PI) by lra.
  assert ((1 - Phi x) * / 2 <= (1 - Phi x) * Phi x) by (apply Rmult_le_compat_l; lra).
  unfold Rdiv in *. lra.
Qed.

Lemma Phi_lim_p : is_lim Phi p_infty 1.
Proof.
  apply is_lim_spec. simpl. intros eps.
  exists (Rmax 1 (2 / eps)). intros x Hx.
  assert (He : 0 < eps) by apply cond_pos.
  assert (H1 : 1 < x) by (eapply Rle_lt_trans; [apply Rmax_l | exact Hx]).
  assert (H2 : 2 / eps < x) by (eapply Rle_lt_trans; [apply Rmax_r | exact Hx]).
  pose proof (Phi_lt_1 x). pose proof (Phi_tail x ltac:(lra)) as Ht.
  rewrite Rabs_left by lra.
  assert (Hpi : 2 < PI) by (pose proof PI2_1; lra).
  assert (Hex : exp (- (x * x) / 2) <= 2 / x).
  { replace (- (x * x) / 2) with (- (x * x / 2)) by field.
    rewrite exp_Ropp.
    assert (x / 2 < exp (x * x / 2)).
    { apply Rlt_le_trans with (1 + x * x / 2); [nra|]. left. apply exp_ineq1. nra. }
    replace (2 / x) with (/ (x / 2)) by (field; lra).
    apply Rinv_le_contravar; lra. }
  assert (2 * exp (- (x * x) / 2) / PI < eps); [|lra].
  apply Rle_lt_trans with (2 * (2 / x) / 2).
  - unfold Rdiv at 1 3. apply Rmult_le_compat.
    + pose proof (exp_pos (- (x * x) / 2)). lra.
    + left; apply Rinv_0_lt_compat; lra.
    + lra.
    + apply Rinv_le_contravar; lra.
  - replace (2 * (2 / x) / 2) with (2 / x) by (field; lra).
    apply (Rmult_lt_reg_r x); [lra|]. replace (2 / x * x) with 2 by (field; lra).
    apply (Rmult_lt_compat_r eps) in H2; [|exact He].
    replace (2 / eps * eps) with 2 in H2 by (field; lra). lra.
Qed.

Lemma Phi_lim_m : is_lim Phi m_infty 0.
Proof.
  apply is_lim_ext with (fun x => 1 - Phi (- x)).
  { intros y. rewrite Phi_opp. lra. }
  replace (Finite 0) with (Rbar_minus 1 1) by (simpl; f_equal; lra).
  apply is_lim_minus'; [apply is_lim_const|].
  apply (is_lim_comp Phi (fun x => - x) m_infty 1 p_infty).
  - apply Phi_lim_p.
  - replace p_infty with (Rbar_opp m_infty) by reflexivity.
    apply is_lim_opp. apply is_lim_id.
  - simpl. exists 0. intros; discriminate.
Qed.
