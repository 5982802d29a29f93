(** CEV: the law implied by the prices. *)
From Coq Require Import Reals Lra Lia Psatz Arith ZArith FunctionalExtensionality.
From Coquelicot Require Import Coquelicot.
From Verif Require Import Base Gauss Sums Spec_Opt Spec_Cev M_Opt M_Heston M_Cev P_Bsm P_Gamma P_Gamma2 P_Ncx2 P_Ncx3 P_Half P_Cev P_Cev2.
Open Scope R_scope.

(** limits of positive powers *)
Lemma Rpower_inf c : 0 < c -> filterlim (fun x => Rpower x c) (Rbar_locally p_infty) (Rbar_locally p_infty).
Proof.
  intros Hc P [M HM]. exists (Rpower (Rmax M 1) (/ c)). intros x Hx. apply HM.
  assert (A : 0 < Rmax M 1) by (pose proof (Rmax_r M 1); lra). apply Rle_lt_trans with (Rmax M 1); [apply Rmax_l|].
  replace (Rmax M 1) with (Rpower (Rpower (Rmax M 1) (/ c)) c) by (rewrite Rpower_mult, Rinv_l, Rpower_1 by lra; reflexivity).
  apply Rlt_Rpower_l; [exact Hc|]. split; [apply exp_pos|exact Hx].
Qed.
Lemma Rpower_0r c : 0 < c -> filterlim (fun x => Rpower x c) (at_right 0) (at_right 0).
Proof. intros Hc P HP. destruct (pow_lim0 c Hc _ HP) as [d Hd]. exists d. intros y Hy Hy0. apply Hd; [exact Hy|exact Hy0|]. apply exp_pos. Qed.
Lemma Rinv_inf : filterlim Rinv (Rbar_locally p_infty) (at_right 0).
Proof.
  intros P [d Hd]. exists (/ d). intros x Hx. assert (D : 0 < / d) by (apply Rinv_0_lt_compat, cond_pos). assert (X : 0 < x) by lra.
  assert (I0 : 0 < / x) by now apply Rinv_0_lt_compat. apply Hd; [|exact I0]. change (Rabs (/ x - 0) < d). rewrite Rminus_0_r, Rabs_right by lra. rewrite <- (Rinv_inv d). apply Rinv_lt_contravar; [nra|exact Hx].
Qed.
Lemma scale_0r c : 0 < c -> filterlim (fun x => x / c) (at_right 0) (at_right 0).
Proof.
  intros Hc P [d Hd]. assert (D : 0 < d * c) by (apply Rmult_lt_0_compat; [apply cond_pos|exact Hc]). exists (mkposreal _ D). intros y Hy Hy0. change (Rabs (y - 0) < d * c) in Hy. rewrite Rminus_0_r, Rabs_right in Hy by lra.
  assert (0 < y / c) by now apply Rdiv_lt_0_compat. apply Hd; [|assumption]. change (Rabs (y / c - 0) < d). rewrite Rminus_0_r, Rabs_right by lra. apply Rmult_lt_reg_r with c; [exact Hc|]. unfold Rdiv. rewrite Rmult_assoc, Rinv_l by lra. lra.
Qed.
Lemma scale_inf c : 0 < c -> filterlim (fun x => x / c) (Rbar_locally p_infty) (Rbar_locally p_infty).
Proof. intros Hc P [M HM]. exists (M * c). intros x Hx. apply HM. apply Rmult_lt_reg_r with c; [exact Hc|]. unfold Rdiv. rewrite Rmult_assoc, Rinv_l by lra. lra. Qed.
Section Y.
Variables (bc s : R).
Hypothesis Hs : 0 < s.
Lemma yv_lim_0r : 0 < bc -> filterlim (fun K => yv bc K s) (at_right 0) (at_right 0).
Proof using Hs. intros H. unfold yv. apply (filterlim_comp _ _ _ (fun K => Rpower K (2 * bc)) (fun x => x / (2 * s)) _ (at_right 0)); [apply Rpower_0r; lra|apply scale_0r; lra]. Qed.
Lemma yv_lim_inf : 0 < bc -> filterlim (fun K => yv bc K s) (Rbar_locally p_infty) (Rbar_locally p_infty).
Proof using Hs. intros H. unfold yv. apply (filterlim_comp _ _ _ (fun K => Rpower K (2 * bc)) (fun x => x / (2 * s)) _ (Rbar_locally p_infty)); [apply Rpower_inf; lra|apply scale_inf; lra]. Qed.
Lemma yv_inv K : yv bc K s = / Rpower K (2 * - bc) / (2 * s).
Proof using. unfold yv. rewrite <- Rpower_Ropp. do 2 f_equal. ring. Qed.
Lemma yv_lim_0r' : bc < 0 -> filterlim (fun K => yv bc K s) (at_right 0) (Rbar_locally p_infty).
Proof using Hs.
  intros H. apply (filterlim_ext (fun K => / Rpower K (2 * - bc) / (2 * s))); [intros; symmetry; apply yv_inv|].
  apply (filterlim_comp _ _ _ (fun K => / Rpower K (2 * - bc)) (fun x => x / (2 * s)) _ (Rbar_locally p_infty)); [|apply scale_inf; lra].
  apply (filterlim_comp _ _ _ (fun K => Rpower K (2 * - bc)) Rinv _ (at_right 0)); [apply Rpower_0r; lra|apply filterlim_Rinv_0_right].
Qed.
Lemma yv_lim_inf' : bc < 0 -> filterlim (fun K => yv bc K s) (Rbar_locally p_infty) (at_right 0).
Proof using Hs.
  intros H. apply (filterlim_ext (fun K => / Rpower K (2 * - bc) / (2 * s))); [intros; symmetry; apply yv_inv|].
  apply (filterlim_comp _ _ _ (fun K => / Rpower K (2 * - bc)) (fun x => x / (2 * s)) _ (at_right 0)); [|apply scale_0r; lra].
  apply (filterlim_comp _ _ _ (fun K => Rpower K (2 * - bc)) Rinv _ (Rbar_locally p_infty)); [apply Rpower_inf; lra|apply Rinv_inf].
Qed.
Lemma yv_mono K1 K2 : 0 < bc -> 0 < K1 -> K1 <= K2 -> yv bc K1 s <= yv bc K2 s.
Proof using Hs. intros H H1 H2. unfold yv. apply Rmult_le_compat_r; [left; apply Rinv_0_lt_compat; lra|]. apply Rle_Rpower_l; [lra|split; assumption]. Qed.
Lemma yv_anti K1 K2 : bc < 0 -> 0 < K1 -> K1 <= K2 -> yv bc K2 s <= yv bc K1 s.
Proof using Hs.
  intros H H1 H2. rewrite !yv_inv. apply Rmult_le_compat_r; [left; apply Rinv_0_lt_compat; lra|]. apply Rinv_le_contravar; [apply exp_pos|]. apply Rle_Rpower_l; [lra|split; assumption].
Qed.
End Y.
Lemma lim_0_le {T} (F : (T -> Prop) -> Prop) {FF : Filter F} (f g : T -> R) : F (fun x => 0 <= f x <= g x) -> filterlim g F (locally 0) -> filterlim f F (locally 0).
Proof.
  intros H G. apply filterlim_locally. intros e. assert (X := proj1 (filterlim_locally g 0) G e). generalize (filter_and _ _ H X). apply filter_imp. intros x [A B].
  change (Rabs (g x - 0) < e) in B. change (Rabs (f x - 0) < e). rewrite Rminus_0_r, Rabs_right in * by lra. lra.
Qed.
Section C.
Variable Gam : R -> R.
Hypothesis HG : gamma_function Gam.
Local Notation np := (np Gam). Local Notation Hn := (Hn Gam).
Lemma Hn_ge0 a l y : 0 < a -> 0 <= l -> 0 < y -> 0 <= Hn a l y.
Proof.
  intros Ha Hl. apply (half_compare (fun _ => 0) (Hn a l) (fun _ => 0) (np a l) 0).
  - intros; apply is_derive_const_R.
  - intros x Hx. now apply (Hn_dy Gam HG).
  - intros x Hx. left. apply (np_pos Gam HG); lra.
  - apply filterlim_const.
  - now apply (Hn_lim0 Gam HG).
Qed.
Lemma Hn_mono_y a l y1 y2 : 0 < a -> 0 <= l -> 0 < y1 -> y1 <= y2 -> Hn a l y1 <= Hn a l y2.
Proof. intros Ha Hl. apply (inc_half (Hn a l) (np a l)); intros x Hx; [now apply (Hn_dy Gam HG)|left; apply (np_pos Gam HG); lra]. Qed.
Lemma Hn_anti_l a l1 l2 y : 0 < a -> 0 <= l1 -> l1 <= l2 -> 0 < y -> Hn a l2 y <= Hn a l1 y.
Proof.
  intros Ha H1 H2 Hy. pose proof (Hn_int Gam HG a y l1 l2 Ha Hy H1 H2) as E.
  assert (0 <= RInt (fun s => np (a + 1) s y) l1 l2); [|lra]. apply RInt_ge_0; [exact H2|apply (np_int Gam HG); lra|]. intros x Hx. left. apply (np_pos Gam HG); lra.
Qed.
Lemma Hn_l0 a y : 0 < a -> 0 < y -> filterlim (fun l => Hn a l y) (at_right 0) (locally (Hn a 0 y)).
Proof.
  intros Ha Hy. set (g := fun l => Hn a 0 y + - RInt (fun s => np (a + 1) s y) 0 l).
  apply (filterlim_ext_loc g). { exists (mkposreal 1 Rlt_0_1). intros l _ Hl. unfold g. pose proof (Hn_int Gam HG a y 0 l Ha Hy ltac:(lra) ltac:(lra)) as E. lra. }
  replace (Hn a 0 y) with (g 0). 2:{ unfold g. rewrite RInt_point. unfold zero; cbn. ring. }
  apply at_right_cont. apply (ex_derive_continuous (K := R_AbsRing) (V := R_NormedModule)). eexists. apply is_derive_plus_R; [apply is_derive_const_R|].
  apply (is_derive_opp (K := R_AbsRing) (V := R_NormedModule) (fun l => RInt (fun s => np (a + 1) s y) 0 l)). apply (is_derive_RInt (fun s => np (a + 1) s y) _ 0 0).
  + apply filter_forall. intros b. apply (RInt_correct (fun s => np (a + 1) s y)). apply (np_int Gam HG); lra.
  + apply (ex_derive_continuous (K := R_AbsRing) (V := R_NormedModule)). eexists. apply (np_dl Gam HG); lra.
Qed.
(** exponential decay in l *)
Lemma ee_le m l : 0 <= l -> 0 <= ee m l <= 2 ^ m * exp (l / 2).
Proof.
  intros Hl. assert (E0 : 0 <= ee m l). { induction m; [cbn; lra|]. cbn [ee]. assert (0 <= l ^ S m / INR (fact (S m))) by (apply Rmult_le_pos; [now apply pow_le|left; apply Rinv_0_lt_compat, fact_pos]). lra. }
  split; [exact E0|]. assert (E : forall n, (n <= m)%nat -> ee n l <= 2 ^ m * ee n (l / 2)).
  { induction n; intros Hn0.
    - cbn [ee]. rewrite Rmult_1_r. apply pow_R1_Rle. lra.
    - cbn [ee]. rewrite Rmult_plus_distr_l. apply Rplus_le_compat; [apply IHn; lia|]. unfold Rdiv at 2 3. rewrite Rpow_mult_distr.
      replace (2 ^ m * (l ^ S n * (/ 2) ^ S n * / INR (fact (S n)))) with (2 ^ m * (/ 2) ^ S n * (l ^ S n / INR (fact (S n)))) by (unfold Rdiv; ring).
      rewrite <- (Rmult_1_l (l ^ S n / INR (fact (S n)))) at 1. apply Rmult_le_compat_r; [apply Rmult_le_pos; [now apply pow_le|left; apply Rinv_0_lt_compat, fact_pos]|].
      rewrite pow_inv. assert (0 < 2 ^ S n) by (apply pow_lt; lra). apply Rmult_le_reg_r with (2 ^ S n); [assumption|]. rewrite Rmult_1_l, Rmult_assoc, Rinv_l, Rmult_1_r by lra. apply Rle_pow; [lra|exact Hn0]. }
  eapply Rle_trans; [apply (E m); lia|]. apply Rmult_le_compat_l; [apply pow_le; lra|]. pose proof (ee_bd m (l / 2)) as B. rewrite (Rabs_right (l / 2)) in B by lra. pose proof (Rle_abs (ee m (l / 2))). lra.
Qed.
Lemma Hn_decay a y : 0 < a -> 0 < y -> exists Cst, 0 <= Cst /\ forall l, 0 <= l -> Hn a l y <= Cst * exp (- / 2 * l).
Proof.
  intros Ha Hy. set (c := fun m => / Gam (a + INR m + 1)).
  assert (CV : CV_radius c = p_infty). { apply (CV_fact _ (/ (a * Gam a))). intros m. unfold c. pose proof (invGam_le Gam HG a m Ha) as [A B]. rewrite Rabs_right by lra. exact B. }
  exists (Rpower y a * exp (- y) * PSeries c (2 * y)). split.
  - apply Rmult_le_pos; [apply Rmult_le_pos; left; apply exp_pos|]. unfold PSeries. apply Series_nonneg; [now apply ps_ex|]. intros m. apply Rmult_le_pos; [left; apply (invGam_le Gam HG a m Ha)|apply pow_le; lra].
  - intros l Hl. unfold P_Ncx3.Hn, hform. replace (exp (- l)) with (exp (- / 2 * l) * exp (- (l / 2))) by (rewrite <- exp_plus; f_equal; field).
    replace (exp (- / 2 * l) * exp (- (l / 2)) * (Rpower y a * exp (- y) * PSeries (Hcf Gam a l) y)) with (Rpower y a * exp (- y) * (exp (- (l / 2)) * PSeries (Hcf Gam a l) y) * exp (- / 2 * l)) by ring.
    apply Rmult_le_compat_r; [left; apply exp_pos|]. apply Rmult_le_compat_l; [apply Rmult_le_pos; left; apply exp_pos|].
    unfold PSeries. rewrite <- Series_scal_l. apply Series_le.
    + intros m. unfold Hcf. pose proof (ee_le m l Hl) as [E0 E1]. pose proof (invGam_le Gam HG a m Ha) as [A _]. change (0 < c m) in A. change (ee m l / Gam (a + INR m + 1)) with (ee m l * c m). pose proof (exp_pos (- (l / 2))). assert (Y : 0 < y ^ m) by now apply pow_lt. split.
      * apply Rmult_le_pos; [lra|]. apply Rmult_le_pos; [|lra]. apply Rmult_le_pos; [exact E0|lra].
      * rewrite Rpow_mult_distr. replace (exp (- (l / 2)) * (ee m l * c m * y ^ m)) with (exp (- (l / 2)) * ee m l * (c m * y ^ m)) by ring. replace (c m * (2 ^ m * y ^ m)) with (2 ^ m * (c m * y ^ m)) by ring.
        apply Rmult_le_compat_r; [apply Rmult_le_pos; lra|]. apply Rle_trans with (exp (- (l / 2)) * (2 ^ m * exp (l / 2))); [apply Rmult_le_compat_l; lra|]. right.
        replace (exp (- (l / 2)) * (2 ^ m * exp (l / 2))) with (2 ^ m * (exp (- (l / 2)) * exp (l / 2))) by ring. rewrite <- exp_plus, Rplus_opp_l, exp_0. ring.
    + now apply ps_ex.
Qed.
Lemma Hn_linf a y (b : R) : 0 < a -> 0 < y -> 0 <= b -> is_lim (fun l => Rpower l b * Hn a l y) p_infty 0.
Proof.
  intros Ha Hy Hb. destruct (Hn_decay a y Ha Hy) as (C & HC & H).
  apply (is_lim_le_le_loc (fun _ => 0) (fun l => C * (Rpower l b * exp (- / 2 * l)))).
  - exists 0. intros l Hl. pose proof (Hn_ge0 a l y Ha ltac:(lra) Hy). assert (0 < Rpower l b) by apply exp_pos. specialize (H l ltac:(lra)). split; [nra|]. apply Rmult_le_compat_l with (r := Rpower l b) in H; [|lra]. lra.
  - apply is_lim_const.
  - replace (Finite 0) with (Rbar_mult C 0) by (cbn; f_equal; ring). apply is_lim_scal_l. apply powexp_lim_p; lra.
Qed.
Lemma Hn_linf0 a y : 0 < a -> 0 < y -> is_lim (fun l => Hn a l y) p_infty 0.
Proof.
  intros Ha Hy. destruct (Hn_decay a y Ha Hy) as (C & HC & H).
  apply (is_lim_le_le_loc (fun _ => 0) (fun l => C * exp (- / 2 * l))).
  - exists 0. intros l Hl. split; [apply Hn_ge0; lra|apply H; lra].
  - apply is_lim_const.
  - replace (Finite 0) with (Rbar_mult C 0) by (cbn; f_equal; ring). apply is_lim_scal_l. apply exp_lim_m. lra.
Qed.
Lemma Hn_y0 a l : 0 < a -> 0 <= l -> filterlim (fun y => Hn (a + 1) l y / Rpower y a) (at_right 0) (locally 0).
Proof.
  intros Ha Hl. apply (filterlim_ext_loc (fun y => exp (- l) * hform 1 (Hcf Gam (a + 1) l) y)).
  - exists (mkposreal 1 Rlt_0_1). intros y _ Hy. unfold P_Ncx3.Hn, hform. rewrite Rpower_plus, Rpower_1 by exact Hy. assert (0 < Rpower y a) by apply exp_pos. field. lra.
  - apply lim_scal_at0, hform_lim0; [lra|]. apply (Hcf_cv Gam HG). lra.
Qed.
Lemma Hn_lt1 a y : 0 < a -> 0 < y -> Hn a 0 y < 1.
Proof.
  intros Ha Hy. pose proof (Hn_le1 Gam HG a 0 (y + 1) Ha ltac:(lra) ltac:(lra)). assert (Hn a 0 y < Hn a 0 (y + 1)); [|lra].
  apply (increasing_on (Hn a 0) (np a 0)); [lra|intros z Hz; apply (Hn_dy Gam HG); lra|intros z Hz; apply (np_pos Gam HG); lra].
Qed.
End C.
