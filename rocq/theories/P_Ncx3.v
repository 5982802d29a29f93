(** The distribution function of the non-central chi-square law, its derivatives in both arguments, and its limit at infinity. *)
From Coq Require Import Reals Lra Lia Psatz Arith FunctionalExtensionality.
From Coquelicot Require Import Coquelicot.
From Verif Require Import Base Sums Spec_Cev P_Gamma P_Gamma2 P_Ncx2 P_Half.
Open Scope R_scope.

Lemma filterlim_le_le_at0 (f h g : R -> R) (v : R) : at_right 0 (fun x => f x <= g x <= h x) -> filterlim f (at_right 0) (locally v) -> filterlim h (at_right 0) (locally v) -> filterlim g (at_right 0) (locally v).
Proof. intros H A B. exact (filterlim_le_le (F := at_right 0) f g h (Finite v) H A B). Qed.
Section N.
Variable Gam : R -> R.
Hypothesis HG : gamma_function Gam.
Local Notation np := (np Gam). Local Notation Bs := (Bs Gam).
(** partial sums of the exponential series *)
Fixpoint ee (m : nat) (l : R) : R := match m with O => 1 | S k => ee k l + l ^ S k / INR (fact (S k)) end.
Lemma ee_bd m l : Rabs (ee m l) <= exp (Rabs l).
Proof.
  assert (E : forall m, Rabs (ee m l) <= sum_f_R0 (fun k => / INR (fact k) * Rabs l ^ k) m).
  { induction m0; [cbn; rewrite Rabs_R1; lra|]. cbn [ee sum_f_R0]. eapply Rle_trans; [apply Rabs_triang|]. apply Rplus_le_compat; [exact IHm0|].
    unfold Rdiv. rewrite Rabs_mult, RPow_abs, (Rabs_right (/ INR (fact (S m0)))) by (left; apply Rinv_0_lt_compat, fact_pos). rewrite Rmult_comm. apply Rle_refl. }
  eapply Rle_trans; [apply E|]. pose proof (exp_series (Rabs l)) as X. pose proof (is_series_unique _ _ X) as U. rewrite <- U.
  assert (Hp : forall k, 0 <= / INR (fact k) * Rabs l ^ k) by (intros k; apply Rmult_le_pos; [left; apply Rinv_0_lt_compat, fact_pos|apply pow_le, Rabs_pos]).
  rewrite (Series_incr_n _ (S m)) by (try lia; eexists; exact X). cbn [pred].
  assert (0 <= Series (fun k => / INR (fact (S m + k)) * Rabs l ^ (S m + k))); [|lra].
  apply Series_nonneg; [|intros; apply Hp]. apply (ex_series_incr_n (fun k => / INR (fact k) * Rabs l ^ k) (S m)). eexists; exact X.
Qed.
Definition Hcf (a l : R) (m : nat) : R := ee m l / Gam (a + INR m + 1).
Definition Hn (a l y : R) : R := exp (- l) * hform a (Hcf a l) y.
Lemma Hcf_cv a l : 0 < a -> CV_radius (Hcf a l) = p_infty.
Proof.
  intros Ha. apply (CV_fact _ (exp (Rabs l) * / (a * Gam a))). intros m. unfold Hcf. unfold Rdiv at 1. rewrite Rabs_mult.
  pose proof (invGam_le Gam HG a m Ha) as [G1 G2]. rewrite (Rabs_right (/ Gam _)) by lra. pose proof (ee_bd m l) as E. pose proof (Rabs_pos (ee m l)).
  unfold Rdiv. rewrite Rmult_assoc. apply Rmult_le_compat; [assumption|lra|exact E|exact G2].
Qed.
Lemma Hcf_coef a l y : 0 < a -> PSeries (hcoef a (Hcf a l)) y = Bs a (l * y).
Proof.
  intros Ha. unfold P_Ncx2.Bs, PSeries. apply Series_ext. intros m. rewrite Rpow_mult_distr. unfold bsc. destruct m; unfold hcoef, Hcf.
  - cbn [fact INR ee pow]. rewrite Rplus_0_r, (Gam_succ Gam HG) by exact Ha. pose proof (Gam_pos Gam HG a Ha). field. split; lra.
  - cbn [ee]. pose proof (pos_INR m). replace (a + INR (S m) + 1) with (a + INR (S m) + 1) by ring. rewrite (Gam_succ Gam HG (a + INR (S m))) by (rewrite S_INR; lra).
    replace (a + INR m + 1) with (a + INR (S m)) by (rewrite S_INR; ring). pose proof (Gam_pos Gam HG (a + INR (S m)) ltac:(rewrite S_INR; lra)). pose proof (fact_pos (S m)). field. rewrite S_INR. repeat split; try lra. rewrite <- S_INR. lra.
Qed.
Lemma Hn_dy a l y : 0 < a -> 0 < y -> is_derive (Hn a l) y (np a l y).
Proof.
  intros Ha Hy. eapply is_derive_eq; [apply is_derive_scal_R; apply hform_derive; [now apply Hcf_cv|exact Hy]|]. unfold hform, P_Ncx2.np. rewrite Hcf_coef by exact Ha. ring.
Qed.
Lemma Hn_lim0 a l : 0 < a -> filterlim (Hn a l) (at_right 0) (locally 0).
Proof. intros Ha. apply lim_scal_at0, hform_lim0; [exact Ha|now apply Hcf_cv]. Qed.
Lemma np_lim0 a l : 0 < a -> filterlim (np (a + 1) l) (at_right 0) (locally 0).
Proof.
  intros Ha. apply (filterlim_ext (fun y => Rpower y a * (exp (- l) * exp (- y) * Bs (a + 1) (l * y)))). { intros y. unfold P_Ncx2.np. replace (a + 1 - 1) with a by ring. ring. }
  replace 0 with (0 * (exp (- l) * exp (- 0) * Bs (a + 1) (l * 0))) at 2 by ring. apply lim_mult_R; [typeclasses eauto|now apply pow_lim0|].
  apply (at_right_cont (fun y => exp (- l) * exp (- y) * Bs (a + 1) (l * y))). apply (ex_derive_continuous (K := R_AbsRing) (V := R_NormedModule)).
  eexists. apply is_derive_mult_R; [apply is_derive_scal_R; instantiate (1 := - exp (- 0)); auto_derive; [exact I|ring]|].
  apply (is_derive_comp_R (Bs (a + 1)) (fun y => l * y) 0); [apply (Bs_derive Gam HG); lra|]. instantiate (1 := l). auto_derive; [exact I|ring].
Qed.
Lemma Hn_step a l y : 0 < a -> 0 < y -> Hn a l y - Hn (a + 1) l y = np (a + 1) l y.
Proof.
  intros Ha. apply (half_unique (fun y => Hn a l y - Hn (a + 1) l y) (np (a + 1) l) (fun y => np a l y - np (a + 1) l y) 0).
  - intros x Hx. apply is_derive_minus_R; apply Hn_dy; lra.
  - intros x Hx. now apply (np_dy Gam HG).
  - replace 0 with (0 + - 0) at 2 by ring. apply (lim_plus_at0 (Hn a l) (fun y => - Hn (a + 1) l y)); [now apply Hn_lim0|].
    apply (filterlim_comp _ _ _ (Hn (a + 1) l) Ropp _ (locally 0)); [apply Hn_lim0; lra|exact (filterlim_opp (0 : R_NormedModule))].
  - now apply np_lim0.
Qed.
(** continuity of np in both arguments *)
Lemma cont_pt (f : R -> R) (x : R) : ex_derive f x -> continuity_pt f x.
Proof. intros H. apply continuity_pt_filterlim. apply (ex_derive_continuous (K := R_AbsRing) (V := R_NormedModule) f). exact H. Qed.
Lemma np_cont2 a y l : 0 < a -> 0 < y -> continuity_2d_pt (fun y l => np a l y) y l.
Proof.
  intros Ha Hy. unfold P_Ncx2.np. repeat apply continuity_2d_pt_mult.
  - apply (continuity_1d_2d_pt_comp (fun x => exp (- x)) (fun _ l => l)); [apply cont_pt; auto_derive; exact I|apply continuity_2d_pt_id2].
  - apply (continuity_1d_2d_pt_comp (fun x => exp (- x)) (fun y _ => y)); [apply cont_pt; auto_derive; exact I|apply continuity_2d_pt_id1].
  - apply (continuity_1d_2d_pt_comp (fun x => Rpower x (a - 1)) (fun y _ => y)); [apply cont_pt; eexists; now apply rpow_derive|apply continuity_2d_pt_id1].
  - apply (continuity_1d_2d_pt_comp (Bs a) (fun y l => l * y)); [apply cont_pt; eexists; now apply (Bs_derive Gam HG)|]. apply continuity_2d_pt_mult; [apply continuity_2d_pt_id2|apply continuity_2d_pt_id1].
Qed.
Lemma np_int a y l0 l : 0 < a -> 0 < y -> ex_RInt (fun s => np a s y) l0 l.
Proof. intros Ha Hy. apply ex_RInt_of_ex_derive. intros s _. eexists. now apply (np_dl Gam HG). Qed.
Lemma Hn_int a y l0 l : 0 < a -> 0 < y -> 0 <= l0 -> l0 <= l -> Hn a l y - Hn a l0 y = - RInt (fun s => np (a + 1) s y) l0 l.
Proof.
  intros Ha Hy Hl0 Hl. revert y Hy.
  apply (half_unique (fun y => Hn a l y - Hn a l0 y) (fun y => - RInt (fun s => np (a + 1) s y) l0 l) (fun y => np a l y - np a l0 y) 0).
  - intros x Hx. apply is_derive_minus_R; now apply Hn_dy.
  - intros x Hx.
    assert (Lx : locally x (fun u => 0 < u)) by (apply (locally_gt (fun u => u) 0 x); [apply continuous_id|exact Hx]).
    assert (DV : forall u s, 0 < u -> Derive (fun z => np (a + 1) s z) u = np a s u - np (a + 1) s u) by (intros u s Hu; apply is_derive_unique; now apply (np_dy Gam HG)).
    eapply is_derive_eq.
    + apply (is_derive_opp (K := R_AbsRing) (V := R_NormedModule) (fun y => RInt (fun s => np (a + 1) s y) l0 l)).
      apply (is_derive_RInt_param (fun y s => np (a + 1) s y) l0 l x).
      * revert Lx. apply filter_imp. intros u Hu t _. eexists. now apply (np_dy Gam HG).
      * intros t Ht. apply (continuity_2d_pt_ext_loc (fun u v => np a v u - np (a + 1) v u)).
        -- exists (mkposreal x Hx). intros u v Hu _. cbn in Hu. symmetry. apply DV. apply Rabs_def2 in Hu. lra.
        -- apply continuity_2d_pt_minus; apply np_cont2; lra.
      * revert Lx. apply filter_imp. intros u Hu. apply np_int; lra.
    + rewrite (RInt_ext _ (fun s => - (np (a + 1) s x - np a s x))).
      2:{ intros s _. rewrite DV by exact Hx. Req. ring. }
      etransitivity; [apply (f_equal Ropp); apply (RInt_of_derive (fun s => - np a s x))|ring].
      * intros s _. apply (is_derive_opp (K := R_AbsRing) (V := R_NormedModule) (fun s => np a s x)). now apply (np_dl Gam HG).
      * intros s _. apply (ex_derive_continuous (K := R_AbsRing) (V := R_NormedModule)). eexists.
        apply (is_derive_opp (K := R_AbsRing) (V := R_NormedModule) (fun s => np (a + 1) s x - np a s x)). apply is_derive_minus_R; apply (np_dl Gam HG); lra.
  - replace 0 with (0 + - 0) at 2 by ring. apply (lim_plus_at0 (Hn a l) (fun y => - Hn a l0 y)); [now apply Hn_lim0|].
    apply (filterlim_comp _ _ _ (Hn a l0) Ropp _ (locally 0)); [apply Hn_lim0; lra|exact (filterlim_opp (0 : R_NormedModule))].
  - apply (filterlim_le_le_at0 (fun y => - ((l - l0) * Bs (a + 1) l * Rpower y a)) (fun _ => 0)).
    + exists (mkposreal 1 Rlt_0_1). intros y Hy Hy0. change (Rabs (y - 0) < 1) in Hy. rewrite Rminus_0_r, Rabs_right in Hy by lra.
      assert (P : 0 <= RInt (fun s => np (a + 1) s y) l0 l <= RInt (fun _ => Bs (a + 1) l * Rpower y a) l0 l).
      { split; [apply RInt_ge_0; [exact Hl|apply np_int; lra|]|apply RInt_le; [exact Hl|apply np_int; lra|apply ex_RInt_const|]].
        - intros s Hs. left. apply (np_pos Gam HG); lra.
        - intros s Hs. unfold P_Ncx2.np. replace (a + 1 - 1) with a by ring. pose proof (exp_pos (a * ln y)) as E. change (0 < Rpower y a) in E.
          assert (E1 : exp (- s) <= 1) by (rewrite <- exp_0; apply exp_le; lra). assert (E2 : exp (- y) <= 1) by (rewrite <- exp_0; apply exp_le; lra).
          pose proof (exp_pos (- s)). pose proof (exp_pos (- y)). assert (E3 : exp (- s) * exp (- y) <= 1) by nra.
          assert (B0 : 0 < Bs (a + 1) (s * y)) by (apply (Bs_pos Gam HG); nra). assert (B1 : Bs (a + 1) (s * y) <= Bs (a + 1) l) by (apply (Bs_mono Gam HG); nra).
          assert (exp (- s) * exp (- y) * Bs (a + 1) (s * y) <= Bs (a + 1) l) by nra. nra. }
      rewrite RInt_const_R in P. lra.
    + replace 0 with (- ((l - l0) * Bs (a + 1) l * 0)) at 2 by ring. apply (filterlim_comp _ _ _ (fun y => (l - l0) * Bs (a + 1) l * Rpower y a) Ropp _ (locally ((l - l0) * Bs (a + 1) l * 0))).
      * rewrite Rmult_0_r. apply lim_scal_at0. now apply pow_lim0.
      * exact (filterlim_opp ((l - l0) * Bs (a + 1) l * 0 : R_NormedModule)).
    + apply filterlim_const.
Qed.
Lemma Hn_dl a l y : 0 < a -> 0 < y -> 0 < l -> is_derive (fun l => Hn a l y) l (- np (a + 1) l y).
Proof.
  intros Ha Hy Hl. apply (is_derive_ext_loc (fun l => Hn a 0 y + - RInt (fun s => np (a + 1) s y) 0 l)).
  { apply (filter_imp (fun u => 0 < u)); [|apply (locally_gt (fun u => u) 0 l); [apply continuous_id|exact Hl]]. intros u Hu. pose proof (Hn_int a y 0 u Ha Hy ltac:(lra) ltac:(lra)) as E. Req. lra. }
  eapply is_derive_eq; [apply is_derive_plus_R; [apply is_derive_const_R|]|].
  - apply (is_derive_opp (K := R_AbsRing) (V := R_NormedModule) (fun l => RInt (fun s => np (a + 1) s y) 0 l)). apply (is_derive_RInt (fun s => np (a + 1) s y) _ 0 l).
    + apply filter_forall. intros b. apply (RInt_correct (fun s => np (a + 1) s y)). apply np_int; lra.
    + apply (ex_derive_continuous (K := R_AbsRing) (V := R_NormedModule)). eexists. apply (np_dl Gam HG); lra.
  - unfold opp; cbn. ring.
Qed.
(** the l = 0 case is the gamma law *)
Lemma np_0 a y : 0 < a -> 0 < y -> np a 0 y = gamma_pdf Gam a y.
Proof.
  intros Ha Hy. unfold P_Ncx2.np, gamma_pdf. rewrite Rmult_0_l. unfold P_Ncx2.Bs. rewrite PSeries_0. unfold bsc. cbn [fact INR]. rewrite Rplus_0_r, Ropp_0, exp_0. pose proof (Gam_pos Gam HG a Ha). field. lra.
Qed.
Lemma Hn_0 a : 0 < a -> cdf_of (gamma_pdf Gam a) (Hn a 0).
Proof.
  intros Ha. destruct (HG a Ha) as [G0 [P (P1 & P2 & P3)]]. assert (D : forall x, 0 < x -> is_derive (Hn a 0) x (gamma_pdf Gam a x)) by (intros x Hx; rewrite <- np_0 by assumption; now apply Hn_dy).
  split; [exact D|]. split; [now apply Hn_lim0|]. apply (is_lim_ext_loc P); [|exact P3]. exists 0. intros y Hy.
  symmetry. apply (half_unique (Hn a 0) P (gamma_pdf Gam a) 0); auto. now apply Hn_lim0.
Qed.
Lemma cdf_range f P : cdf_of f P -> (forall x, 0 < x -> 0 <= f x) -> forall x, 0 < x -> 0 <= P x <= 1.
Proof.
  intros (D & L0 & L1) Hf x Hx. pose proof (inc_half P f D Hf) as M. split.
  - apply (half_compare (fun _ => 0) P (fun _ => 0) f 0); auto; [intros; apply is_derive_const_R|apply filterlim_const].
  - apply (is_lim_le_loc (fun _ => P x) P p_infty (P x) 1); [exists x; intros y Hy; apply M; lra|apply is_lim_const|exact L1].
Qed.
(** the gamma mixture converges to 1 *)
Lemma Hn_mixture a l N y : 0 < a -> 0 <= l -> 0 < y -> exp (- l) * rsum N (fun j => l ^ j / INR (fact j) * Hn (a + INR j) 0 y) <= Hn a l y.
Proof.
  intros Ha Hl.
  apply (half_compare (fun y => exp (- l) * rsum N (fun j => l ^ j / INR (fact j) * Hn (a + INR j) 0 y)) (Hn a l) (fun y => exp (- l) * rsum N (fun j => l ^ j / INR (fact j) * np (a + INR j) 0 y)) (np a l) 0).
  - intros x Hx. apply is_derive_scal_R. apply (rsum_derive N (fun j x => l ^ j / INR (fact j) * Hn (a + INR j) 0 x)). intros k _. apply is_derive_scal_R. apply Hn_dy; [pose proof (pos_INR k); lra|exact Hx].
  - intros x Hx. now apply Hn_dy.
  - intros x Hx. unfold P_Ncx2.np at 2. pose proof (ps_ex (bsc Gam a) (l * x) (bsc_cv Gam HG a Ha)) as E.
    rewrite (rsum_ext N _ (fun j => exp (- x) * Rpower x (a - 1) * (bsc Gam a j * (l * x) ^ j))).
    2:{ intros j _. rewrite np_0 by (try exact Hx; pose proof (pos_INR j); lra). unfold gamma_pdf, bsc. replace (a + INR j - 1) with (a - 1 + INR j) by ring. rewrite Rpower_plus, Rpower_pow, Rpow_mult_distr by exact Hx.
        pose proof (Gam_pos Gam HG (a + INR j) ltac:(pose proof (pos_INR j); lra)). pose proof (fact_pos j). field. split; lra. }
    rewrite rsum_scal. rewrite !Rmult_assoc. apply Rmult_le_compat_l; [left; apply exp_pos|]. apply Rmult_le_compat_l; [left; apply exp_pos|]. apply Rmult_le_compat_l; [left; apply exp_pos|].
    assert (Hp : forall k, 0 <= bsc Gam a k * (l * x) ^ k) by (intros k; apply Rmult_le_pos; [left; now apply (bsc_pos Gam HG)|apply pow_le; nra]).
    unfold P_Ncx2.Bs, PSeries. destruct N; [apply Series_nonneg; assumption|]. rewrite (Series_incr_n _ (S N)) by (try lia; exact E). cbn [pred].
    assert (0 <= Series (fun k => bsc Gam a (S N + k) * (l * x) ^ (S N + k))) by (apply Series_nonneg; [now apply (ex_series_incr_n (fun k => bsc Gam a k * (l * x) ^ k) (S N))|intros; apply Hp]).
    assert (Q : forall n, rsum (S n) (fun j => bsc Gam a j * (l * x) ^ j) = sum_f_R0 (fun k => bsc Gam a k * (l * x) ^ k) n). { induction n; [cbn; ring|]. change (rsum (S (S n)) (fun j => bsc Gam a j * (l * x) ^ j)) with (rsum (S n) (fun j => bsc Gam a j * (l * x) ^ j) + bsc Gam a (S n) * (l * x) ^ (S n)). rewrite IHn. reflexivity. }
    rewrite Q. lra.
  - apply lim_scal_at0. assert (Z : forall n, filterlim (fun y => rsum n (fun j => l ^ j / INR (fact j) * Hn (a + INR j) 0 y)) (at_right 0) (locally 0)); [|apply Z].
    induction n; [exact (filterlim_const (F := at_right 0) (0 : R_UniformSpace))|]. cbn [rsum]. match goal with |- filterlim ?f ?F _ => change (filterlim f F (locally 0)); cut (filterlim f F (locally (0 + 0))); [now rewrite Rplus_0_r|] end. apply lim_plus_at0; [exact IHn|]. apply lim_scal_at0, Hn_lim0. pose proof (pos_INR n). lra.
  - now apply Hn_lim0.
Qed.
Lemma Hn_le1 a l y : 0 < a -> 0 <= l -> 0 < y -> Hn a l y <= 1.
Proof.
  intros Ha Hl Hy. pose proof (Hn_int a y 0 l Ha Hy ltac:(lra) Hl) as E.
  assert (0 <= RInt (fun s => np (a + 1) s y) 0 l) by (apply RInt_ge_0; [exact Hl|apply np_int; lra|intros s Hs; left; apply (np_pos Gam HG); lra]).
  assert (Hn a 0 y <= 1); [|lra]. apply (cdf_range (gamma_pdf Gam a) (Hn a 0)); [now apply Hn_0| |exact Hy]. intros x Hx. rewrite <- np_0 by assumption. left. apply (np_pos Gam HG); lra.
Qed.
Lemma Hn_lim1 a l : 0 < a -> 0 <= l -> is_lim (Hn a l) p_infty 1.
Proof.
  intros Ha Hl. apply is_lim_spec. intros e.
  assert (X : exists N, 1 - e / 2 < exp (- l) * rsum N (fun j => l ^ j / INR (fact j))).
  { pose proof (exp_series l) as X. unfold is_series in X. assert (E0 : 0 < exp l * (e / 2)) by (apply Rmult_lt_0_compat; [apply exp_pos|destruct e; cbn; lra]).
    destruct (X (fun v => Rabs (v - exp l) < exp l * (e / 2))) as [N HN]. { exists (mkposreal _ E0). intros v Hv. exact Hv. }
    specialize (HN N ltac:(lia)). cbv beta in HN. exists (S N).
    assert (Q : forall n, rsum (S n) (fun j => l ^ j / INR (fact j)) = sum_n (fun n => / INR (fact n) * l ^ n) n). { induction n; [rewrite sum_O; cbn; field|]. rewrite sum_Sn, <- IHn. unfold plus; cbn -[fact INR]. unfold Rdiv. ring. }
    apply Rabs_def2 in HN. assert (HW : - (exp l * (e / 2)) < rsum (S N) (fun j => l ^ j / INR (fact j)) - exp l) by (rewrite Q; exact (proj2 HN)). clear HN Q X. rewrite exp_Ropp. apply Rmult_lt_reg_l with (exp l); [apply exp_pos|]. rewrite <- Rmult_assoc, Rinv_r by (apply Rgt_not_eq, exp_pos). lra. }
  destruct X as [N HN].
  assert (L : is_lim (fun y => exp (- l) * rsum N (fun j => l ^ j / INR (fact j) * Hn (a + INR j) 0 y)) p_infty (exp (- l) * rsum N (fun j => l ^ j / INR (fact j)))).
  { assert (Z : forall n, is_lim (fun y => rsum n (fun j => l ^ j / INR (fact j) * Hn (a + INR j) 0 y)) p_infty (rsum n (fun j => l ^ j / INR (fact j)))).
    { induction n; [exact (is_lim_const 0 p_infty)|]. cbn [rsum]. apply (is_lim_plus _ _ p_infty (rsum n (fun j => l ^ j / INR (fact j))) (l ^ n / INR (fact n))); [exact IHn| |reflexivity].
      replace (Finite (l ^ n / INR (fact n))) with (Rbar_mult (l ^ n / INR (fact n)) 1) by (cbn; f_equal; ring). apply is_lim_scal_l. apply Hn_0. pose proof (pos_INR n). lra. }
    specialize (Z N). apply (is_lim_scal_l _ (exp (- l))) in Z. exact Z. }
  apply is_lim_spec in L. assert (E2 : 0 < e / 2) by (destruct e; cbn; lra). destruct (L (mkposreal _ E2)) as [M HM]. exists (Rmax 0 M). intros y Hy. pose proof (Rmax_l 0 M). pose proof (Rmax_r 0 M).
  specialize (HM y ltac:(lra)). cbn in HM. apply Rabs_def2 in HM. pose proof (Hn_mixture a l N y Ha Hl ltac:(lra)). pose proof (Hn_le1 a l y Ha Hl ltac:(lra)). apply Rabs_def1; lra.
Qed.

(** back to the specification's scale *)
Lemma ncx2_np k lam x : 0 < k -> 0 < x -> ncx2_pdf Gam k lam x = / 2 * np (k / 2) (lam / 2) (x / 2).
Proof.
  intros Hk Hx. unfold ncx2_pdf, P_Ncx2.np, P_Ncx2.Bs, PSeries.
  transitivity (/ 2 * exp (- (lam / 2)) * exp (- (x / 2)) * Rpower (x / 2) (k / 2 - 1) * Series (fun n => bsc Gam (k / 2) n * (lam / 2 * (x / 2)) ^ n)); [|ring].
  rewrite <- Series_scal_l. apply Series_ext. intros j. unfold chi2_pdf, bsc. replace ((k + 2 * INR j) / 2) with (k / 2 + INR j) by field. replace (k / 2 + INR j - 1) with (k / 2 - 1 + INR j) by ring.
  rewrite Rpower_plus, Rpower_pow, Rpow_mult_distr by lra. pose proof (Gam_pos Gam HG (k / 2 + INR j) ltac:(pose proof (pos_INR j); lra)). pose proof (fact_pos j). field. split; lra.
Qed.
Lemma Hn_cdf k lam : 0 < k -> 0 <= lam -> cdf_of (ncx2_pdf Gam k lam) (fun x => Hn (k / 2) (lam / 2) (x / 2)).
Proof.
  intros Hk Hl. split; [|split].
  - intros x Hx. rewrite ncx2_np by assumption. eapply is_derive_eq; [apply (is_derive_comp_R (Hn (k / 2) (lam / 2)) (fun x => x / 2) x); [apply Hn_dy; lra|]|].
    + instantiate (1 := / 2). auto_derive; [exact I|field].
    + ring.
  - apply (filterlim_comp _ _ _ (fun x => x / 2) (Hn (k / 2) (lam / 2)) _ (at_right 0)); [|apply Hn_lim0; lra].
    intros Q [d Hd]. exists d. intros y Hy Hy0. apply Hd; [|lra]. change (Rabs (y - 0) < d) in Hy. change (Rabs (y / 2 - 0) < d). rewrite Rminus_0_r, Rabs_right in * by lra. lra.
  - apply is_lim_spec. pose proof (Hn_lim1 (k / 2) (lam / 2) ltac:(lra) ltac:(lra)) as L. apply is_lim_spec in L. intros e. destruct (L e) as [M HM]. exists (2 * M). intros y Hy. apply HM. lra.
Qed.
End N.
Lemma ncx2_exists Gam : gamma_function Gam -> exists cdf sf pdf, ncx2_routines Gam cdf sf pdf.
Proof.
  intros HG. exists (fun x k lam => Hn Gam (k / 2) (lam / 2) (x / 2)), (fun x k lam => 1 - Hn Gam (k / 2) (lam / 2) (x / 2)), (fun x k lam => ncx2_pdf Gam k lam x).
  intros k lam Hk Hl. split; [apply Hn_cdf; [exact HG|exact Hk|lra]|]. intros x Hx. split; reflexivity.
Qed.
Lemma ncx2_cdf_eq Gam cdf sf pdf x k lam : gamma_function Gam -> ncx2_routines Gam cdf sf pdf -> 0 < k -> 0 < lam -> 0 < x -> cdf x k lam = Hn Gam (k / 2) (lam / 2) (x / 2).
Proof.
  intros HG HR Hk Hl. destruct (HR k lam Hk Hl) as [(A1 & A2 & _) _]. destruct (Hn_cdf Gam HG k lam Hk ltac:(lra)) as (B1 & B2 & _).
  exact (half_unique (fun x => cdf x k lam) (fun x => Hn Gam (k / 2) (lam / 2) (x / 2)) (ncx2_pdf Gam k lam) 0 A1 B1 A2 B2 x).
Qed.
