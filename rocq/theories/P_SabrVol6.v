(** Refutations for the base-beta and lognormal branches; strikes near zero. *)
From Coq Require Import Reals Lra Lia List Psatz.
From Coquelicot Require Import Coquelicot.
From Verif Require Import Base Gauss Sums M_Opt M_Mgf M_Heston M_Fd M_Sabr M_Cev M_SabrVol Spec_Opt Spec_Cev P_Bsm P_Norm P_Sabr3 P_Sabr4 P_Small P_SabrVol P_SabrVol2 P_SabrVol3 P_SabrVol4 P_SabrVol5 P_Gamma P_Gamma2 P_Asian3 P_Cev P_Cev7 Spec_SabrVol.
Open Scope R_scope.
Lemma ln1p_pade x : 0 <= x -> 2 * x / (2 + x) <= ln (1 + x).
Proof.
  intros Hx. destruct (Req_dec x 0) as [->|N]; [replace (1 + 0) with 1 by ring; rewrite ln_1; unfold Rdiv; lra|].
  set (f := fun t => ln (1 + t) - 2 * t / (2 + t)). set (df := fun t => t ^ 2 / ((1 + t) * (2 + t) ^ 2)).
  destruct (MVT_gen f 0 x df) as (c & Hc & E).
  - intros t Ht. rewrite Rmin_left, Rmax_right in Ht by lra. unfold f, df. auto_derive; [split; [lra|split; [lra|exact I]]|]. field. lra.
  - intros t Ht. rewrite Rmin_left, Rmax_right in Ht by lra. apply continuity_pt_filterlim. apply (ex_derive_continuous (K := R_AbsRing) (V := R_NormedModule)). unfold f. auto_derive. split; [lra|split; [lra|exact I]].
  - rewrite Rmin_left, Rmax_right in Hc by lra. unfold f in E at 2. replace (1 + 0) with 1 in E by ring. rewrite ln_1 in E. replace (2 * 0 / (2 + 0)) with 0 in E by field.
    assert (0 <= df c). { unfold df. apply Rdiv_le_0_compat; [apply pow2_ge_0|]. apply Rmult_lt_0_compat; [lra|]. apply pow_lt; lra. }
    assert (0 <= f x) by nra. unfold f in *. lra.
Qed.
Definition wH : sabrp := mkSabr 1 0 0 0.
Definition wmo : opt := mkOpt 0 0 0 true.
Lemma h_base_jump : let K2 := 1 + / 10 ^ 6 in exists v1 v2, h_vol wmo wH (Some 1) 1 1 1 1 = Some v1 /\ h_vol wmo wH (Some 1) 1 K2 1 1 = Some v2 /\ v1 - v2 > / 25.
Proof.
  cbv zeta. set (x := / 10 ^ 6). assert (X : 0 < x < / 999999). { unfold x. split; [apply n6|]. apply Rinv_lt_contravar; [|cbn [pow]; lra]. apply Rmult_lt_0_compat; [lra|apply pow_lt; lra]. }
  pose proof (h_atm wmo wH (Some 1) 1 1 ltac:(lra)) as A. unfold FWD in A. cbn [wmo intr divr is_fwd] in A.
  assert (B : base_ok wH (Some 1)). { right. cbn [wH b_beta]. unfold isclose. destruct (Rle_dec _ _) as [L|]; [|reflexivity]. exfalso. rewrite Rminus_0_l, Rabs_Ropp, Rabs_R1 in L. assert (/ 10 ^ 8 < / 10 /\ / 10 ^ 5 < / 10). { split; apply Rinv_lt_contravar; cbn [pow]; lra. } lra. }
  specialize (A B). change (mkOpt 0 0 0 true) with wmo in A. rewrite A. eexists. unfold h_vol. rewrite fdd_eq. replace (mF wmo 1 1) with 1 by (unfold mF, FWD; cbn [wmo is_fwd]; reflexivity).
  rewrite chk_pos by lra. cbn [obind]. cbv zeta. rewrite alpha_eq by lra. cbn [wH b_sigma b_vov b_rho b_beta]. eexists. split; [reflexivity|]. split; [reflexivity|].
  unfold p_order1_atm. cbn [wH b_beta vol_beta b_vov b_rho b_sigma]. rewrite npow_s_pos by lra. replace (1 - 0) with 1 by ring. rewrite !Rpower_1 by lra. replace (1 - 1) with 0 by ring. rewrite !Rpower_O by lra.
  replace ((1 + x) / 1 - 1) with x by field. replace ((1 + x) / 1) with (1 + x) by field. rewrite powrel_1 by lra. unfold qq_ratio. replace (1 - 1) with 0 by ring. cbn [wH b_beta]. replace (1 - 0) with 1 by ring. replace (1 + x - 1) with x by ring. rewrite powrel_1 by lra.
  replace (powrel x 0) with (ln (1 + x) / x) by (rewrite <- powrel_0; field; lra). unfold h_term20. change (b_beta wH) with 0. replace (isclose 0 1) with false. 2:{ destruct B as [B|B]; cbn [wH b_beta] in B; [lra|symmetry; exact B]. }
  replace (1 * x) with x by ring. destruct (Rlt_dec (Rabs x) (/ 10 ^ 6)) as [L|_]; [rewrite Rabs_right in L by lra; unfold x in L; lra|]. unfold h_term20_off. cbn [b_beta].
  replace (0 / Rmax (1 / 1) eps * x) with 0 by (unfold Rdiv; ring). rewrite hh_0. set (L := ln (1 + x)). pose proof (ln1p_pade x ltac:(lra)) as P. fold L in P.
  assert (L1 : L <= x). { unfold L. rewrite <- (ln_exp x) at 2. apply ln_le_R; [lra|]. apply exp_ineq1_le. }
  assert (L0 : 0 < L). { eapply Rlt_le_trans; [|exact P]. apply Rdiv_lt_0_compat; lra. }
  assert (Q : L / x <= 1). { apply (Rmult_le_reg_r x); [lra|]. unfold Rdiv. rewrite Rmult_assoc, Rinv_l; lra. }
  assert (Q0 : 0 < L / x) by (apply Rdiv_lt_0_compat; lra).
  assert (LB : - ln (L / x) <= x / 2).
  { rewrite <- ln_Rinv by exact Q0. apply Rle_trans with (ln (exp (x / 2))); [|rewrite ln_exp; lra]. apply ln_le_R; [apply Rinv_0_lt_compat, Q0|]. apply Rle_trans with (1 + x / 2); [|apply exp_ineq1_le].
    apply (Rmult_le_reg_r (L / x)); [exact Q0|]. rewrite Rinv_l by lra. unfold Rdiv at 1. apply (Rmult_le_reg_r x); [lra|]. unfold Rdiv in *. replace ((1 + x * / 2) * (L * / x) * x) with ((2 + x) * L / 2) by (field; lra). rewrite Rmult_1_l.
    apply (Rmult_le_compat_l (2 + x)) in P; [|lra]. replace ((2 + x) * (2 * x * / (2 + x))) with (2 * x) in P by (field; lra). unfold Rdiv. lra. }
  replace (L / x / 1) with (L / x) by (unfold Rdiv; rewrite Rinv_1; ring).
  assert (T20 : (/ 2 * (0 - 1) * L - ln (L / x)) * (1 / 1) ^ 2 / x <= x).
  { replace ((1 / 1) ^ 2) with 1 by field. rewrite Rmult_1_r. apply (Rmult_le_reg_r x); [lra|]. unfold Rdiv at 1. rewrite Rmult_assoc, Rinv_l, Rmult_1_r by lra.
    apply Rle_trans with (- (x / (2 + x)) + x / 2); [unfold Rdiv in *; lra|]. replace (- (x / (2 + x)) + x / 2) with (x * x * (/ (2 * (2 + x)))) by (field; lra). assert (/ (2 * (2 + x)) <= / 1) by (apply Rinv_le_contravar; lra). rewrite Rinv_1 in *. nra. }
  set (t := _ * (1 / 1) ^ 2 / x) in *. clearbody t. set (q := L / x) in *. clearbody q.
  replace (0 * 0 / 4 * 0 * (1 / 1) * q) with 0 by (unfold Rdiv; ring). replace ((2 - 3 * 0 ^ 2) / 24 * 0 ^ 2) with 0 by field.
  replace (1 / 1 * 1 * (1 + 1 * ((1 ^ 2 - 0 ^ 2) / 24 * (1 / 1) ^ 2 + (0 * 0 / 4 * (1 / 1) + (2 - 3 * 0 ^ 2) / 24 * 0) * 0))) with (1 + / 24) by field.
  replace ((1 + 1 * (t + 0 + 0)) * (1 / 1 * 1 * q * 1)) with ((1 + t) * q) by field. assert ((1 + t) * q <= 1 + x) by (destruct (Rle_dec 0 (1 + t)); nra).
  assert (/ 999999 < / 1000) by (apply Rinv_lt_contravar; lra). lra.
Qed.
Lemma p_log_bad : exists p F, let alpha := b_sigma p / Rpower F (1 - b_beta p) in
  0 < F /\ 0 < b_sigma p /\ 0 < b_vov p /\ -1 < b_rho p < 1 /\ b_beta p = 1 /\
  is_lim (fun K => let z := b_vov p / alpha * (powrel (K / F - 1) (1 - b_beta p) * (K / F - 1)) in p_order1_den p None alpha (K / F) z (z ^ 2)) F (p_order1_atm p None alpha + / 16).
Proof.
  exists (mkSabr (/ 2) 1 (/ 2) 1), 1. cbv zeta. cbn [b_sigma b_beta b_vov b_rho]. replace (Rpower 1 (1 - 1)) with 1 by (replace (1 - 1) with 0 by ring; symmetry; apply Rpower_O; lra).
  repeat (split; [lra|]). pose proof (p_log_limit (mkSabr (/ 2) 1 (/ 2) 1) None 1 ltac:(lra)) as L. cbn [b_sigma b_beta b_vov b_rho] in L. cbv zeta in L. replace (Rpower 1 (1 - 1)) with 1 in L by (replace (1 - 1) with 0 by ring; symmetry; apply Rpower_O; lra).
  replace (p_order1_atm _ _ _ + / 16) with (p_order1_atm (mkSabr (/ 2) 1 (/ 2) 1) None (/ 2 / 1) + / 2 * 1 / 4 * 1 * (1 - / 2 / 1)) by field. apply L; try lra; [exact I|].
  replace (1 - 1) with 0 by ring. rewrite Rabs_R0. apply Rinv_0_lt_compat, pow_lt; lra.
Qed.
(** ** strikes tending to zero *)
Lemma hh_cont rho z : -1 < rho < 1 -> Rabs z <> / 10 ^ 3 -> continuous (fun u => hh u rho) z.
Proof.
  intros Hr Hz. destruct (Rtotal_order (Rabs z) (/ 10 ^ 3)) as [L|[E|L]]; [|contradiction|].
  - apply (continuous_ext_loc _ (fun u => hh_taylor u rho)).
    + assert (D : 0 < / 10 ^ 3 - Rabs z) by lra. exists (mkposreal _ D). intros u Hu. change (Rabs (u - z) < / 10 ^ 3 - Rabs z) in Hu. unfold hh. destruct (Rlt_dec _ _) as [|N]; [reflexivity|]. exfalso. apply N. pose proof (Rabs_triang_inv u z). lra.
    + apply (ex_derive_continuous (K := R_AbsRing) (V := R_NormedModule)). unfold hh_taylor. auto_derive. exact I.
  - apply (continuous_ext_loc _ (fun u => u / xx rho u)).
    + assert (D : 0 < Rabs z - / 10 ^ 3) by lra. exists (mkposreal _ D). intros u Hu. change (Rabs (u - z) < Rabs z - / 10 ^ 3) in Hu. unfold hh. destruct (Rlt_dec _ _) as [N|]; [|symmetry; apply hh_log_eq, Hr]. exfalso. pose proof (Rabs_triang_inv z u). rewrite Rabs_minus_sym in Hu. lra.
    + assert (NZ : z <> 0) by (intros ->; rewrite Rabs_R0 in L; assert (0 < / 10 ^ 3) by (apply Rinv_0_lt_compat, pow_lt; lra); lra).
      apply (continuous_mult (K := R_AbsRing)); [apply continuous_id|]. apply (continuous_comp (xx rho) Rinv); [apply (ex_derive_continuous (K := R_AbsRing) (V := R_NormedModule)); eexists; apply d_xx, Hr|].
      apply continuity_pt_filterlim. apply continuity_pt_inv; [apply continuity_pt_id|]. apply xx_nz; assumption.
Qed.
Lemma hh_nz rho z : -1 < rho < 1 -> hh z rho <> 0.
Proof.
  intros Hr. unfold hh. destruct (Rlt_dec (Rabs z) (/ 10 ^ 3)) as [L|L].
  - pose proof (TT_lo rho Hr z ltac:(lra)) as P. unfold TT in P. lra.
  - intros E. assert (H : / 10 ^ 3 <= Rabs z) by lra. pose proof (hh_exact rho Hr z H) as Q. unfold hh in Q. destruct (Rlt_dec _ _); [lra|]. rewrite E, Rmult_0_l in Q. subst z. rewrite Rabs_R0 in L. apply L. apply Rinv_0_lt_compat, pow_lt; lra.
Qed.
Lemma at_r0_scal F : 0 < F -> filterlim (fun K => K / F) (at_right 0) (at_right 0).
Proof.
  intros HF P [d Hd]. assert (D : 0 < d * F) by (apply Rmult_lt_0_compat; [apply cond_pos|exact HF]). exists (mkposreal _ D). intros K HK KP. change (Rabs (K - 0) < d * F) in HK. rewrite Rminus_0_r, Rabs_right in HK by lra.
  assert (0 < K / F) by (apply Rdiv_lt_0_compat; lra). apply Hd; [|assumption]. change (Rabs (K / F - 0) < d). rewrite Rminus_0_r, Rabs_right by lra. apply (Rmult_lt_reg_r F); [exact HF|]. unfold Rdiv. rewrite Rmult_assoc, Rinv_l; lra.
Qed.
Definition ov (x : option R) : R := match x with Some v => v | None => 0 end.
Lemma h_strike0 mo p S T : 0 < S -> 0 < b_beta p < 1 -> -1 < b_rho p < 1 ->
  let F := FWD (intr mo) (divr mo) (is_fwd mo) S T in let alpha := b_sigma p / Rpower F (1 - b_beta p) in let z0 := - b_vov p / (alpha * (1 - b_beta p)) in
  eps <= alpha -> Rabs z0 <> / 10 ^ 3 ->
  filterlim (fun K => ov (h_vol mo p None 1 K S T)) (at_right 0) (locally (b_sigma p * hh z0 (b_rho p) * (1 + T * (b_rho p / 4 * b_vov p * alpha + (2 - 3 * b_rho p ^ 2) / 24 * b_vov p ^ 2)))).
Proof.
  intros HS Hb Hr F alpha z0 He Hz. assert (HF : 0 < F) by (apply (mF_pos mo S T HS)). set (bc := 1 - b_beta p) in *. assert (Hbc : 0 < bc < 1) by (unfold bc; lra). set (be := b_beta p) in *.
  assert (Ha : 0 < alpha). { eapply Rlt_le_trans; [|exact He]. unfold eps. apply Rinv_0_lt_compat, pow_lt; lra. }
  assert (La : filterlim (fun K => Rpower (K / F) bc) (at_right 0) (locally 0)) by exact (filterlim_comp _ _ _ _ _ _ _ _ (at_r0_scal F HF) (pow_lim0 bc ltac:(lra))).
  assert (Lb : filterlim (fun K => Rpower (K / F) be) (at_right 0) (locally 0)) by exact (filterlim_comp _ _ _ _ _ _ _ _ (at_r0_scal F HF) (pow_lim0 be ltac:(lra))).
  set (g1 := fun a => b_sigma p * hh (b_vov p / alpha * ((a - 1) / bc)) (b_rho p)).
  assert (C1 : continuous g1 0).
  { unfold g1. apply (continuous_scal_r (K := R_AbsRing) (V := R_NormedModule)). apply (continuous_comp (fun a => b_vov p / alpha * ((a - 1) / bc)) (fun u => hh u (b_rho p))).
    - apply (ex_derive_continuous (K := R_AbsRing) (V := R_NormedModule)). auto_derive. exact I.
    - apply hh_cont; [exact Hr|]. replace (b_vov p / alpha * ((0 - 1) / bc)) with z0 by (unfold z0; field; lra). exact Hz. }
  assert (L1 : filterlim (fun K => g1 (Rpower (K / F) bc)) (at_right 0) (locally (g1 0))) by exact (filterlim_comp _ _ _ _ g1 _ _ _ La C1).
  assert (L2 : filterlim (fun K => (Rpower (K / F) be - 1) / be) (at_right 0) (locally ((0 - 1) / be))).
  { refine (filterlim_comp _ _ _ _ (fun a => (a - 1) / be) _ _ _ Lb _). apply (ex_derive_continuous (K := R_AbsRing) (V := R_NormedModule) (fun a => (a - 1) / be) 0). auto_derive. exact I. }
  assert (L3 : filterlim (fun K => / (K / F - 1)) (at_right 0) (locally (/ (0 / F - 1)))).
  { apply (cont_0 (fun K => / (K / F - 1))). apply (ex_derive_continuous (K := R_AbsRing) (V := R_NormedModule)). auto_derive. split; [lra|exact I] || (replace (0 * / F + - (1)) with (-1) by (field; lra); lra). }
  pose proof (lim_mult_0 _ _ _ _ L2 L3) as L4.
  set (g2 := fun w => 1 + T * (b_rho p * be / 4 * b_vov p * alpha * w + (2 - 3 * b_rho p ^ 2) / 24 * b_vov p ^ 2)).
  assert (L5 : filterlim (fun K => g2 ((Rpower (K / F) be - 1) / be * / (K / F - 1))) (at_right 0) (locally (g2 ((0 - 1) / be * / (0 / F - 1))))).
  { refine (filterlim_comp _ _ _ _ g2 _ _ _ L4 _). apply (ex_derive_continuous (K := R_AbsRing) (V := R_NormedModule) g2). unfold g2. auto_derive. exact I. }
  pose proof (lim_mult_0 _ _ _ _ L1 L5) as L6.
  replace (b_sigma p * _ * _) with (g1 0 * g2 ((0 - 1) / be * / (0 / F - 1))).
  2:{ unfold g1, g2. f_equal; [f_equal; f_equal; unfold z0; field; lra|]. replace (0 / F - 1) with (- (1)) by (unfold Rdiv; ring). replace ((0 - 1) / be * / - (1)) with (/ be) by (field; lra). do 3 f_equal. field. lra. }
  refine (filterlim_ext_loc _ _ _ L6). exists (mkposreal F HF). intros K HK KP. change (Rabs (K - 0) < F) in HK. rewrite Rminus_0_r, Rabs_right in HK by lra.
  assert (P : 0 < K / F) by (apply Rdiv_lt_0_compat; assumption). assert (P1 : K / F < 1). { apply (Rmult_lt_reg_r F); [exact HF|]. unfold Rdiv. rewrite Rmult_assoc, Rinv_l; lra. }
  unfold ov, h_vol. rewrite fdd_eq. change (mF mo S T) with F. rewrite chk_pos by assumption. cbn [obind]. cbv zeta. rewrite alpha_eq by exact HF. fold be. fold bc. fold alpha. cbn [qq_ratio h_term20 vol_beta]. fold be. fold bc.
  rewrite npow_s_pos by exact HF. rewrite Rmax_left by exact He.
  assert (PR : forall c, c <> 0 -> powrel (K / F - 1) c = (Rpower (K / F) c - 1) / (c * (K / F - 1))).
  { intros c Hc. unfold powrel. destruct (Req_EM_T _ _) as [|_]; [lra|]. destruct (Req_EM_T _ _) as [|_]; [lra|]. replace (1 + (K / F - 1)) with (K / F) by ring. reflexivity. }
  rewrite !PR by (unfold be in *; lra). unfold g1, g2. assert (EA : alpha * Rpower F bc = b_sigma p). { unfold alpha. field. apply Rgt_not_eq, exp_pos. } rewrite EA.
  replace ((Rpower (K / F) bc - 1) / (bc * (K / F - 1)) * (K / F - 1)) with ((Rpower (K / F) bc - 1) / bc) by (field; lra).
  set (h := hh _ _). set (u := Rpower (K / F) be). replace ((u - 1) / (be * (K / F - 1))) with ((u - 1) / be * / (K / F - 1)) by (field; unfold be in *; lra). ring.
Qed.
Lemma tail_lim Gam a P (x : R -> R) (x0 : R) : gamma_function Gam -> 0 < a -> cdf_of (gamma_pdf Gam a) P -> 0 < x0 ->
  filterlim x (at_right 0) (locally x0) -> filterlim (fun T => - T * ln (1 - P (x T / T))) (at_right 0) (locally x0).
Proof.
  intros HG Ha HP X0 TL. pose proof (lnQ_lim Gam a P HG Ha HP) as L.
  assert (E : at_right 0 (fun T => x0 / 2 < x T)). { apply (TL (fun y => x0 / 2 < y)). apply (locally_gt (fun u => u)); [apply continuous_id|lra]. }
  assert (Xi : filterlim (fun T => x T / T) (at_right 0) (Rbar_locally p_infty)).
  { intros Pr [M HM]. destruct E as [d Hd]. assert (D2 : 0 < Rmin d (x0 / 2 / (Rabs M + 1))). { apply Rmin_pos; [apply cond_pos|]. apply Rdiv_lt_0_compat; [lra|]. pose proof (Rabs_pos M). lra. }
    exists (mkposreal _ D2). intros T HT TP. apply HM. change (Rabs (T - 0) < Rmin d (x0 / 2 / (Rabs M + 1))) in HT. rewrite Rminus_0_r, Rabs_right in HT by lra.
    assert (A : T < d) by (eapply Rlt_le_trans; [exact HT|apply Rmin_l]). assert (B : T < x0 / 2 / (Rabs M + 1)) by (eapply Rlt_le_trans; [exact HT|apply Rmin_r]).
    specialize (Hd T). assert (x0 / 2 < x T). { apply Hd; [|exact TP]. change (Rabs (T - 0) < d). rewrite Rminus_0_r, Rabs_right; lra. }
    pose proof (Rabs_pos M). pose proof (Rle_abs M). apply (Rmult_lt_compat_r (Rabs M + 1)) in B; [|lra]. replace (x0 / 2 / (Rabs M + 1) * (Rabs M + 1)) with (x0 / 2) in B by (field; lra).
    apply (Rmult_lt_reg_r T); [exact TP|]. unfold Rdiv. rewrite Rmult_assoc, Rinv_l by lra. nra. }
  assert (L2 : filterlim (fun T => - ln (1 - P (x T / T)) / (x T / T)) (at_right 0) (locally 1)) by exact (filterlim_comp _ _ _ _ (fun x => - ln (1 - P x) / x) _ _ _ Xi L).
  pose proof (lim_mult_0 _ _ _ _ TL L2) as L3. rewrite Rmult_1_r in L3. refine (filterlim_ext_loc _ _ _ L3). destruct E as [d Hd]. exists d. intros T HT TP. specialize (Hd T HT TP). set (q := ln _). field. split; lra.
Qed.
Lemma mass_v_lim Gam gcdf gsf beta (v : R -> R) (v0 S : R) : gamma_function Gam -> gamma_routines Gam gcdf gsf -> beta < 1 -> 0 < S -> v0 <> 0 ->
  filterlim v (at_right 0) (locally v0) ->
  filterlim (fun T => - T * ln (cev_mass_zero gsf beta (mkOpt (v T) 0 0 false) S T)) (at_right 0) (locally (/ 2 * (Rpower S (2 * (1 - beta)) / ((1 - beta) * v0) ^ 2))).
Proof.
  intros HG Hg Hb HS Hv Lv. set (a := / 2 / (1 - beta)). assert (Ha : 0 < a) by (unfold a; apply Rdiv_lt_0_compat; lra). destruct (Hg a Ha) as [HP Hsf].
  set (x := fun u => / 2 * (Rpower S (2 * (1 - beta)) / ((1 - beta) * u) ^ 2)).
  assert (XP : forall u, u <> 0 -> 0 < x u). { intros u Hu. unfold x. apply Rmult_lt_0_compat; [lra|]. apply Rdiv_lt_0_compat; [apply exp_pos|]. apply pow2_gt_0. apply Rmult_integral_contrapositive_currified; lra. }
  assert (Cx : continuous x v0). { apply (ex_derive_continuous (K := R_AbsRing) (V := R_NormedModule)). unfold x. auto_derive. rewrite Rmult_1_r. assert ((1 - beta) * v0 <> 0) by (apply Rmult_integral_contrapositive_currified; lra). apply Rmult_integral_contrapositive_currified; assumption. }
  pose proof (tail_lim Gam a (fun y => gcdf y a) (fun T => x (v T)) (x v0) HG Ha HP (XP v0 Hv) (filterlim_comp _ _ _ _ x _ _ _ Lv Cx)) as L. refine (filterlim_ext_loc _ _ _ L).
  assert (NE : at_right 0 (fun T => v T <> 0)).
  { apply (Lv (fun y => y <> 0)). assert (D : 0 < Rabs v0) by (apply Rabs_pos_lt, Hv). exists (mkposreal _ D). intros y Hy E. change (Rabs (y - v0) < Rabs v0) in Hy. rewrite E, Rminus_0_l, Rabs_Ropp in Hy. lra. }
  destruct NE as [d Hd]. exists d. intros T HT TP. specialize (Hd T HT TP). rewrite mass_as_tail by (try assumption; lra). fold a. rewrite t0_eq by exact HS. cbn [sigma intr divr]. replace (2 * (0 - 0) * (1 - beta) * T) with 0 by ring. rewrite exprel_z, Rinv_1, Rmult_1_r.
  replace (mF (mkOpt (v T) 0 0 false) S T) with S. 2:{ unfold mF, FWD. cbn [is_fwd intr divr]. replace ((0 - 0) * T) with 0 by ring. rewrite exp_0. ring. }
  fold (x (v T)). rewrite Hsf by (apply Rdiv_lt_0_compat; [apply XP, Hd|exact TP]). reflexivity.
Qed.
Lemma h_t0 Gam gcdf gsf mo p S : gamma_function Gam -> gamma_routines Gam gcdf gsf -> is_fwd mo = true -> 0 < S -> 0 < b_beta p < 1 -> -1 < b_rho p < 1 ->
  let alpha := b_sigma p / Rpower S (1 - b_beta p) in eps <= alpha -> Rabs (b_vov p / (alpha * (1 - b_beta p))) <> / 10 ^ 3 ->
  exists v, (forall T, filterlim (fun K => match h_vol mo p None 1 K S T with Some w => w | None => 0 end) (at_right 0) (locally (v T))) /\
    forall Te, filterlim (fun T => - T * ln (cev_mass_zero gsf (b_beta p) (mkOpt (v T) 0 0 false) S T)) (at_right 0) (locally (h_mass_zero_t0 mo p S Te)).
Proof.
  intros HG Hg Hf HS Hb Hr alpha He Hz. set (z0 := - b_vov p / (alpha * (1 - b_beta p))).
  assert (EZ : Rabs z0 = Rabs (b_vov p / (alpha * (1 - b_beta p)))). { unfold z0. replace (- b_vov p / (alpha * (1 - b_beta p))) with (- (b_vov p / (alpha * (1 - b_beta p)))) by (unfold Rdiv; ring). apply Rabs_Ropp. }
  assert (Ep : 0 < eps) by (unfold eps; apply Rinv_0_lt_compat, pow_lt; lra).
  exists (fun T => b_sigma p * hh z0 (b_rho p) * (1 + T * (b_rho p / 4 * b_vov p * alpha + (2 - 3 * b_rho p ^ 2) / 24 * b_vov p ^ 2))). split.
  - intros T. pose proof (h_strike0 mo p S T HS Hb Hr) as L. unfold FWD in L. rewrite Hf in L. cbv zeta in L. fold alpha in L. fold z0 in L. apply L; [exact He|]. rewrite EZ. exact Hz.
  - intros Te. assert (Sp : b_sigma p <> 0). { intros E. unfold alpha in He. rewrite E in He. unfold Rdiv in He. rewrite Rmult_0_l in He. lra. }
    assert (V0 : b_sigma p * hh z0 (b_rho p) <> 0) by (apply Rmult_integral_contrapositive_currified; [exact Sp|apply hh_nz, Hr]).
    pose proof (mass_v_lim Gam gcdf gsf (b_beta p) (fun T => b_sigma p * hh z0 (b_rho p) * (1 + T * (b_rho p / 4 * b_vov p * alpha + (2 - 3 * b_rho p ^ 2) / 24 * b_vov p ^ 2))) (b_sigma p * hh z0 (b_rho p)) S HG Hg ltac:(lra) HS V0) as L.
    replace (h_mass_zero_t0 mo p S Te) with (/ 2 * (Rpower S (2 * (1 - b_beta p)) / ((1 - b_beta p) * (b_sigma p * hh z0 (b_rho p))) ^ 2)).
    2:{ unfold h_mass_zero_t0. cbv zeta. change (forward mo S Te) with (mF mo S Te). replace (mF mo S Te) with S by (unfold mF, FWD; rewrite Hf; reflexivity). rewrite alpha_eq by exact HS. fold alpha. fold z0. unfold alpha. replace (2 * (1 - b_beta p)) with ((1 - b_beta p) + (1 - b_beta p)) by ring. rewrite Rpower_plus.
        field. repeat split; try apply Rgt_not_eq, exp_pos; try lra; try exact Sp. apply hh_nz, Hr. }
    apply L. set (c := _ + _ * b_vov p ^ 2). set (w := b_sigma p * hh z0 (b_rho p)). pose proof (cont_0 (fun T => w * (1 + T * c))) as L0. cbv beta in L0. replace (w * (1 + 0 * c)) with w in L0 by ring. apply L0. apply (ex_derive_continuous (K := R_AbsRing) (V := R_NormedModule)). auto_derive. exact I.
Qed.
(** the leading order is the same geodesic distance in every base beta *)
Lemma powrel_pow F K c : 0 < F -> 0 < K -> c <> 0 -> Rpower F c * (powrel (K / F - 1) c * (K / F - 1)) = (Rpower K c - Rpower F c) / c.
Proof.
  intros HF HK Hc. assert (P : 0 < K / F) by (apply Rdiv_lt_0_compat; assumption). unfold powrel. destruct (Req_EM_T (K / F - 1) 0) as [E|E].
  - assert (K = F) by (apply (Rmult_eq_reg_r (/ F)); [unfold Rdiv in E; rewrite Rinv_r; lra|apply Rinv_neq_0_compat; lra]). subst. rewrite E. unfold Rdiv. ring.
  - destruct (Req_EM_T c 0); [contradiction|]. replace (1 + (K / F - 1)) with (K / F) by ring. fold (Rpower (K / F) c).
    assert (EK : Rpower K c = Rpower F c * Rpower (K / F) c). { rewrite Rpower_mult_distr by assumption. f_equal. field. lra. } rewrite EK. set (u := K / F) in *. clearbody u. field. split; [exact Hc|exact E].
Qed.
Lemma h_base_invariant mo p b K S T v v' : 0 < S -> 0 < K -> b_beta p < 1 -> b <> 1 -> let F := FWD (intr mo) (divr mo) (is_fwd mo) S T in
  h_vol mo p (Some b) 0 K S T = Some v -> h_vol mo p None 0 K S T = Some v' ->
  v * ((Rpower K (1 - b_beta p) - Rpower F (1 - b_beta p)) / (1 - b_beta p)) = v' * ((Rpower K (1 - b) - Rpower F (1 - b)) / (1 - b)).
Proof.
  intros HS HK Hb Hb' F E E'. assert (HF : 0 < F) by (apply (mF_pos mo S T HS)). unfold h_vol in E, E'. rewrite fdd_eq in E, E'. change (mF mo S T) with F in *. rewrite chk_pos in E, E' by assumption. cbn [obind] in E, E'. cbv zeta in E, E'. injection E as E. injection E' as E'.
  cbn [qq_ratio vol_beta] in E, E'. rewrite !npow_s_pos in E by exact HF. rewrite !npow_s_pos in E' by exact HF. rewrite <- !powrel_pow by (try assumption; lra). rewrite <- E, <- E'. unfold qq_ratio.
  destruct (Req_dec (K / F - 1) 0) as [Z|Z]; [rewrite Z; ring|].
  assert (PN : powrel (K / F - 1) (1 - b_beta p) <> 0).
  { assert (P : 0 < K / F) by (apply Rdiv_lt_0_compat; assumption). pose proof (powrel_E (1 - b_beta p) (ln (K / F))) as Q. rewrite exp_ln in Q by exact P. intros W. rewrite W, Rmult_0_l in Q. pose proof (EE_pos (1 - b_beta p) (ln (K / F))).
    symmetry in Q. apply Rmult_integral in Q. destruct Q as [Q|Q]; [|lra]. apply Z. rewrite <- (exp_ln (K / F)) by exact P. rewrite Q, exp_0. ring. }
  set (q1 := powrel (K / F - 1) (1 - b_beta p)) in *. set (q2 := powrel (K / F - 1) (1 - b)). set (h := hh _ _). field. split; [lra|exact PN].
Qed.
Lemma lorig_hagan mo p S T : 0 < S -> 0 < b_sigma p -> let F := FWD (intr mo) (divr mo) (is_fwd mo) S T in
  lorig_vol mo p 1 1 F S T = Spec_Sabr.hagan_lognormal (b_sigma p) (b_beta p) (b_rho p) (b_vov p) F F T 1.
Proof.
  intros HS Hs F. assert (HF : 0 < F) by (apply (mF_pos mo S T HS)). unfold F at 1. rewrite (lorig_atm1 mo p S T HS Hs). fold F. unfold Spec_Sabr.hagan_lognormal. rewrite (Rp_half (F * F) (1 - b_beta p)), (Rp_KF F F) by exact HF. replace (F / F) with 1 by (field; lra). rewrite ln_1.
  replace (Rpower 1 ((1 - b_beta p) / 2)) with 1 by (unfold Rpower; rewrite ln_1, Rmult_0_r, exp_0; reflexivity). field. apply Rgt_not_eq, exp_pos.
Qed.
Lemma lorig_parity cevp mo p order lv K S T : let v := lorig_vol mo p order lv K S T in
  approx_price cevp 1 mo v K S T 1 - approx_price cevp 1 mo v K S T (-1) = DF (intr mo) T * (FWD (intr mo) (divr mo) (is_fwd mo) S T - K).
Proof. intros v. unfold approx_price, sabr_base_price. rewrite isclose_refl. exact (bsm_parity (set_sigma mo v) K S T). Qed.
Lemma lorig_flat_price cevp mo p order lv K S T cp : b_vov p = 0 -> b_beta p = 1 -> 0 < S -> 0 < K ->
  approx_price cevp 1 mo (lorig_vol mo p order lv K S T) K S T cp = bsm_price (mkOpt (b_sigma p) (intr mo) (divr mo) (is_fwd mo)) K S T cp.
Proof. intros Hv Hb HS HK. rewrite lorig_flat by assumption. unfold approx_price, sabr_base_price. rewrite isclose_refl. reflexivity. Qed.
