(** Theorems about SabrChoiWu2021H / SabrChoiWu2021P / SabrLorig2017. *)
From Coq Require Import Reals Lra Lia List Psatz.
From Coquelicot Require Import Coquelicot.
From Verif Require Import Base Gauss Sums M_Opt M_Mgf M_Heston M_Fd M_Sabr M_Cev M_SabrVol Spec_Opt Spec_Cev P_Bsm P_Norm P_Sabr3 P_Sabr4 P_Small P_SabrVol P_SabrVol2 P_SabrVol3 P_SabrVol4 P_Cev7 Spec_SabrVol.
Open Scope R_scope.
Lemma npow_s_pos F b : 0 < F -> npow_s F b = Rpower F b.
Proof.
  intros HF. unfold npow_s. destruct (Req_EM_T b 1) as [->|]; [rewrite Rpower_1 by exact HF; reflexivity|]. unfold npow. destruct (Req_EM_T b 0) as [->|]; [rewrite Rpower_O by exact HF; reflexivity|].
  destruct (Req_EM_T F 0); [lra|reflexivity].
Qed.
Lemma alpha_eq p F : 0 < F -> sabr_alpha p F = b_sigma p / Rpower F (1 - b_beta p).
Proof. intros HF. unfold sabr_alpha. rewrite npow_s_pos by exact HF. reflexivity. Qed.
Lemma zK_eq vov alpha b K F : 0 < K -> 0 < F -> vov / alpha * (powrel (K / F - 1) b * (K / F - 1)) = zy vov alpha b (ln (K / F)).
Proof.
  intros HK HF. assert (P : 0 < K / F) by (apply Rdiv_lt_0_compat; assumption). unfold zy. rewrite <- powrel_E. rewrite exp_ln by exact P. reflexivity.
Qed.
(** ** P *)
Lemma p_den_eq p base alpha kk zz : / 10 ^ 6 <= Rabs zz -> p_order1 p base alpha kk zz = p_order1_den p base alpha kk zz (zz ^ 2).
Proof.
  intros H. unfold p_order1. destruct (Rlt_dec _ _); [lra|]. unfold p_order1_off. rewrite Rmax_left; [reflexivity|]. rewrite <- (pow2_abs zz). assert (0 < / 10 ^ 6) by apply n6.
  apply Rle_trans with ((/ 10 ^ 6) ^ 2); [|apply pow_incr; lra]. unfold eps. rewrite pow_inv, <- pow_mult. cbn [Nat.mul Nat.add].
  assert (P : 0 < 10 ^ 12) by (apply pow_lt; lra). apply Rle_trans with (/ 10 ^ 15); [|apply Rinv_le_contravar; [exact P|apply Rle_pow; [lra|lia]]].
  assert (Q : 10 ^ 15 <= 2 ^ 52) by (cbn [pow]; lra). apply Rinv_le_contravar; [apply pow_lt; lra|]. lra.
Qed.
Lemma p_lim p base F g : 0 < F -> -1 < b_rho p < 1 -> 0 < b_vov p -> 0 < b_sigma p -> base_ok p base ->
  let alpha := b_sigma p / Rpower F (1 - b_beta p) in
  is_lim (fun y => p_gg_diff p alpha (exp y) (zy (b_vov p) alpha (1 - b_beta p) y) / y ^ 2) 0 (Finite g) ->
  is_lim (fun K => let z := b_vov p / alpha * (powrel (K / F - 1) (1 - b_beta p) * (K / F - 1)) in p_order1_den p base alpha (K / F) z (z ^ 2)) F
    (((1 - b_beta p) ^ 2 - (1 - vol_beta p base) ^ 2) / 24 * alpha ^ 2 + (2 - 3 * b_rho p ^ 2) / 24 * b_vov p ^ 2 + alpha ^ 2 * g).
Proof.
  intros HF Hr Hv Hs Hb alpha Hg. assert (Ha : 0 < alpha) by (apply Rdiv_lt_0_compat; [exact Hs|apply exp_pos]).
  pose proof (order1_lim p base alpha g Hr Hv Ha Hb Hg) as L. refine (lim_K _ _ F _ HF _ L). intros K HK. cbv zeta. rewrite zK_eq by assumption. rewrite exp_ln by (apply Rdiv_lt_0_compat; assumption). reflexivity.
Qed.
Lemma p_atm_limit p base F : 0 < F -> -1 < b_rho p < 1 -> 0 < b_vov p -> 0 < b_sigma p -> base_ok p base -> / 10 ^ 3 <= 1 - b_beta p ->
  let alpha := b_sigma p / Rpower F (1 - b_beta p) in
  let eta0 := b_vov p * sqrt (1 - b_rho p ^ 2) / ((1 - b_beta p) * alpha) in
  / 10 ^ 6 < eta0 * eta0 - 1 \/ (eta0 * eta0 - 1 < - / 10 ^ 6 /\ eta0 <> sqrt (1 - b_rho p ^ 2) /\ / 10 ^ 6 < eta0) ->
  is_lim (fun K => let z := b_vov p / alpha * (powrel (K / F - 1) (1 - b_beta p) * (K / F - 1)) in p_order1_den p base alpha (K / F) z (z ^ 2)) F (p_order1_atm p base alpha).
Proof.
  intros HF Hr Hv Hs Hb Hbc alpha eta0 Hreg. assert (Ha : 0 < alpha) by (apply Rdiv_lt_0_compat; [exact Hs|apply exp_pos]).
  pose proof (p_lim p base F _ HF Hr Hv Hs Hb (gg_exact_lim p alpha Hr Hv Ha Hbc Hreg)) as L. cbv zeta in L. fold alpha in L.
  replace (p_order1_atm p base alpha) with (((1 - b_beta p) ^ 2 - (1 - vol_beta p base) ^ 2) / 24 * alpha ^ 2 + (2 - 3 * b_rho p ^ 2) / 24 * b_vov p ^ 2 + alpha ^ 2 * (b_rho p * b_beta p / 4 * (b_vov p / alpha))); [exact L|].
  unfold p_order1_atm. field. lra.
Qed.
Lemma p_log_limit p base F : 0 < F -> -1 < b_rho p < 1 -> 0 < b_vov p -> 0 < b_sigma p -> base_ok p base -> Rabs (1 - b_beta p) < / 10 ^ 3 ->
  let alpha := b_sigma p / Rpower F (1 - b_beta p) in
  is_lim (fun K => let z := b_vov p / alpha * (powrel (K / F - 1) (1 - b_beta p) * (K / F - 1)) in p_order1_den p base alpha (K / F) z (z ^ 2)) F
    (p_order1_atm p base alpha + b_rho p * b_beta p / 4 * b_vov p * (b_vov p - alpha)).
Proof.
  intros HF Hr Hv Hs Hb Hbc alpha. assert (Ha : 0 < alpha) by (apply Rdiv_lt_0_compat; [exact Hs|apply exp_pos]).
  pose proof (p_lim p base F _ HF Hr Hv Hs Hb (gg_log_lim p alpha Hr Hv Ha Hbc)) as L. cbv zeta in L. fold alpha in L.
  replace (p_order1_atm p base alpha + b_rho p * b_beta p / 4 * b_vov p * (b_vov p - alpha)) with (((1 - b_beta p) ^ 2 - (1 - vol_beta p base) ^ 2) / 24 * alpha ^ 2 + (2 - 3 * b_rho p ^ 2) / 24 * b_vov p ^ 2 + alpha ^ 2 * (b_rho p * b_beta p / 4 * (b_vov p / alpha) ^ 2)); [exact L|].
  unfold p_order1_atm. field. lra.
Qed.
(** the G term as an integral *)
Lemma p_gg_integral p alpha kk zz : -1 < b_rho p < 1 -> / 10 ^ 3 <= Rabs (1 - b_beta p) ->
  let rho := b_rho p in let rhoc := sqrt (1 - rho ^ 2) in let eta := p_eta p alpha kk zz in
  let t1 := (vv zz rho + rho + zz) / rhoc in let t2 := (1 + rho) / rhoc in
  0 < eta -> / 10 ^ 6 < eta * eta - 1 \/ (eta * eta - 1 < - / 10 ^ 6 /\ eta <> rhoc /\ / 10 ^ 6 < eta) \/ (eta = 1 /\ rho <> 0) ->
  (forall t, Rmin t2 t1 <= t <= Rmax t2 t1 -> (eta + rhoc) + 2 * rho * t + (eta - rhoc) * t ^ 2 <> 0) ->
  is_RInt (fun t => rho * b_beta p / (rhoc * (1 - b_beta p)) * (eta / ((eta + rhoc) + 2 * rho * t + (eta - rhoc) * t ^ 2) - / (1 + t ^ 2))) t2 t1 (p_gg_diff p alpha kk zz).
Proof.
  intros Hr Hb rho rhoc eta t1 t2 He Hok HQ. pose proof (gg_integral rho Hr eta t1 t2 (conj He Hok) HQ) as H.
  apply (is_RInt_scal (V := R_CompleteNormedModule) _ _ _ (rho * b_beta p / (rhoc * (1 - b_beta p)))) in H.
  replace (p_gg_diff p alpha kk zz) with (scal (rho * b_beta p / (rhoc * (1 - b_beta p))) (p_gg rho rhoc eta t2 (gskip eta) - p_gg rho rhoc eta t1 false)); [exact H|].
  unfold p_gg_diff. cbv zeta. destruct (Rlt_dec (Rabs (1 - b_beta p)) (/ 10 ^ 3)); [lra|]. reflexivity.
Qed.
(** ** values at the money *)
Lemma powrel_at0 b : powrel (1 - 1) b = 1. Proof. unfold powrel. destruct (Req_EM_T (1 - 1) 0); [reflexivity|lra]. Qed.
Lemma qq_ratio_atm p base : qq_ratio p base 1 = 1.
Proof. unfold qq_ratio. destruct base; [rewrite !powrel_at0; field|reflexivity]. Qed.
Lemma chk_pos K F : 0 < K -> 0 < F -> forall b, powrel_chk (K / F - 1) b = Some (powrel (K / F - 1) b).
Proof. intros HK HF b. unfold powrel_chk. assert (0 < K / F) by (apply Rdiv_lt_0_compat; assumption). destruct (Rlt_dec _ _); [reflexivity|lra]. Qed.
Lemma h_atm mo p base S T : 0 < S -> base_ok p base ->
  let F := FWD (intr mo) (divr mo) (is_fwd mo) S T in let alpha := b_sigma p / Rpower F (1 - b_beta p) in
  h_vol mo p base 1 F S T = Some (alpha * Rpower F (1 - vol_beta p base) * (1 + T * p_order1_atm p base alpha)).
Proof.
  intros HS Hb F alpha. unfold h_vol. rewrite fdd_eq. change (mF mo S T) with F. assert (HF : 0 < F) by (apply (mF_pos mo S T HS)). rewrite chk_pos by exact HF. cbn [obind]. cbv zeta. rewrite alpha_eq by exact HF. fold alpha.
  f_equal. replace (F / F) with 1 by (field; lra). rewrite qq_ratio_atm, !powrel_at0, npow_s_pos by exact HF. replace (1 * (1 - 1)) with 0 by ring. rewrite Rmult_0_r, hh_0.
  assert (E : h_term20 p base alpha 1 0 1 = ((1 - b_beta p) ^ 2 - (1 - vol_beta p base) ^ 2) / 24 * alpha ^ 2).
  { unfold h_term20, vol_beta. destruct base as [b|]; [|field]. cbn [base_ok] in Hb. destruct Hb as [->|Hb]; [rewrite isclose_refl; field|]. rewrite Hb. rewrite Rabs_R0. destruct (Rlt_dec 0 (/ 10 ^ 6)) as [|N]; [reflexivity|]. exfalso. apply N, n6. }
  rewrite E. unfold p_order1_atm. ring.
Qed.
Lemma p_atm mo p base S T : 0 < S ->
  let F := FWD (intr mo) (divr mo) (is_fwd mo) S T in let alpha := b_sigma p / Rpower F (1 - b_beta p) in
  p_vol mo p base 1 F S T = Some (alpha * Rpower F (1 - vol_beta p base) * (1 + T * p_order1_atm p base alpha)).
Proof.
  intros HS F alpha. unfold p_vol. rewrite fdd_eq. change (mF mo S T) with F. assert (HF : 0 < F) by (apply (mF_pos mo S T HS)). rewrite chk_pos by exact HF. cbn [obind]. cbv zeta. rewrite alpha_eq by exact HF. fold alpha.
  f_equal. replace (F / F) with 1 by (field; lra). rewrite qq_ratio_atm, !powrel_at0, npow_s_pos by exact HF. replace (1 - 1) with 0 by ring. rewrite Rmult_0_r, hh_0.
  unfold p_order1. rewrite Rabs_R0. destruct (Rlt_dec 0 (/ 10 ^ 6)) as [|N]; [|exfalso; apply N, n6]. ring.
Qed.
Lemma hp_order0 mo p base K S T : h_vol mo p base 0 K S T = p_vol mo p base 0 K S T.
Proof.
  unfold h_vol, p_vol. rewrite fdd_eq. destruct (powrel_chk _ _); [|reflexivity]. cbn [obind]. cbv zeta. do 3 f_equal. f_equal. ring.
Qed.
(** ** domain *)
Lemma hp_domain mo p base order K S T : 0 < S -> (h_vol mo p base order K S T = None <-> K <= 0) /\ (p_vol mo p base order K S T = None <-> K <= 0).
Proof.
  intros HS. unfold h_vol, p_vol. rewrite fdd_eq. pose proof (mF_pos mo S T HS) as HF. set (F := mF mo S T) in *. clearbody F. unfold powrel_chk.
  assert (E : - (1) < K / F - 1 <-> 0 < K). { split; intros H; [|assert (0 < K / F) by (apply Rdiv_lt_0_compat; assumption); lra]. apply (Rmult_lt_reg_r (/ F)); [apply Rinv_0_lt_compat, HF|]. unfold Rdiv in H. lra. }
  destruct (Rlt_dec (- (1)) (K / F - 1)) as [L|L]; cbn [obind]; split; split; intros H; try discriminate; try reflexivity.
  - apply E in L. lra.
  - apply E in L. lra.
  - destruct (Rle_dec K 0); [assumption|]. exfalso. apply L, E. lra.
  - destruct (Rle_dec K 0); [assumption|]. exfalso. apply L, E. lra.
Qed.
Lemma h_mass_none gsf mo p order S T : 0 < S -> h_mass_zero gsf mo p order S T = None.
Proof. intros HS. unfold h_mass_zero. rewrite (proj2 (proj1 (hp_domain mo p None order 0 S T HS)) (Rle_refl 0)). reflexivity. Qed.
(** H is the function of M_Sabr.v when there is no base beta *)
Lemma h_none mo p order K S T : 0 < S -> 0 < K -> h_vol mo p None order K S T = Some (choiwu_h_vol mo p order K S T).
Proof.
  intros HS HK. unfold h_vol, choiwu_h_vol. rewrite fdd_eq. pose proof (mF_pos mo S T HS) as HF. set (F := mF mo S T) in *. rewrite chk_pos by assumption. cbn [obind]. cbv zeta. cbn [qq_ratio vol_beta h_term20].
  assert (E : npow_s F (1 - b_beta p) = npow F (1 - b_beta p)).
  { rewrite npow_s_pos by exact HF. unfold npow. destruct (Req_EM_T (1 - b_beta p) 0) as [->|]; [apply Rpower_O, HF|]. destruct (Req_EM_T F 0); [lra|reflexivity]. }
  rewrite E. reflexivity.
Qed.
(** ** H with a base beta: the second-order term off the money vanishes in the limit *)
Lemma h_base_limit p b F : 0 < F -> let alpha := b_sigma p / Rpower F (1 - b_beta p) in
  is_lim (fun K => let kk := K / F in h_term20_off p b alpha kk (powrel (kk - 1) (1 - b_beta p) * (kk - 1)) (qq_ratio p (Some b) kk)) F 0.
Proof.
  intros HF alpha. set (bc := 1 - b_beta p).
  assert (L : is_lim (fun y => (/ 2 * ((1 - b) - bc) * y - ln (EE (1 - b) y / EE bc y)) * alpha ^ 2 / (y * EE bc y)) 0 0).
  { apply near_lim0. pose proof (base_term_small bc (1 - b)) as Sm. set (c := (bc ^ 2 - (1 - b) ^ 2) / 24) in *.
    set (B := fun y => / 2 * ((1 - b) - bc) * y - ln (EE (1 - b) y / EE bc y)) in *.
    assert (S1 : small 1 B). { apply (small_ext 1 (fun y => (B y - c * y ^ 2) + c * y ^ 2)); [apply near_all; intros; ring|]. apply small_plus; [apply (small_le 1 2); [lia|exact Sm]|apply sm_p; lia]. }
    apply (small_ext 0 (fun y => (alpha ^ 2 * (B y / y ^ 1)) * / EE bc y)).
    - apply near_all. intros y Ny. pose proof (EE_pos bc y). fold (B y). field. lra.
    - apply (small_bd 0 _ _ 2); [|apply EE_inv_bd]. apply small_scal. apply (small_div 0 1). exact S1. }
  refine (lim_K _ _ F _ HF _ L). intros K HK. assert (P : 0 < K / F) by (apply Rdiv_lt_0_compat; assumption). cbv zeta. unfold h_term20_off, qq_ratio. fold bc.
  rewrite <- (powrel_E bc), <- powrel_E_ratio, exp_ln by exact P. replace (1 - b - bc) with (b_beta p - b) by (unfold bc; ring). reflexivity.
Qed.
(** ** Lorig *)
Lemma lorig_short mo p order S : 0 < S -> 0 < b_sigma p -> let F := FWD (intr mo) (divr mo) (is_fwd mo) S 0 in eps <= b_sigma p / Rpower F (1 - b_beta p) ->
  is_lim (fun K => (lorig_vol mo p order 1 K S 0 - match h_vol mo p (Some 1) 0 K S 0 with Some v => v | None => 0 end) / ln (K / F) ^ 3) F 0.
Proof.
  intros HS Hs F He. assert (HF : 0 < F) by (apply (mF_pos mo S 0 HS)). set (alpha := b_sigma p / Rpower F (1 - b_beta p)) in *.
  assert (Ha : 0 < alpha) by (apply Rdiv_lt_0_compat; [exact Hs|apply exp_pos]). set (bc := 1 - b_beta p) in *.
  assert (L : is_lim (fun y => (lorig_vol_at bc (b_rho p) (b_vov p) alpha y 0 order 1 - 1 * (alpha * 1 * (EE 0 y / EE bc y) * hh (b_vov p / alpha * (y * EE bc y)) (b_rho p))) / y ^ 3) 0 0).
  { apply small_lim. apply (small_ext 3 (fun y => lorig_vol_at bc (b_rho p) (b_vov p) alpha y 0 order 1 - lead bc (b_rho p) (b_vov p) alpha y)); [|apply lorig_lead, Ha].
    assert (N3 : 0 < / 10 ^ 3) by (apply Rinv_0_lt_compat, pow_lt; lra).
    assert (Z : small 0 (fun y => b_vov p / alpha * (y * EE bc y))).
    { apply small_scal. apply (small_ext 0 (fun y => y ^ 1 * EE bc y)); [apply near_all; intros; ring|]. apply (small_bd 0 _ _ (Rabs 1 + 1)); [apply small_pow_lt; lia|]. apply small0_bounds, sm_EE0. }
    apply (near_impl _ _ (small_near _ _ Z (/ 10 ^ 3 / 2) ltac:(lra))). intros y _ A. rewrite pow_O, Rmult_1_r in A. unfold hh. destruct (Rlt_dec _ _) as [|N]; [|lra].
    unfold lead. rewrite EE_0. pose proof (EE_pos bc y). unfold Rdiv. ring. }
  refine (lim_K _ _ F _ HF _ L). intros K HK. assert (P : 0 < K / F) by (apply Rdiv_lt_0_compat; assumption).
  unfold lorig_vol, h_vol. rewrite !fdd_eq. change (mF mo S 0) with F. rewrite chk_pos by assumption. cbn [obind]. cbv zeta. cbn [vol_beta qq_ratio]. rewrite !alpha_eq by exact HF. fold bc. fold alpha.
  rewrite npow_s_pos by exact HF. replace (1 - 1) with 0 by ring. rewrite Rpower_O by exact HF. rewrite Rmax_left by exact He.
  rewrite <- (powrel_E bc), <- powrel_E_ratio, exp_ln by exact P. reflexivity.
Qed.
Lemma lorig_atm1 mo p S T : 0 < S -> 0 < b_sigma p ->
  let F := FWD (intr mo) (divr mo) (is_fwd mo) S T in let alpha := b_sigma p / Rpower F (1 - b_beta p) in
  lorig_vol mo p 1 1 F S T = alpha * (1 + T * ((1 - b_beta p) ^ 2 / 24 * alpha ^ 2 + b_rho p * b_beta p / 4 * b_vov p * alpha + (2 - 3 * b_rho p ^ 2) / 24 * b_vov p ^ 2)).
Proof.
  intros HS Hs F alpha. assert (HF : 0 < F) by (apply (mF_pos mo S T HS)). unfold lorig_vol. rewrite fdd_eq. change (mF mo S T) with F. rewrite alpha_eq by exact HF. fold alpha.
  assert (Ha : 0 < alpha) by (apply Rdiv_lt_0_compat; [exact Hs|apply exp_pos]).
  replace (F / F) with 1 by (field; lra). rewrite ln_1. unfold lorig_vol_at. cbv zeta. field. lra.
Qed.
Lemma lorig_p mo p S T : 0 < S -> 0 < b_sigma p -> let F := FWD (intr mo) (divr mo) (is_fwd mo) S T in
  p_vol mo p (Some 1) 1 F S T = Some (lorig_vol mo p 1 1 F S T).
Proof.
  intros HS Hs F. unfold F. rewrite (p_atm mo p (Some 1) S T HS), (lorig_atm1 mo p S T HS Hs). f_equal. cbn [vol_beta]. replace (1 - 1) with 0 by ring. fold F. rewrite Rpower_O by (apply (mF_pos mo S T HS)). unfold p_order1_atm. cbn [vol_beta]. field.
  apply Rgt_not_eq, exp_pos.
Qed.
Lemma lorig_dT bc rho vov s0 order : (1 <= order)%nat -> 0 < s0 ->
  is_derive (fun T => lorig_vol_at bc rho vov s0 0 T order 1) 0 (s0 * (bc ^ 2 / 24 * s0 ^ 2 + rho * (1 - bc) / 4 * vov * s0 + (2 - 3 * rho ^ 2) / 24 * vov ^ 2)).
Proof.
  intros Ho Hs. unfold lorig_vol_at. destruct order as [|[|[|n]]]; [lia| | |]; cbv zeta; (auto_derive; [exact I|]); Req; field; lra.
Qed.
Lemma lorig_flat mo p order lv K S T : b_vov p = 0 -> b_beta p = 1 -> 0 < S -> 0 < K -> lorig_vol mo p order lv K S T = b_sigma p.
Proof.
  intros Hv Hb HS HK. unfold lorig_vol. rewrite fdd_eq. pose proof (mF_pos mo S T HS) as HF. rewrite alpha_eq by exact HF. rewrite Hv, Hb. replace (1 - 1) with 0 by ring. rewrite Rpower_O by exact HF. unfold lorig_vol_at. cbv zeta. unfold Rdiv. rewrite Rinv_1. ring.
Qed.
Lemma lorig_fwd mo p order lv K S T : 0 < S -> lorig_vol mo p order lv K S T = lorig_vol (mkOpt (sigma mo) 0 0 true) p order lv K (FWD (intr mo) (divr mo) (is_fwd mo) S T) T.
Proof. intros HS. unfold lorig_vol. rewrite !fdd_eq. reflexivity. Qed.
