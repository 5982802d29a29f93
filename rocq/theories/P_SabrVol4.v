(** SabrChoiWu2021P / SabrChoiWu2021H at the money; masses at zero of H; Lorig against H and Hagan. *)
From Coq Require Import Reals Lra Lia List Psatz.
From Coquelicot Require Import Coquelicot.
From Verif Require Import Base Gauss Sums M_Opt M_Mgf M_Heston M_Fd M_Sabr M_Cev M_SabrVol Spec_Opt P_Bsm P_Norm P_Sabr3 P_Sabr4 P_Small P_SabrVol P_SabrVol2 P_SabrVol3 Spec_SabrVol.
Open Scope R_scope.
Lemma lim_K (g h : R -> R) (F l : R) : 0 < F -> (forall K, 0 < K -> h K = g (ln (K / F))) -> is_lim g 0 l -> is_lim h F l.
Proof.
  intros HF E L. apply (is_lim_ext_loc (fun K => g (ln (K / F)))).
  - exists (mkposreal F HF). intros K HK _. change (Rabs (K - F) < F) in HK. apply Rabs_def2 in HK. symmetry. apply E. lra.
  - apply (is_lim_comp g (fun K => ln (K / F)) F l 0 L).
    + replace (Finite 0) with (Finite (ln (F / F))) by (f_equal; unfold Rdiv; rewrite Rinv_r by lra; apply ln_1).
      apply (is_lim_continuity (fun K => ln (K / F)) F). apply (proj2 (continuity_pt_filterlim (fun K => ln (K / F)) F)). apply (ex_derive_continuous (K := R_AbsRing) (V := R_NormedModule) (fun K => ln (K / F)) F). auto_derive. 
      apply Rmult_lt_0_compat; [lra|apply Rinv_0_lt_compat; lra].
    + exists (mkposreal F HF). intros K HK NK E0. change (Rabs (K - F) < F) in HK. apply Rabs_def2 in HK. injection E0 as E0.
      assert (P : 0 < K / F) by (apply Rdiv_lt_0_compat; lra). rewrite <- ln_1 in E0. apply ln_inv in E0; [|exact P|lra]. apply NK. apply (Rmult_eq_reg_r (/ F)); [|apply Rinv_neq_0_compat; lra]. rewrite Rinv_r by lra. exact E0.
Qed.
Lemma npow_s_exp y b : b <> 0 -> npow_s (exp y) b = exp (b * y).
Proof.
  intros Nb. unfold npow_s. destruct (Req_EM_T b 1) as [->|]; [rewrite Rmult_1_l; reflexivity|]. unfold npow. destruct (Req_EM_T b 0); [tauto|]. pose proof (exp_pos y).
  destruct (Req_EM_T (exp y) 0); [lra|]. unfold Rpower. rewrite ln_exp. reflexivity.
Qed.
Lemma hh_small rho : small 0 (fun z => hh z rho - 1).
Proof.
  assert (N3 : 0 < / 10 ^ 3) by (apply Rinv_0_lt_compat, pow_lt; lra).
  apply (small_ext 0 (fun z => hh_taylor z rho - 1)).
  - exists (/ 10 ^ 3). split; [exact N3|]. intros z Hz _. unfold hh. destruct (Rlt_dec _ _); [reflexivity|lra].
  - apply small0_cont; [unfold hh_taylor; ring|]. apply (ex_derive_continuous (K := R_AbsRing) (V := R_NormedModule)). unfold hh_taylor. auto_derive. exact I.
Qed.
(** base-beta settings in which the isclose shortcut is not taken for two different betas *)
Lemma isclose_refl a : isclose a a = true.
Proof. unfold isclose. destruct (Rle_dec _ _) as [|N]; [reflexivity|]. exfalso. apply N. replace (a - a) with 0 by ring. rewrite Rabs_R0. pose proof (Rabs_pos a).
  assert (0 < / 10 ^ 8) by (apply Rinv_0_lt_compat, pow_lt; lra). assert (0 < / 10 ^ 5) by (apply Rinv_0_lt_compat, pow_lt; lra). nra. Qed.
Lemma base_lim p base : base_ok p base ->
  is_lim (fun y => p_base_term p base (exp y) (qq_ratio p base (exp y)) / y ^ 2) 0 (((1 - b_beta p) ^ 2 - (1 - vol_beta p base) ^ 2) / 24).
Proof.
  intros Hb. destruct base as [b|]; cbn [base_ok p_base_term qq_ratio vol_beta] in *.
  - destruct (isclose (b_beta p) b) eqn:EI.
    + destruct Hb as [->|]; [|discriminate]. apply (is_lim_ext (fun _ => 0)); [intros; unfold Rdiv; ring|]. replace (((1 - b_beta p) ^ 2 - (1 - b_beta p) ^ 2) / 24) with 0 by field. apply is_lim_const.
    + apply small_lim. apply (small_ext 2 (fun y => (/ 2 * ((1 - b) - (1 - b_beta p)) * y - ln (EE (1 - b) y / EE (1 - b_beta p) y)) - ((1 - b_beta p) ^ 2 - (1 - b) ^ 2) / 24 * y ^ 2)); [|apply base_term_small].
      apply near_all. intros y _. rewrite ln_exp, powrel_E_ratio. f_equal. f_equal. ring.
  - apply (is_lim_ext (fun _ => 0)); [intros; unfold Rdiv; ring|]. replace (((1 - b_beta p) ^ 2 - (1 - b_beta p) ^ 2) / 24) with 0 by field. apply is_lim_const.
Qed.
Lemma order1_lim p base alpha (g : R) : -1 < b_rho p < 1 -> 0 < b_vov p -> 0 < alpha -> base_ok p base ->
  is_lim (fun y => p_gg_diff p alpha (exp y) (zy (b_vov p) alpha (1 - b_beta p) y) / y ^ 2) 0 g ->
  is_lim (fun y => let z := zy (b_vov p) alpha (1 - b_beta p) y in p_order1_den p base alpha (exp y) z (z ^ 2)) 0
    (((1 - b_beta p) ^ 2 - (1 - vol_beta p base) ^ 2) / 24 * alpha ^ 2 + (2 - 3 * b_rho p ^ 2) / 24 * b_vov p ^ 2 + alpha ^ 2 * g).
Proof.
  intros Hr Hv Ha Hb Hg. set (bc := 1 - b_beta p) in *. set (vo := b_vov p) in *. set (z := zy vo alpha bc) in *. set (rho := b_rho p) in *.
  set (B := fun y => p_base_term p base (exp y) (qq_ratio p base (exp y))).
  set (V := fun y => / 2 * ln (vv (z y) rho / hh (z y) rho ^ 2)). set (G := fun y => p_gg_diff p alpha (exp y) (z y)).
  assert (HL : is_lim (fun y => hh (z y) rho) 0 1) by (apply near_lim0; apply (comp_zy vo alpha bc Hv Ha 0 (fun u => hh u rho - 1)), hh_small).
  assert (VL : is_lim (fun y => V y / y ^ 2) 0 ((2 - 3 * rho ^ 2) / 24 * (vo / alpha) ^ 2)) by exact (comp_lim vo alpha bc Hv Ha 2 (fun u => / 2 * ln (vv u rho / hh u rho ^ 2)) _ (vh_small rho Hr)).
  assert (BL : is_lim (fun y => B y / y ^ 2) 0 ((bc ^ 2 - (1 - vol_beta p base) ^ 2) / 24)) by exact (base_lim p base Hb).
  assert (SL : is_lim (fun y => (B y / y ^ 2 + V y / y ^ 2) + G y / y ^ 2) 0 (((bc ^ 2 - (1 - vol_beta p base) ^ 2) / 24 + (2 - 3 * rho ^ 2) / 24 * (vo / alpha) ^ 2) + g))
    by (apply is_lim_add'; [apply is_lim_add'; assumption|exact Hg]).
  pose proof (zy_over_y vo alpha bc Ha) as ZL. fold z in ZL. pose proof (va_pos vo alpha Hv Ha) as VA.
  assert (CL : is_lim (fun y => (vo * hh (z y) rho / (z y / y)) ^ 2) 0 ((vo * 1 * / (vo / alpha)) ^ 2)).
  { apply (is_lim_comp_continuous (fun y => vo * hh (z y) rho / (z y / y)) (fun x => x ^ 2) 0 (vo * 1 * / (vo / alpha))).
    - unfold Rdiv at 1. apply is_lim_mult'; [apply is_lim_mult'; [apply is_lim_const|exact HL]|]. apply (is_lim_inv _ _ (vo / alpha) ZL). intros E. injection E. lra.
    - apply (ex_derive_continuous (K := R_AbsRing) (V := R_NormedModule)). auto_derive. exact I. }
  pose proof (is_lim_mult' _ _ _ _ _ CL SL) as L.
  replace ((bc ^ 2 - (1 - vol_beta p base) ^ 2) / 24 * alpha ^ 2 + (2 - 3 * rho ^ 2) / 24 * vo ^ 2 + alpha ^ 2 * g)
    with ((vo * 1 * / (vo / alpha)) ^ 2 * (((bc ^ 2 - (1 - vol_beta p base) ^ 2) / 24 + (2 - 3 * rho ^ 2) / 24 * (vo / alpha) ^ 2) + g)) by (field; lra).
  apply near_lim0. apply near_lim0 in L. refine (small_ext 0 _ _ _ L). apply (near_impl _ _ (zy_nz vo alpha bc Hv Ha)). intros y Ny Nz. fold z in Nz. f_equal.
  cbv zeta. unfold p_order1_den. cbv zeta. fold vo rho. fold (B y) (V y) (G y). field. split; assumption.
Qed.
(** the exact branch of G *)
Lemma gg_exact_lim p alpha : -1 < b_rho p < 1 -> 0 < b_vov p -> 0 < alpha -> / 10 ^ 3 <= 1 - b_beta p ->
  let eta0 := b_vov p * sqrt (1 - b_rho p ^ 2) / ((1 - b_beta p) * alpha) in
  / 10 ^ 6 < eta0 * eta0 - 1 \/ (eta0 * eta0 - 1 < - / 10 ^ 6 /\ eta0 <> sqrt (1 - b_rho p ^ 2) /\ / 10 ^ 6 < eta0) ->
  is_lim (fun y => p_gg_diff p alpha (exp y) (zy (b_vov p) alpha (1 - b_beta p) y) / y ^ 2) 0 (b_rho p * b_beta p / 4 * (b_vov p / alpha)).
Proof.
  intros Hr Hv Ha Hb eta0 Hreg. assert (N3 : 0 < / 10 ^ 3) by (apply Rinv_0_lt_compat, pow_lt; lra). assert (Hbc : 0 < 1 - b_beta p) by lra.
  pose proof (gg_lim (b_rho p) (b_vov p) alpha (1 - b_beta p) Hr Hv Ha Hbc Hreg) as L. cbv zeta in L. fold eta0 in L. pose proof (rc_pos (b_rho p) Hr) as R0.
  set (bc := 1 - b_beta p) in *. set (rc := sqrt (1 - b_rho p ^ 2)) in *.
  apply (is_lim_mult' (fun _ => b_rho p * b_beta p / (rc * bc)) _ _ _ _ (is_lim_const _ _)) in L.
  replace (b_rho p * b_beta p / 4 * (b_vov p / alpha)) with (b_rho p * b_beta p / (rc * bc) * (rc ^ 2 / (4 * eta0) * (b_vov p / alpha) ^ 2)).
  2:{ unfold eta0. field. repeat split; lra. }
  refine (is_lim_ext _ _ _ _ _ L). intros y. unfold p_gg_diff. cbv zeta. fold bc rc. destruct (Rlt_dec (Rabs bc) (/ 10 ^ 3)) as [Q|Q]; [rewrite Rabs_pos_eq in Q; lra|].
  assert (E : p_eta p alpha (exp y) (zy (b_vov p) alpha bc y) = etay (b_rho p) (b_vov p) alpha bc y). { unfold p_eta, etay. fold bc rc. rewrite npow_s_exp by lra. reflexivity. }
  rewrite E. unfold gskip. unfold Rdiv. ring.
Qed.
(** the branch |1 - beta| < 1e-3 *)
Lemma gg_log_lim p alpha : -1 < b_rho p < 1 -> 0 < b_vov p -> 0 < alpha -> Rabs (1 - b_beta p) < / 10 ^ 3 ->
  is_lim (fun y => p_gg_diff p alpha (exp y) (zy (b_vov p) alpha (1 - b_beta p) y) / y ^ 2) 0 (b_rho p * b_beta p / 4 * (b_vov p / alpha) ^ 2).
Proof.
  intros Hr Hv Ha Hb. set (rho := b_rho p) in *. set (bc := 1 - b_beta p) in *.
  assert (R2 : 0 < 1 - rho ^ 2) by (cbn [pow]; nra).
  assert (S : small 2 (fun z => (vv z rho - 1 - rho * z) - (1 - rho ^ 2) / 2 * z ^ 2)).
  { apply (small_int 1 _ (fun z => (z + rho) / vv z rho - rho - (1 - rho ^ 2) * z) 1); try lra.
    - rewrite vv_0. field.
    - intros z _. apply is_derive_minus_R; [apply (is_derive_eq _ _ ((z + rho) / vv z rho - 0 - rho)); [|ring]; apply is_derive_minus_R; [apply is_derive_minus_R; [apply vv_d, Hr|apply is_derive_const_R]|]|].
      + auto_derive; [exact I|]. Req. ring.
      + auto_derive; [exact I|]. Req. field.
    - rewrite vv_0. field.
    - apply (small1_derive (fun z => (z + rho) / vv z rho - rho - (1 - rho ^ 2) * z)); [rewrite vv_0; field|].
      pose proof (vv_d rho Hr 0) as D. set (v := fun u => vv u rho) in *. apply (is_derive_eq _ _ ((1 * v 0 - (0 + rho) * ((0 + rho) / v 0)) / (v 0) ^ 2 - 0 - (1 - rho ^ 2))).
      + apply is_derive_minus_R; [apply is_derive_minus_R; [|apply is_derive_const_R]|].
        * apply (is_derive_div (fun z => z + rho) v 0 1); [auto_derive; [exact I|Req; ring]|exact D|]. unfold v. rewrite vv_0. lra.
        * auto_derive; [exact I|]. Req. ring.
      + unfold v. rewrite vv_0. field. }
  pose proof (comp_lim (b_vov p) alpha bc Hv Ha 2 _ _ S) as L. cbv beta in L.
  apply (is_lim_mult' (fun _ => / 2 * b_beta p * rho / (1 - rho ^ 2)) _ _ _ _ (is_lim_const _ _)) in L.
  replace (rho * b_beta p / 4 * (b_vov p / alpha) ^ 2) with (/ 2 * b_beta p * rho / (1 - rho ^ 2) * ((1 - rho ^ 2) / 2 * (b_vov p / alpha) ^ 2)) by (field; lra).
  refine (is_lim_ext _ _ _ _ _ L). intros y. unfold p_gg_diff. cbv zeta. fold bc rho. destruct (Rlt_dec (Rabs bc) (/ 10 ^ 3)) as [Q|Q]; [|lra]. unfold Rdiv. ring.
Qed.
