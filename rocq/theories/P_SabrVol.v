(** Expansions of the SABR volatility approximations around the money. *)
From Coq Require Import Reals Lra Lia List Psatz.
From Coquelicot Require Import Coquelicot.
From Verif Require Import Base Gauss Sums M_Opt M_Mgf M_Heston M_Fd M_Sabr M_Cev M_SabrVol Spec_Opt P_Bsm P_Norm P_Sabr3 P_Sabr4 P_Small.
Open Scope R_scope.

(** (exp(b y) - 1)/(b y) *)
Definition EE (b y : R) : R := if Req_EM_T (b * y) 0 then 1 else (exp (b * y) - 1) / (b * y).
Lemma EE_0 y : EE 0 y = 1. Proof. unfold EE. destruct (Req_EM_T _ _); lra. Qed.
Lemma EE_pos b y : 0 < EE b y.
Proof.
  unfold EE. destruct (Req_EM_T (b * y) 0) as [|N]; [lra|]. set (x := b * y) in *. clearbody x. destruct (Rlt_dec 0 x).
  - apply Rdiv_lt_0_compat; [|lra]. pose proof (exp_ineq1 x ltac:(lra)). lra.
  - replace ((exp x - 1) / x) with ((1 - exp x) / (- x)) by (field; exact N). apply Rdiv_lt_0_compat; [|lra]. pose proof (exp_increasing x 0 ltac:(lra)). rewrite exp_0 in H. lra.
Qed.
Lemma powrel_E b y : powrel (exp y - 1) b * (exp y - 1) = y * EE b y.
Proof.
  unfold powrel. replace (1 + (exp y - 1)) with (exp y) by ring. rewrite ln_exp. unfold EE.
  destruct (Req_EM_T (exp y - 1) 0) as [E|E].
  - assert (y = 0) by (apply exp_inj_0 || (apply (Rplus_eq_compat_r 1) in E; replace (exp y - 1 + 1) with (exp y) in E by ring; rewrite Rplus_0_l, <- exp_0 in E; apply exp_inv in E; exact E)).
    rewrite E, H. ring.
  - assert (Ny : y <> 0) by (intros ->; apply E; rewrite exp_0; ring). destruct (Req_EM_T b 0) as [->|Nb].
    + destruct (Req_EM_T (0 * y) 0); [field; exact E|lra].
    + destruct (Req_EM_T (b * y) 0) as [Q|Q]; [apply Rmult_integral in Q; tauto|]. field. tauto.
Qed.
Lemma powrel_E_ratio b0 b y : powrel (exp y - 1) b0 / powrel (exp y - 1) b = EE b0 y / EE b y.
Proof.
  pose proof (powrel_E b0 y) as A. pose proof (powrel_E b y) as B. pose proof (EE_pos b y) as P. pose proof (EE_pos b0 y) as P0.
  destruct (Req_dec (exp y - 1) 0) as [E|E].
  - assert (y = 0) by (apply (Rplus_eq_compat_r 1) in E; replace (exp y - 1 + 1) with (exp y) in E by ring; rewrite Rplus_0_l, <- exp_0 in E; apply exp_inv in E; exact E).
    subst y. unfold powrel, EE. destruct (Req_EM_T (exp 0 - 1) 0); [|tauto]. rewrite !Rmult_0_r. destruct (Req_EM_T 0 0); [reflexivity|tauto].
  - assert (Ny : y <> 0) by (intros ->; apply E; rewrite exp_0; ring).
    assert (NB : powrel (exp y - 1) b <> 0). { intros Z. rewrite Z, Rmult_0_l in B. symmetry in B. apply Rmult_integral in B. lra. }
    apply (Rmult_eq_reg_r (powrel (exp y - 1) b * (exp y - 1) * EE b y)).
    + transitivity ((powrel (exp y - 1) b0 * (exp y - 1)) * EE b y); [field; exact NB|]. rewrite A, B. field. lra.
    + rewrite B. apply Rmult_integral_contrapositive_currified; [apply Rmult_integral_contrapositive_currified|]; lra.
Qed.

(** ** Exponential expansions *)
Lemma sm_exp0 b : small 0 (fun y => exp (b * y) - 1).
Proof.
  apply small0_cont; [rewrite Rmult_0_r, exp_0; ring|]. apply (ex_derive_continuous (K := R_AbsRing) (V := R_NormedModule)). auto_derive. exact I.
Qed.
Lemma sm_exp1 b : small 1 (fun y => exp (b * y) - 1 - b * y).
Proof.
  apply (small_int 0 _ (fun y => b * (exp (b * y) - 1)) 1); try lra; try (rewrite Rmult_0_r, exp_0; ring).
  - intros y _. auto_derive; [exact I|]. Req. ring.
  - apply small_scal, sm_exp0.
Qed.
Lemma sm_exp2 b : small 2 (fun y => exp (b * y) - 1 - b * y - b ^ 2 * y ^ 2 / 2).
Proof.
  apply (small_int 1 _ (fun y => b * (exp (b * y) - 1 - b * y)) 1); try lra; try (rewrite Rmult_0_r, exp_0; field).
  - intros y _. auto_derive; [exact I|]. Req. field.
  - apply small_scal, sm_exp1.
Qed.
Lemma sm_exp3 b : small 3 (fun y => exp (b * y) - 1 - b * y - b ^ 2 * y ^ 2 / 2 - b ^ 3 * y ^ 3 / 6).
Proof.
  apply (small_int 2 _ (fun y => b * (exp (b * y) - 1 - b * y - b ^ 2 * y ^ 2 / 2)) 1); try lra; try (rewrite Rmult_0_r, exp_0; field).
  - intros y _. auto_derive; [exact I|]. Req. field.
  - apply small_scal, sm_exp2.
Qed.
Lemma sm_exp4 b : small 4 (fun y => exp (b * y) - 1 - b * y - b ^ 2 * y ^ 2 / 2 - b ^ 3 * y ^ 3 / 6 - b ^ 4 * y ^ 4 / 24).
Proof.
  apply (small_int 3 _ (fun y => b * (exp (b * y) - 1 - b * y - b ^ 2 * y ^ 2 / 2 - b ^ 3 * y ^ 3 / 6)) 1); try lra; try (rewrite Rmult_0_r, exp_0; field).
  - intros y _. auto_derive; [exact I|]. Req. field.
  - apply small_scal, sm_exp3.
Qed.
Lemma sm_EE b : small 3 (fun y => EE b y - (1 + b * y / 2 + b ^ 2 * y ^ 2 / 6 + b ^ 3 * y ^ 3 / 24)).
Proof.
  destruct (Req_dec b 0) as [->|Nb].
  - apply (small_ext 3 (fun y => y ^ 4 * 0)); [apply near_all; intros; rewrite EE_0; field|]. apply (small_bd 3 (fun y => y ^ 4) (fun _ => 0) 1); [apply small_pow_lt; lia|]. apply near_all. intros. rewrite Rabs_R0. lra.
  - apply (small_ext 3 (fun y => / b * ((exp (b * y) - 1 - b * y - b ^ 2 * y ^ 2 / 2 - b ^ 3 * y ^ 3 / 6 - b ^ 4 * y ^ 4 / 24) / y ^ 1))).
    + apply near_all. intros y Ny. unfold EE. destruct (Req_EM_T (b * y) 0) as [Q|Q]; [apply Rmult_integral in Q; tauto|]. field. tauto.
    + apply small_scal. apply (small_div 3 1). apply sm_exp4.
Qed.
(** small n of a polynomial remainder *)
Lemma sm_p n m c : (n < m)%nat -> small n (fun y => c * y ^ m). Proof. intros H. apply small_scal, small_pow_lt, H. Qed.
Lemma sm_EE2 b : small 2 (fun y => EE b y - (1 + b * y / 2 + b ^ 2 * y ^ 2 / 6)).
Proof.
  apply (small_ext 2 (fun y => (EE b y - (1 + b * y / 2 + b ^ 2 * y ^ 2 / 6 + b ^ 3 * y ^ 3 / 24)) + b ^ 3 / 24 * y ^ 3)); [apply near_all; intros; field|].
  apply small_plus; [apply (small_le 2 3); [lia|apply sm_EE]|apply sm_p; lia].
Qed.
Lemma sm_EE1 b : small 1 (fun y => EE b y - (1 + b * y / 2)).
Proof.
  apply (small_ext 1 (fun y => (EE b y - (1 + b * y / 2 + b ^ 2 * y ^ 2 / 6)) + b ^ 2 / 6 * y ^ 2)); [apply near_all; intros; field|].
  apply small_plus; [apply (small_le 1 2); [lia|apply sm_EE2]|apply sm_p; lia].
Qed.
Lemma sm_EE0 b : small 0 (fun y => EE b y - 1).
Proof.
  apply (small_ext 0 (fun y => (EE b y - (1 + b * y / 2)) + b / 2 * y ^ 1)); [apply near_all; intros; field|].
  apply small_plus; [apply (small_le 0 1); [lia|apply sm_EE1]|apply sm_p; lia].
Qed.
Lemma small0_bounds f (l : R) : small 0 (fun y => f y - l) -> near (fun y => Rabs (f y) <= Rabs l + 1).
Proof.
  intros H. apply (near_impl _ _ (small_near _ _ H 1 ltac:(lra))). intros y _ A. rewrite pow_O in A. replace (f y) with ((f y - l) + l) by ring.
  eapply Rle_trans; [apply Rabs_triang|]. lra.
Qed.
Lemma EE_inv_bd b : near (fun y => Rabs (/ EE b y) <= 2).
Proof.
  apply (near_impl _ _ (small_near _ _ (sm_EE0 b) (/ 2) ltac:(lra))). intros y _ A. rewrite pow_O, Rmult_1_r in A. apply Rabs_le_between in A.
  pose proof (EE_pos b y). rewrite Rabs_inv, Rabs_pos_eq by lra. rewrite <- (Rinv_inv 2). apply Rinv_le_contravar; lra.
Qed.
(** 1/E = 1 - x/2 + x^2/12 + o(x^3) *)
Lemma sm_Einv b : small 3 (fun y => / EE b y - (1 - b * y / 2 + b ^ 2 * y ^ 2 / 12)).
Proof.
  apply (small_ext 3 (fun y => (1 - EE b y * (1 - b * y / 2 + b ^ 2 * y ^ 2 / 12)) * / EE b y)).
  - apply near_all. intros y _. pose proof (EE_pos b y). field. lra.
  - apply (small_bd 3 _ _ 2); [|apply EE_inv_bd].
    apply (small_ext 3 (fun y => (- (1)) * ((EE b y - (1 + b * y / 2 + b ^ 2 * y ^ 2 / 6 + b ^ 3 * y ^ 3 / 24)) * (1 - b * y / 2 + b ^ 2 * y ^ 2 / 12))
        + (b ^ 4 * (1 / 48 - 1 / 72) * y ^ 4 + (- (b ^ 5 / 288)) * y ^ 5))).
    + apply near_all. intros. field.
    + apply small_plus; [|apply small_plus; apply sm_p; lia]. apply small_scal.
      apply (small_bd 3 _ _ (Rabs 1 + 1) (sm_EE b)). apply small0_bounds.
      apply (small_ext 0 (fun y => (- b / 2) * y ^ 1 + b ^ 2 / 12 * y ^ 2)); [apply near_all; intros; field|]. apply small_plus; apply sm_p; lia.
Qed.

(** ** Lorig's expansion at maturity zero *)
Definition lead (bc rho vov s0 y : R) : R := s0 / EE bc y * hh_taylor (vov / s0 * (y * EE bc y)) rho.
Lemma lorig_lead bc rho vov s0 order : 0 < s0 -> small 3 (fun y => lorig_vol_at bc rho vov s0 y 0 order 1 - lead bc rho vov s0 y).
Proof.
  intros Hs. set (c2 := / 6 - rho ^ 2 / 4). set (c3 := rho * (6 * rho ^ 2 - 5) / 24).
  apply (small_ext 3 (fun y => (- s0) * (/ EE bc y - (1 - bc * y / 2 + bc ^ 2 * y ^ 2 / 12))
      + ((- (c2 * vov ^ 2 / s0)) * (y ^ 2 * (EE bc y - (1 + bc * y / 2))) + (- (c3 * vov ^ 3 / s0 ^ 2)) * (y ^ 3 * (EE bc y ^ 2 - 1))))).
  - apply near_all. intros y _. pose proof (EE_pos bc y). unfold lead, hh_taylor, c2, c3, lorig_vol_at. destruct order as [|[|[|?]]]; cbv zeta; field; lra.
  - apply small_plus; [apply small_scal, sm_Einv|]. apply small_plus; apply small_scal; [apply (small_pow 1 2), sm_EE1|]. apply (small_pow 0 3).
    apply (small_ext 0 (fun y => (EE bc y - 1) * (EE bc y + 1))); [apply near_all; intros; ring|]. apply (small_bd 0 _ _ (Rabs 2 + 1) (sm_EE0 bc)). apply small0_bounds.
    apply (small_ext 0 (fun y => EE bc y - 1)); [apply near_all; intros; ring|apply sm_EE0].
Qed.
(** ** The base-beta term *)
Lemma ln_EE b : small 2 (fun y => ln (EE b y) - b * y / 2 - b ^ 2 / 24 * y ^ 2).
Proof.
  apply (small_ext 2 (fun y => ln (1 + (EE b y * exp (- b / 2 * y) - 1)) - b ^ 2 / 24 * y ^ 2)).
  - apply near_all. intros y _. replace (1 + (EE b y * exp (- b / 2 * y) - 1)) with (EE b y * exp (- b / 2 * y)) by ring.
    rewrite ln_mult by (apply EE_pos || apply exp_pos). rewrite ln_exp. field.
  - apply small_ln1p2. set (c := - b / 2).
    apply (small_ext 2 (fun y => (EE b y - (1 + b * y / 2 + b ^ 2 * y ^ 2 / 6)) * exp (c * y)
        + ((exp (c * y) - 1 - c * y - c ^ 2 * y ^ 2 / 2) * (1 + b * y / 2 + b ^ 2 * y ^ 2 / 6) + (b ^ 3 * (1 / 16 - 1 / 12) * y ^ 3 + b ^ 4 / 48 * y ^ 4)))).
    + apply near_all. intros y _. set (X := exp (c * y)). unfold c. clearbody X. field.
    + apply small_plus; [|apply small_plus; [|apply small_plus; apply sm_p; lia]].
      * apply (small_bd 2 _ _ (Rabs 1 + 1) (sm_EE2 b)). apply small0_bounds, sm_exp0.
      * apply (small_bd 2 _ _ (Rabs 1 + 1) (sm_exp2 c)). apply small0_bounds.
        apply (small_ext 0 (fun y => b / 2 * y ^ 1 + b ^ 2 / 6 * y ^ 2)); [apply near_all; intros; field|]. apply small_plus; apply sm_p; lia.
Qed.
Lemma base_term_small b b0 : small 2 (fun y => (/ 2 * (b0 - b) * y - ln (EE b0 y / EE b y)) - (b ^ 2 - b0 ^ 2) / 24 * y ^ 2).
Proof.
  apply (small_ext 2 (fun y => (ln (EE b y) - b * y / 2 - b ^ 2 / 24 * y ^ 2) - (ln (EE b0 y) - b0 * y / 2 - b0 ^ 2 / 24 * y ^ 2))).
  - apply near_all. intros y _. pose proof (EE_pos b y). pose proof (EE_pos b0 y). rewrite ln_div by assumption. field.
  - apply small_minus; apply ln_EE.
Qed.
(** ** 1/2 ln(v/h^2) *)
Lemma vh_small rho : -1 < rho < 1 -> small 2 (fun z => / 2 * ln (vv z rho / hh z rho ^ 2) - (2 - 3 * rho ^ 2) / 24 * z ^ 2).
Proof.
  intros Hr. set (g := fun z => / 4 * ln (1 + z * (z + 2 * rho)) - ln (hh_taylor z rho) - (2 - 3 * rho ^ 2) / 24 * z ^ 2).
  assert (N3 : 0 < / 10 ^ 3) by (apply Rinv_0_lt_compat, pow_lt; lra).
  assert (T3 : / 10 ^ 3 <= / 10) by (apply Rinv_le_contravar; lra).
  assert (TP : forall z, Rabs z < / 10 ^ 3 -> 0 < hh_taylor z rho).
  { intros z Hz. apply Rabs_def2 in Hz. unfold hh_taylor. assert (-1 <= rho ^ 2 <= 1) by (cbn [pow]; nra).
    set (a := / 6 - rho ^ 2 / 4 + rho * (6 * rho ^ 2 - 5) / 24 * z). assert (Ha : -1 <= a <= 1).
    { unfold a. assert (-1 <= rho * (6 * rho ^ 2 - 5) / 24 <= 1). { set (q := rho ^ 2) in *. split; nra. } split; nra. }
    assert (-1 <= z * a <= 1) by (split; nra). assert (-2 <= rho / 2 + z * a <= 2) by lra. nra. }
  apply (small_ext 2 g).
  - exists (/ 10 ^ 3). split; [exact N3|]. intros z Hz Nz. unfold g, hh. destruct (Rlt_dec (Rabs z) (/ 10 ^ 3)); [|lra]. specialize (TP z Hz).
    pose proof (vv_pos rho Hr z) as V. rewrite ln_div by (try apply pow_lt; assumption). rewrite <- (vv_sq rho Hr z), ln_mult by assumption.
    replace (ln (hh_taylor z rho ^ 2)) with (2 * ln (hh_taylor z rho)); [field|]. cbn [pow]. rewrite Rmult_1_r, ln_mult by assumption. ring.
  - set (g' := fun z => / 2 * (z + rho) / (1 + z * (z + 2 * rho)) - TT' rho z / hh_taylor z rho - (2 - 3 * rho ^ 2) / 12 * z).
    apply (small_int 1 g g' (/ 10 ^ 3) N3).
    + unfold g, hh_taylor. replace (1 + 0 * (0 + 2 * rho)) with 1 by ring. match goal with |- context [ln ?a] => replace a with 1 by ring end.
      match goal with |- context [1 + 0 * ?a] => replace (1 + 0 * a) with 1 by ring end. rewrite ln_1. ring.
    + intros z Hz. specialize (TP z Hz). pose proof (vv2_pos rho Hr z) as V. unfold g, g', TT'. unfold hh_taylor in *. auto_derive.
      * split; [exact V|]. split; [exact TP|exact I].
      * Req. field. split; lra.
    + unfold g', TT', hh_taylor. field.
    + apply small1_derive; [unfold g', TT', hh_taylor; field|]. unfold g', TT', hh_taylor. auto_derive.
      * replace (1 + 0 * (0 + 2 * rho)) with 1 by ring. match goal with |- context [1 + 0 * ?a] => replace (1 + 0 * a) with 1 by ring end. repeat split; lra.
      * Req. field.
Qed.
