(** C38, continued: the volatility formulas and prices. *)
From Coq Require Import Reals Lra Lia List Psatz.
From Coquelicot Require Import Coquelicot.
From Verif Require Import Base Gauss Sums M_Opt M_Mgf M_Heston M_Fd M_Sabr Spec_Opt Spec_Sabr P_Bsm P_Norm P_Sabr3.
Open Scope R_scope.

Lemma npow_pos x y : 0 < x -> npow x y = Rpower x y.
Proof.
  intros Hx. unfold npow. destruct (Req_EM_T y 0) as [->|]; [rewrite Rpower_O by exact Hx; reflexivity|].
  destruct (Req_EM_T x 0); [lra|reflexivity].
Qed.
Lemma npow_s_pos x y : 0 < x -> npow_s x y = Rpower x y.
Proof.
  intros Hx. unfold npow_s. destruct (Req_EM_T y 1) as [->|]; [rewrite Rpower_1 by exact Hx; reflexivity|]. apply npow_pos, Hx.
Qed.
Lemma Rp_pos x y : 0 < Rpower x y. Proof. apply exp_pos. Qed.
(** the code's zz and prefactors in terms of the published ones *)
Lemma Rp_KF (F K b : R) : 0 < F -> 0 < K -> Rpower (F * K) (b / 2) = Rpower (K / F) (b / 2) * Rpower F b.
Proof.
  intros HF HK. unfold Rpower. rewrite <- exp_plus. f_equal. rewrite ln_mult by assumption. unfold Rdiv at 3. rewrite ln_mult by (try assumption; apply Rinv_0_lt_compat; assumption).
  rewrite ln_Rinv by assumption. field.
Qed.
Lemma Rp_half (x b : R) : Rpower x b = Rpower x (b / 2) ^ 2.
Proof. replace b with (b / 2 + b / 2) at 1 by field. rewrite Rpower_plus. ring. Qed.

Lemma hagan_x_xx rho z x : -1 < rho < 1 -> hagan_x rho z x -> x = - xx rho (- z).
Proof.
  intros Hr Hx. pose proof (xx_integral rho Hr (- z)) as H.
  assert (H2 : is_RInt (fun u => / sqrt (1 - 2 * rho * u + u ^ 2)) 0 z (- xx rho (- z))).
  { assert (H' : is_RInt (fun u => / vv u rho) (-1 * 0 + 0) (-1 * z + 0) (xx rho (- z))).
    { replace (-1 * 0 + 0) with 0 by ring. replace (-1 * z + 0) with (- z) by ring. exact H. }
    apply (is_RInt_comp_lin (V := R_NormedModule) _ (-1) 0 0 z) in H'.
    apply (is_RInt_scal (V := R_NormedModule) _ 0 z (-1)) in H'.
    replace (- xx rho (- z)) with (scal (-1) (xx rho (- z))) by (unfold scal; cbn; unfold mult; cbn; ring).
    revert H'. apply (is_RInt_ext (V := R_NormedModule)). intros u _. unfold scal; cbn; unfold mult; cbn. unfold vv.
    replace (1 + (-1 * u + 0) * (-1 * u + 0 + 2 * rho)) with (1 - 2 * rho * u + u * (u * 1)) by ring. ring. }
  apply (is_RInt_unique (V := R_CompleteNormedModule)) in Hx. apply (is_RInt_unique (V := R_CompleteNormedModule)) in H2. congruence.
Qed.

Definition hagan_A (alpha beta rho nu F K T : R) := hagan_lognormal alpha beta rho nu F K T 1.
Lemma hagan_lin alpha beta rho nu F K T w : hagan_lognormal alpha beta rho nu F K T w = hagan_A alpha beta rho nu F K T * w.
Proof. unfold hagan_A, hagan_lognormal. ring. Qed.

Lemma fwd_pos mo S T : 0 < S -> 0 < FWD (intr mo) (divr mo) (is_fwd mo) S T.
Proof. intros HS. unfold FWD. destruct (is_fwd mo); [exact HS|]. apply Rmult_lt_0_compat; [exact HS|apply exp_pos]. Qed.

(** code volatility = A(sigma') * H(-z) with sigma' = sigma (F/S)^(1-beta) *)
Lemma hagan_vol_eq mo p K S T : let F := FWD (intr mo) (divr mo) (is_fwd mo) S T in let sg := b_sigma p * Rpower (F / S) (1 - b_beta p) in
  0 < S -> 0 < K -> 0 < T -> 0 < b_sigma p -> eps <= b_sigma p / Rpower S (1 - b_beta p) ->
  hagan_vol mo p 1 K S T = hagan_A sg (b_beta p) (b_rho p) (b_vov p) F K T * hh (- hagan_z sg (b_beta p) (b_vov p) F K) (b_rho p).
Proof.
  intros F sg HS HK HT Hs He. assert (HF : 0 < F) by (apply fwd_pos, HS).
  unfold hagan_vol. rewrite fdd_eq. change (mF mo S T) with F. unfold hagan_vol_at.
  destruct (Rle_dec T 0); [lra|]. cbv zeta. unfold sabr_alpha. rewrite npow_s_pos, !npow_pos by (try assumption; apply Rdiv_lt_0_compat; assumption).
  rewrite Rmax_left by exact He. unfold hagan_A, hagan_lognormal, hagan_z.
  rewrite (Rp_half (F * K) (1 - b_beta p)), (Rp_KF F K (1 - b_beta p)) by assumption.
  assert (ESg : sg = b_sigma p * Rpower F (1 - b_beta p) / Rpower S (1 - b_beta p)).
  { unfold sg. unfold Rdiv at 1. rewrite <- Rpower_mult_distr by (try assumption; apply Rinv_0_lt_compat; assumption).
    replace (Rpower (/ S) (1 - b_beta p)) with (/ Rpower S (1 - b_beta p)); [unfold Rdiv; ring|].
    unfold Rpower. rewrite ln_Rinv by assumption. rewrite <- exp_Ropp. f_equal. ring. }
  rewrite ESg.
  assert (P1 := Rp_pos (K / F) ((1 - b_beta p) / 2)). assert (P2 := Rp_pos F (1 - b_beta p)). assert (P3 := Rp_pos S (1 - b_beta p)).
  set (pk := Rpower (K / F) ((1 - b_beta p) / 2)) in *. set (pf := Rpower F (1 - b_beta p)) in *. set (ps := Rpower S (1 - b_beta p)) in *.
  set (lk := ln (F / K)). set (b := 1 - b_beta p).
  assert (Pd : 0 < 1 + b ^ 2 / 24 * (lk * lk) * (1 + b ^ 2 / 80 * (lk * lk))).
  { pose proof (pow2_ge_0 b). pose proof (pow2_ge_0 lk). replace (lk * lk) with (lk ^ 2) by ring.
    assert (0 <= b ^ 2 / 24 * lk ^ 2) by (apply Rmult_le_pos; lra). assert (0 <= b ^ 2 / 80 * lk ^ 2) by (apply Rmult_le_pos; lra).
    assert (0 <= b ^ 2 / 24 * lk ^ 2 * (1 + b ^ 2 / 80 * lk ^ 2)) by (apply Rmult_le_pos; lra). lra. }
  replace (- (pk * lk * b_vov p / (b_sigma p / ps))) with (- (b_vov p / (b_sigma p * pf / ps) * (pk * pf) * lk)) by (field; lra).
  assert (Pd2 : 1 + b ^ 2 / 24 * lk ^ 2 + b ^ 4 / 1920 * lk ^ 4 = 1 + b ^ 2 / 24 * (lk * lk) * (1 + b ^ 2 / 80 * (lk * lk))) by field.
  rewrite Pd2. set (D := 1 + b ^ 2 / 24 * (lk * lk) * (1 + b ^ 2 / 80 * (lk * lk))) in *. unfold b. set (H := hh _ _). field. lra.
Qed.
(** the published formula, exactly for |z| >= 1e-3 and to within 8 |z|^5 relative to z below *)
Lemma hagan_formula mo p K S T x : let F := FWD (intr mo) (divr mo) (is_fwd mo) S T in let sg := b_sigma p * Rpower (F / S) (1 - b_beta p) in
  let z := hagan_z sg (b_beta p) (b_vov p) F K in
  0 < S -> 0 < K -> 0 < T -> 0 < b_sigma p -> eps <= b_sigma p / Rpower S (1 - b_beta p) -> -1 < b_rho p < 1 ->
  hagan_x (b_rho p) z x ->
  Rabs (hagan_vol mo p 1 K S T * x - hagan_lognormal sg (b_beta p) (b_rho p) (b_vov p) F K T z)
  <= Rabs (hagan_lognormal sg (b_beta p) (b_rho p) (b_vov p) F K T 1) * (if Rlt_dec (Rabs z) (/ 10 ^ 3) then 8 * Rabs z ^ 5 else 0).
Proof.
  intros F sg z HS HK HT Hs He Hr Hx. pose proof (hagan_vol_eq mo p K S T HS HK HT Hs He) as E. cbv zeta in E. fold F sg in E. fold z in E.
  rewrite E, (hagan_lin sg), (hagan_lin _ _ _ _ _ _ _ 1). rewrite (hagan_x_xx _ _ _ Hr Hx). set (A := hagan_A _ _ _ _ _ _ _).
  replace (A * hh (- z) (b_rho p) * - xx (b_rho p) (- z) - A * z) with (- A * (hh (- z) (b_rho p) * xx (b_rho p) (- z) - - z)) by ring.
  rewrite Rabs_mult, Rabs_Ropp, Rmult_1_r. apply Rmult_le_compat_l; [apply Rabs_pos|].
  destruct (Rlt_dec _ _) as [L|L].
  - rewrite <- (Rabs_Ropp z) in L. apply (hh_near _ Hr) in L. rewrite (Rabs_Ropp z) in L. exact L.
  - rewrite (hh_exact _ Hr) by (rewrite Rabs_Ropp; lra). rewrite Rminus_diag_eq by reflexivity. rewrite Rabs_R0. lra.
Qed.
Lemma hh_0 rho : hh 0 rho = 1.
Proof. unfold hh. destruct (Rlt_dec _ _) as [|N]; [unfold hh_taylor; ring|]. exfalso. apply N. rewrite Rabs_R0. apply Rinv_0_lt_compat, pow_lt. lra. Qed.
Lemma hagan_atm mo p S T : let F := FWD (intr mo) (divr mo) (is_fwd mo) S T in let sg := b_sigma p * Rpower (F / S) (1 - b_beta p) in
  0 < S -> 0 < T -> 0 < b_sigma p -> eps <= b_sigma p / Rpower S (1 - b_beta p) ->
  hagan_vol mo p 1 F S T = hagan_lognormal sg (b_beta p) (b_rho p) (b_vov p) F F T 1.
Proof.
  intros F sg HS HT Hs He. assert (HF : 0 < F) by (apply fwd_pos, HS). pose proof (hagan_vol_eq mo p F S T HS HF HT Hs He) as E. cbv zeta in E.
  fold F sg in E. rewrite E. unfold hagan_z. replace (F / F) with 1 by (field; lra). rewrite ln_1, Rmult_0_r, Ropp_0, hh_0. unfold hagan_A. ring.
Qed.
Lemma hagan_parity mo p order K S T : hagan_price mo p order K S T 1 - hagan_price mo p order K S T (-1)
  = DF (intr mo) T * (FWD (intr mo) (divr mo) (is_fwd mo) S T - K).
Proof. unfold hagan_price. apply (bsm_parity (set_sigma mo (hagan_vol mo p order K S T))). Qed.
Lemma hagan_lognormal_limit mo p order K S T cp : 0 < S -> 0 < K -> 0 < T -> eps <= b_sigma p -> b_vov p = 0 -> b_beta p = 1 ->
  hagan_price mo p order K S T cp = bsm_price (set_sigma mo (b_sigma p)) K S T cp.
Proof.
  intros HS HK HT Hs Hv Hb. unfold hagan_price. replace (hagan_vol mo p order K S T) with (b_sigma p); [reflexivity|].
  unfold hagan_vol. rewrite fdd_eq. unfold hagan_vol_at. destruct (Rle_dec T 0); [lra|]. cbv zeta.
  unfold sabr_alpha. rewrite Hv, Hb. replace ((1 - 1) / 2) with 0 by field. replace (1 - 1) with 0 by ring. unfold npow_s, npow. destruct (Req_EM_T 0 1); [lra|]. destruct (Req_EM_T 0 0); [|lra].
  replace (- (1 * ln (mF mo S T / K) * 0 / Rmax (b_sigma p / 1) eps)) with 0 by (unfold Rdiv; ring). rewrite hh_0.
  destruct order; field.
Qed.
(** ** Normal SABR *)

Lemma norm_sabr_parity mo p order atm K S T : eps <= norm_sabr_vol mo p order atm K S T * sqrt T ->
  norm_sabr_price mo p order atm K S T 1 - norm_sabr_price mo p order atm K S T (-1)
  = DF (intr mo) T * (FWD (intr mo) (divr mo) (is_fwd mo) S T - K).
Proof. intros He. unfold norm_sabr_price. apply (norm_parity (set_sigma mo (norm_sabr_vol mo p order atm K S T))). exact He. Qed.
(** [z] = nu/sigma (K - F), x(z) = int_0^z du / sqrt(1 + 2 rho u + u^2) *)
Lemma norm_sabr_formula mo p (atm : bool) K S T x : let F := FWD (intr mo) (divr mo) (is_fwd mo) S T in let z := b_vov p / b_sigma p * (K - F) in
  -1 < b_rho p < 1 -> is_RInt (fun u => / sqrt (1 + 2 * b_rho p * u + u ^ 2)) 0 z x ->
  let A := b_sigma p * (if atm then 1 else 1 + (2 - 3 * b_rho p ^ 2) / 24 * b_vov p ^ 2 * T) in
  Rabs (norm_sabr_vol mo p 1 atm K S T * x - A * z) <= Rabs A * (if Rlt_dec (Rabs z) (/ 10 ^ 3) then 8 * Rabs z ^ 5 else 0).
Proof.
  intros F z Hr Hx A. assert (Ex : x = xx (b_rho p) z).
  { pose proof (xx_integral (b_rho p) Hr z) as H.
    assert (H2 : is_RInt (fun u => / sqrt (1 + 2 * b_rho p * u + u ^ 2)) 0 z (xx (b_rho p) z)).
    { revert H. apply (is_RInt_ext (V := R_NormedModule)). intros u _. unfold vv. do 2 f_equal. ring. }
    apply (is_RInt_unique (V := R_CompleteNormedModule)) in Hx. apply (is_RInt_unique (V := R_CompleteNormedModule)) in H2. congruence. }
  rewrite Ex. unfold norm_sabr_vol. change (forward mo S T) with F. cbv zeta. fold z.
  replace ((if atm then 1 else 1 + T * (2 - 3 * b_rho p ^ 2) / 24 * b_vov p ^ 2) * (b_sigma p * hh z (b_rho p)) * xx (b_rho p) z - A * z)
    with (A * (hh z (b_rho p) * xx (b_rho p) z - z)) by (unfold A; destruct atm; field).
  rewrite Rabs_mult. apply Rmult_le_compat_l; [apply Rabs_pos|].
  destruct (Rlt_dec _ _) as [L|L]; [apply (hh_near _ Hr), L|].
  rewrite (hh_exact _ Hr) by lra. rewrite Rminus_diag_eq by reflexivity. rewrite Rabs_R0. lra.
Qed.
Lemma norm_sabr_atm mo p atm S T :
  norm_sabr_vol mo p 1 atm (FWD (intr mo) (divr mo) (is_fwd mo) S T) S T
  = b_sigma p * (if atm then 1 else 1 + (2 - 3 * b_rho p ^ 2) / 24 * b_vov p ^ 2 * T).
Proof.
  unfold norm_sabr_vol. change (forward mo S T) with (FWD (intr mo) (divr mo) (is_fwd mo) S T). cbv zeta.
  set (F := FWD _ _ _ _ _). replace (b_vov p / b_sigma p * (F - F)) with 0 by ring. rewrite hh_0. destruct atm; field.
Qed.
Lemma norm_sabr_limit mo p order atm K S T cp : b_vov p = 0 ->
  norm_sabr_price mo p order atm K S T cp = norm_price (set_sigma mo (b_sigma p)) K S T cp.
Proof.
  intros Hv. unfold norm_sabr_price. replace (norm_sabr_vol mo p order atm K S T) with (b_sigma p); [reflexivity|].
  unfold norm_sabr_vol. cbv zeta. rewrite Hv. replace (0 / b_sigma p * (K - forward mo S T)) with 0 by (unfold Rdiv; ring). rewrite hh_0.
  destruct order; [ring|]. destruct atm; [ring|field].
Qed.
(** ** SabrChoiWu2021H *)
Lemma powrel_1 x : -1 < x -> powrel x 1 = 1.
Proof.
  intros Hx. unfold powrel. destruct (Req_EM_T x 0); [reflexivity|]. destruct (Req_EM_T 1 0); [lra|].
  rewrite Rmult_1_l, exp_ln by lra. field. lra.
Qed.
Lemma powrel_0 x : powrel x 0 * x = ln (1 + x).
Proof.
  unfold powrel. destruct (Req_EM_T x 0) as [->|]; [rewrite Rplus_0_r, ln_1; ring|]. destruct (Req_EM_T 0 0); [field; assumption|lra].
Qed.
Lemma choiwu_is_hagan mo p order K S T : 0 < S -> 0 < K -> 0 < T -> b_beta p = 1 ->
  choiwu_h_vol mo p order K S T = hagan_vol mo p order K S T.
Proof.
  intros HS HK HT Hb. unfold choiwu_h_vol, hagan_vol. rewrite fdd_eq. assert (HF : 0 < mF mo S T) by (apply mF_pos, HS). set (F := mF mo S T) in *.
  unfold hagan_vol_at. destruct (Rle_dec T 0); [lra|]. cbv zeta. rewrite Hb. replace ((1 - 1) / 2) with 0 by field. replace (1 - 1) with 0 by ring.
  rewrite powrel_0, powrel_1 by (assert (0 < K / F) by (apply Rdiv_lt_0_compat; assumption); lra).
  replace (1 + (K / F - 1)) with (K / F) by ring.
  assert (EL : ln (K / F) = - ln (F / K)).
  { rewrite <- ln_Rinv by (apply Rdiv_lt_0_compat; assumption). f_equal. field. lra. }
  rewrite EL. unfold sabr_alpha, npow_s, npow. rewrite Hb. replace (1 - 1) with 0 by ring. destruct (Req_EM_T 0 1); [lra|]. destruct (Req_EM_T 0 0); [|lra].
  replace (b_vov p / Rmax (b_sigma p / 1) eps * - ln (F / K)) with (- (1 * ln (F / K) * b_vov p / Rmax (b_sigma p / 1) eps)) by (unfold Rdiv; ring).
  destruct order; field.
Qed.
Lemma choiwu_is_normal mo p order K S T : 0 < S -> 0 < K -> b_beta p = 0 -> 0 < b_sigma p -> eps <= b_sigma p / FWD (intr mo) (divr mo) (is_fwd mo) S T ->
  choiwu_h_vol mo p order K S T = norm_sabr_vol mo p order false K S T.
Proof.
  intros HS HK Hb Hs He. change (FWD (intr mo) (divr mo) (is_fwd mo) S T) with (mF mo S T) in He. unfold choiwu_h_vol, norm_sabr_vol. rewrite fdd_eq. assert (HF : 0 < mF mo S T) by (apply mF_pos, HS).
  change (forward mo S T) with (mF mo S T). set (F := mF mo S T) in *. cbv zeta. rewrite Hb. replace (1 - 0) with 1 by ring.
  rewrite powrel_1 by (assert (0 < K / F) by (apply Rdiv_lt_0_compat; assumption); lra).
  assert (Ea : sabr_alpha p F = b_sigma p / F).
  { unfold sabr_alpha. rewrite Hb, Rminus_0_r, npow_s_pos by exact HF. rewrite Rpower_1 by exact HF. reflexivity. }
  rewrite Ea, Rmax_left by exact He. rewrite npow_pos, Rpower_1 by exact HF.
  replace (b_vov p / (b_sigma p / F) * (1 * (K / F - 1))) with (b_vov p / b_sigma p * (K - F)) by (field; lra).
  destruct order; field; lra.
Qed.
(** ** Refutation: alpha is computed from the spot, so the same forward quoted as spot and rates gets another volatility *)
Lemma hagan_spot_refuted : exists mo p K S T, 0 < S /\ 0 < K /\ 0 < T /\ 0 < b_sigma p /\
  let F := FWD (intr mo) (divr mo) (is_fwd mo) S T in
  hagan_vol mo p 1 K S T <> hagan_vol (mkOpt (sigma mo) 0 0 true) p 1 K F T.
Proof.
  exists (mkOpt 0 (ln 2) 0 false), (mkSabr 1 0 0 0), 2, 1, 1. cbn [intr divr is_fwd sigma b_sigma].
  assert (EF : FWD (ln 2) 0 false 1 1 = 2).
  { unfold FWD. replace ((ln 2 - 0) * 1) with (ln 2) by ring. rewrite exp_ln by lra. ring. }
  rewrite EF. split; [lra|]. split; [lra|]. split; [lra|]. split; [lra|]. cbv zeta.
  assert (Ee : eps <= / 2) by (unfold eps; apply Rinv_le_contravar; [lra|simpl; lra]).
  assert (R1 : Rpower 1 1 = 1) by (apply Rpower_1; lra). assert (R2 : Rpower 2 1 = 2) by (apply Rpower_1; lra).
  pose proof (hagan_atm (mkOpt 0 (ln 2) 0 false) (mkSabr 1 0 0 0) 1 1 ltac:(lra) ltac:(lra)) as E1.
  cbn [intr divr is_fwd sigma b_sigma b_beta b_rho b_vov] in E1. rewrite EF in E1. rewrite E1; [|lra|rewrite Rminus_0_r, R1; lra].
  pose proof (hagan_atm (mkOpt 0 0 0 true) (mkSabr 1 0 0 0) 2 1 ltac:(lra) ltac:(lra)) as E2.
  cbn [intr divr is_fwd sigma b_sigma b_beta b_rho b_vov FWD] in E2. rewrite E2; [|lra|rewrite Rminus_0_r, R2; lra].
  unfold hagan_lognormal. replace (2 / 2) with 1 by field. replace (2 / 1) with 2 by field. rewrite ln_1.
  replace ((1 - 0) / 2) with (1 / 2) by field. rewrite Rminus_0_r, R1, R2.
  assert (E4 : Rpower (2 * 2) (1 / 2) = 2).
  { replace (2 * 2) with (Rpower 2 2) by (replace 2 with (INR 2) at 2 by (simpl; lra); rewrite Rpower_pow by lra; simpl; ring).
    rewrite Rpower_mult. replace (2 * (1 / 2)) with 1 by field. exact R2. }
  assert (E5 : Rpower (2 * 2) 1 = 4) by (rewrite Rpower_1; lra). rewrite E4, E5.
  apply Rgt_not_eq. simpl. lra.
Qed.
