From Coq Require Import Reals Lra Lia List.
From Coquelicot Require Import Coquelicot.
From Verif Require Import Base Sums M_Opt M_Mgf M_Fd M_Sabr M_VolPath M_Sz Spec_Sz P_VolPath P_MgfOde.
Import ListNotations.

Section SzC.
Local Open Scope C_scope.
Lemma Ci2 : Ci * Ci = - RtoC 1.
Proof. unfold Ci, Cmult, Copp, RtoC. cbn [fst snd]. apply injective_projections; cbn [fst snd]; ring. Qed.
Lemma f1_mgf o p phi T : sz_f1 o p phi T = szc_mgf o p (RtoC 1 + Ci * RtoC phi) T.
Proof.
  unfold sz_f1, szc_mgf. cbv zeta. f_equal; [ring|]. f_equal. ring.
Qed.
Lemma f2_mgf o p phi T : sz_f2 o p phi T = szc_mgf o p (Ci * RtoC phi) T.
Proof.
  unfold sz_f2, szc_mgf. cbv zeta. f_equal; [ring|]. f_equal; [|unfold Cdiv; ring].
  set (w := RtoC 1 - two * RtoC (v_mr p) * RtoC (v_rho p) / RtoC (v_vov p)). clearbody w. set (r := RtoC 1 - RtoC (v_rho p) * RtoC (v_rho p)). clearbody r. set (x := RtoC phi). clearbody x.
  transitivity (half * x * Ci * w - (Ci * Ci) * (half * x * x * r)); [rewrite Ci2; ring|ring].
Qed.
End SzC.

Open Scope R_scope.
Lemma sz_g1_val p u : v_vov p <> 0 -> sz_g1 p u = ousv_dd p u / 2.
Proof.
  intros Hv. unfold sz_g1, ousv_dd, ousv_beta. match goal with |- sqrt ?X = sqrt ?Y / 2 => replace Y with (2 ^ 2 * X) by (field; exact Hv) end.
  rewrite sqrt_mult_alt by (apply pow_le; lra). rewrite sqrt_pow2 by lra. field.
Qed.
Lemma sz_cossin p u T : v_vov p <> 0 -> 0 < u < 1 -> 0 <= T -> 0 < sz_g1 p u /\ 0 < cosh (sz_g1 p u * T) + sz_g2 p u * sinh (sz_g1 p u * T).
Proof.
  intros Hv Hu HT. destruct (ousv_domain p u T Hv Hu HT) as (Hrad & _). assert (Hv2 : 0 < v_vov p ^ 2) by (apply pow2_gt_0; exact Hv).
  assert (Hz : 0 < 4 * v_vov p ^ 2 * u * (1 - u)) by (apply Rmult_lt_0_compat; [apply Rmult_lt_0_compat|]; lra).
  assert (Hd : Rabs (ousv_beta p u) < ousv_dd p u). { unfold ousv_dd. rewrite <- sqrt_Rsqr_abs. apply sqrt_lt_1; unfold Rsqr; nra. }
  apply Rabs_def2 in Hd. assert (G : 0 < sz_g1 p u) by (rewrite sz_g1_val by exact Hv; lra). split; [exact G|].
  assert (E2 : sz_g2 p u = ousv_beta p u / ousv_dd p u) by (unfold sz_g2; rewrite sz_g1_val by exact Hv; unfold ousv_beta; field; split; lra).
  assert (B : -1 < sz_g2 p u) by (rewrite E2; apply Rlt_div_r; lra).
  set (y := sz_g1 p u * T). assert (Hy : 0 <= y) by (apply Rmult_le_pos; lra).
  assert (Sh : 0 <= sinh y). { unfold sinh. assert (exp (- y) <= exp y) by (apply exp_le; lra). lra. }
  assert (Ch : cosh y - sinh y = exp (- y)) by (unfold cosh, sinh; field). pose proof (exp_pos (- y)). nra.
Qed.
Ltac cast := rewrite <- ?RtoC_opp, <- ?RtoC_mult, <- ?RtoC_minus, <- ?RtoC_plus, <- ?RtoC_mult, <- ?RtoC_minus, <- ?RtoC_plus, <- ?RtoC_opp.
Lemma szc_real o p u T : real_ops o -> v_vov p <> 0 -> v_mr p <> 0 -> 0 < u < 1 -> 0 <= T -> szc_mgf o p (RtoC u) T = RtoC (ousv_mgf p u T).
Proof.
  intros (Hsq & Hex & Hln & Hsh & Hch) Hv Hk Hu HT. destruct (sz_cossin p u T Hv Hu HT) as (G & CS).
  unfold ousv_mgf. rewrite <- (ln_exp (ousv_logmgf p u T)). change (exp (ousv_logmgf p u T)) with (ousv_mgf p u T). rewrite <- (sz_eq_mgf p u T Hv Hk Hu HT).
  destruct p as [s v r k th]. cbn [v_sigma v_vov v_rho v_mr v_theta] in *. unfold szc_mgf. cbn [v_sigma v_vov v_rho v_mr v_theta]. unfold sz_DBC. cbn [v_sigma v_vov v_rho v_mr v_theta]. unfold half, two.
  set (s1 := / 2 * u * ((1 - 2 * k * r / v) - (1 - r * r) * u)). set (s2 := u * k * th * r / v). set (s3 := / 2 * u * r / v).
  assert (E1 : Cmult (Cmult (RtoC (/ 2)) (RtoC u)) (Cminus (Cminus (RtoC 1) (Cdiv (Cmult (Cmult (RtoC 2) (RtoC k)) (RtoC r)) (RtoC v))) (Cmult (Cminus (RtoC 1) (Cmult (RtoC r) (RtoC r))) (RtoC u))) = RtoC s1).
  { unfold s1. cast. rewrite <- RtoC_div by exact Hv. cast. reflexivity. }
  rewrite E1.
  assert (E2 : Cdiv (Cmult (Cmult (Cmult (RtoC u) (RtoC k)) (RtoC th)) (RtoC r)) (RtoC v) = RtoC s2) by (unfold s2; cast; rewrite <- RtoC_div by exact Hv; reflexivity).
  rewrite E2.
  assert (E3 : Cdiv (Cmult (Cmult (RtoC (/ 2)) (RtoC u)) (RtoC r)) (RtoC v) = RtoC s3) by (unfold s3; cast; rewrite <- RtoC_div by exact Hv; reflexivity).
  rewrite E3. set (P := mkSv s v r k th) in *.
  assert (EG : sqrt (2 * (v * v) * s1 + k * k) = sz_g1 P u). { unfold sz_g1, P; cbn [v_vov v_mr v_rho]. f_equal. unfold s1. ring. }
  assert (GR : 0 <= 2 * (v * v) * s1 + k * k). { destruct (Rle_lt_dec 0 (2 * (v * v) * s1 + k * k)) as [L|L]; [exact L|]. rewrite sqrt_neg_0 in EG by lra. lra. }
  cast. rewrite (Hsq _ GR), EG. set (g1 := sz_g1 P u) in *.
  rewrite <- (RtoC_div (k - 2 * (v * v) * s3) g1) by lra. set (g2 := (k - 2 * (v * v) * s3) / g1).
  assert (Eg2 : g2 = sz_g2 P u). { unfold g2, sz_g2. fold g1. unfold P; cbn [v_vov v_mr v_rho]. unfold s3. f_equal. ring. }
  cast. rewrite Hsh, Hch. rewrite Eg2. set (h2 := sz_g2 P u) in *. set (sh := sinh (g1 * T)) in *. set (ch := cosh (g1 * T)) in *. cast.
  rewrite (Hln _ CS). set (g3 := k * k * th - s2 * (v * v)).
  assert (Hcs : ch + h2 * sh <> 0) by lra. assert (Hg1 : g1 <> 0) by lra.
  assert (Hvv : v * v <> 0) by (apply Rmult_integral_contrapositive; split; exact Hv).
  assert (H3 : v * v * (g1 * g1 * g1) <> 0) by (repeat (apply Rmult_integral_contrapositive; split); assumption).
  assert (H23 : 2 * (v * v * (g1 * g1 * g1)) <> 0) by (apply Rmult_integral_contrapositive; split; [lra|exact H3]).
  assert (Hvg : v * v * g1 <> 0) by (apply Rmult_integral_contrapositive; split; assumption).
  unfold sz_end, two. change (v_sigma P) with s. rewrite <- !RtoC_div by (first [assumption|lra]). cast.
  repeat (first [rewrite <- RtoC_div by (first [assumption|lra])|progress cast]).
  rewrite Hex. f_equal. f_equal. unfold sz_logmgf. cbv zeta. fold g1. change (sz_g2 P u) with h2. unfold P. cbn [v_sigma v_vov v_rho v_mr v_theta]. fold s2. fold sh. fold ch.
  replace (k ^ 2 * th - s2 * v ^ 2) with g3 by (unfold g3; ring). field. repeat split; assumption.
Qed.
(** ** Put-call parity and the grid of the inversion *)
Lemma sz_parity o mo p n h K S T : 0 < S -> let '(F, df, _) := fwd_df_divf mo S T in
  sz_price o mo p n h K S T 1 - sz_price o mo p n h K S T (-1) = df * (F - K).
Proof.
  intros HS. destruct (fwd_df_divf mo S T) as [[F df] dv] eqn:E. unfold sz_price. rewrite E. cbv zeta.
  destruct (Rlt_dec 0 1) as [_|N]; [|lra]. destruct (Rlt_dec 0 (-1)) as [N|_]; [lra|].
  assert (HF : F <> 0).
  { unfold fwd_df_divf in E. destruct mo as [sg r q isf]. cbn in E. destruct isf; injection E as <- <- <-; [lra|]. apply Rgt_not_eq. unfold Rdiv. repeat apply Rmult_lt_0_compat; try apply Rinv_0_lt_compat; try apply exp_pos; lra. }
  field. exact (conj PI_neq0 HF) || (split; [exact PI_neq0|exact HF]) || (split; [exact HF|exact PI_neq0]) || exact HF.
Qed.
Lemma sz_simps_cubic a b c d h m : let q := (fun x => a + b * x + c * x ^ 2 + d * x ^ 3) in is_RInt q h (INR (S (2 * m)) * h) (sz_simps h (S (2 * m)) q).
Proof.
  intros q. unfold sz_simps, simps. rewrite map_length, seq_length. rewrite Nat.even_succ, <- Nat.negb_even. replace (Nat.even (2 * m)) with true by (symmetry; apply Nat.even_spec; exists m; reflexivity). cbn [negb].
  rewrite (map_ext _ (fun i => a + (b * h) * INR i + (c * h ^ 2) * INR i ^ 2 + (d * h ^ 3) * INR i ^ 3)) by (intros i; unfold q; ring).
  pose proof (simp13_cubic a (b * h) (c * h ^ 2) (d * h ^ 3) m 1) as S. cbv zeta in S. cbv beta in S. rewrite S.
  set (Q := fun x => a * x + b * x ^ 2 / 2 + c * x ^ 3 / 3 + d * x ^ 4 / 4).
  match goal with |- is_RInt _ _ _ ?V => replace V with (minus (Q (INR (Datatypes.S (2 * m)) * h)) (Q h)) end.
  - apply (is_RInt_derive (V := R_CompleteNormedModule) Q q).
    + intros x _. unfold Q, q. auto_derive; [exact I|]. Req. field.
    + intros x _. apply ex_derive_continuous_R. unfold q. auto_derive. exact I.
  - unfold minus, plus, opp; cbn [AbelianGroup.plus AbelianGroup.opp]. Req. replace (1 + 2 * m)%nat with (Datatypes.S (2 * m)) by lia. change (INR 1) with 1. set (N := INR (Datatypes.S (2 * m))). unfold Q. simpl. field.
Qed.
(** ** Calibration *)
Lemma tanh_range x : -1 < tanh x < 1.
Proof.
  unfold tanh, sinh, cosh. pose proof (exp_pos x). pose proof (exp_pos (- x)). split; [apply Rlt_div_r|apply Rlt_div_l]; lra.
Qed.
Lemma cal_admissible root iv mo p order q3 k3 S T sv isv : let '(q, p') := calibrate3 root iv mo p order q3 k3 S T sv isv in
  0 < b_sigma q /\ 0 < b_vov q /\ -1 < b_rho q < 1 /\ b_beta q = b_beta p /\ p' = (if sv then q else p).
Proof.
  unfold calibrate3. cbv zeta. destruct (root _ _) as [[a b] c]. unfold cal_model. cbn [b_sigma b_vov b_rho b_beta].
  split; [apply exp_pos|]. split; [apply exp_pos|]. split; [apply tanh_range|]. split; reflexivity.
Qed.
Lemma cal_reach q : 0 < b_sigma q -> 0 < b_vov q -> -1 < b_rho q < 1 -> exists x, cal_model (b_beta q) x = q.
Proof.
  destruct q as [s v r be]. cbn. intros Hs Hv Hr. exists (ln s, ln v, / 2 * ln ((1 + r) / (1 - r))). unfold cal_model. rewrite !exp_ln by assumption. f_equal.
  assert (X : 0 < (1 + r) / (1 - r)) by (apply Rdiv_lt_0_compat; lra). set (y := ln ((1 + r) / (1 - r))). assert (E : exp y = (1 + r) / (1 - r)) by (apply exp_ln; exact X).
  unfold tanh, sinh, cosh. assert (E2 : exp (/ 2 * y) = exp y * exp (- (/ 2 * y))) by (rewrite <- exp_plus; f_equal; field). rewrite E2, E. set (z := exp (- (/ 2 * y))). assert (Hz : 0 < z) by apply exp_pos.
  assert (N1 : (1 + r) / (1 - r) * z - z = r * (2 * z / (1 - r))) by (field; lra). assert (N2 : (1 + r) / (1 - r) * z + z = 2 * z / (1 - r)) by (field; lra). rewrite N1, N2.
  assert (0 < 2 * z / (1 - r)) by (apply Rdiv_lt_0_compat; lra). field. lra.
Qed.
Lemma cal_fit root iv mo p order k3 S T sv q0 : 0 < b_sigma q0 -> 0 < b_vov q0 -> -1 < b_rho q0 < 1 -> b_beta q0 = b_beta p ->
  let vol := (fun q k => hagan_vol mo q order k S T) in
  solves_at root (cal_err mo (b_beta p) order (tmap (vol q0) k3) k3 S T) ->
  let '(q, _) := calibrate3 root iv mo p order (tmap (vol q0) k3) k3 S T sv true in tmap (vol q) k3 = tmap (vol q0) k3.
Proof.
  intros H1 H2 H3 Hb vol HR. unfold calibrate3. cbv zeta. set (f := cal_err _ _ _ _ _ _ _) in *. destruct (cal_reach q0 H1 H2 H3) as (x & Ex).
  assert (X : exists x, f x = (0, 0, 0)).
  { exists x. unfold f, cal_err. rewrite <- Hb, Ex. destruct k3 as [[a b] c]. cbn [tmap tmap2]. unfold vol. rewrite !Rminus_eq_0. reflexivity. }
  specialize (HR X (ln (snd (fst (tmap (vol q0) k3))), -1, 0)). set (r := root _ _) in *. rename HR into E.
  unfold f, cal_err in E. destruct k3 as [[a b] c]. cbn [tmap tmap2] in *. fold (vol (cal_model (b_beta p) r)) in *.
  assert (A : forall u v w : R, (u, v, w) = (0, 0, 0) -> u = 0 /\ v = 0 /\ w = 0) by (intros u v w Y; inversion Y; auto).
  apply A in E. destruct E as (Ea & Eb & Ec). f_equal; [f_equal|]; unfold vol in *; lra.
Qed.
Lemma cal_price_fit root iv mo p order q3 k3 S T cp sv : let '(q, _) := calibrate3 root iv mo p order q3 k3 S T sv false in
  tmap (fun k => hagan_vol mo q order k S T) k3 = tmap2 iv q3 k3 ->
  tmap2 (fun c k => bsm_price (set_sigma mo (iv c k)) k S T cp) q3 k3 = q3 ->
  tmap (fun k => hagan_price mo q order k S T cp) k3 = q3.
Proof.
  destruct (calibrate3 _ _ _ _ _ _ _ _ _ _ _) as [q p']. intros H Hi. destruct k3 as [[a b] c], q3 as [[d e] g]. cbn [tmap tmap2] in *. unfold hagan_price.
  assert (A : forall u v w x y z : R, (u, v, w) = (x, y, z) -> u = x /\ v = y /\ w = z) by (intros ? ? ? ? ? ? X; inversion X; auto).
  apply A in H. destruct H as (-> & -> & ->). exact Hi.
Qed.
