(** C38: SABR volatility approximations. *)
From Coq Require Import Reals Lra Lia List Psatz.
From Coquelicot Require Import Coquelicot.
From Verif Require Import Base Gauss Sums M_Opt M_Mgf M_Heston M_Fd M_Sabr Spec_Opt P_Bsm P_Norm.
Open Scope R_scope.

(** ** The function H *)
Section HH.
Variables (rho : R).
Hypothesis Hr : -1 < rho < 1.
Lemma vv2_pos z : 0 < 1 + z * (z + 2 * rho).
Proof. replace (1 + z * (z + 2 * rho)) with ((z + rho) ^ 2 + (1 - rho) * (1 + rho)) by ring. pose proof (pow2_ge_0 (z + rho)). nra. Qed.
Lemma vv_pos z : 0 < vv z rho. Proof. apply sqrt_lt_R0, vv2_pos. Qed.
Lemma vv_sq z : vv z rho * vv z rho = 1 + z * (z + 2 * rho). Proof. apply sqrt_sqrt. left. apply vv2_pos. Qed.
Lemma vv_gt z : - vv z rho < z + rho < vv z rho.
Proof. pose proof (vv_sq z). pose proof (vv_pos z). split; nra. Qed.
Definition xx (z : R) : R := ln ((vv z rho + z + rho) / (1 + rho)).
Lemma xx_alt z : ln ((1 - rho) / (vv z rho - z - rho)) = xx z.
Proof.
  unfold xx. f_equal. pose proof (vv_sq z). pose proof (vv_gt z).
  apply (Rmult_eq_reg_r ((vv z rho - z - rho) * (1 + rho))); [|apply Rmult_integral_contrapositive_currified; lra].
  field_simplify; [|lra|lra]. nra.
Qed.
Lemma hh_log_eq z : hh_log z rho = z / xx z.
Proof. unfold hh_log. rewrite xx_alt. destruct (Rlt_dec _ _); reflexivity. Qed.
Lemma d_xx z : is_derive xx z (/ vv z rho).
Proof.
  unfold xx, vv. pose proof (vv_gt z) as G. pose proof (vv_pos z) as P. unfold vv in *. pose proof (vv2_pos z) as Q.
  auto_derive.
  - split; [exact Q|]. split; [|exact I]. apply Rmult_lt_0_compat; [lra|apply Rinv_0_lt_compat; lra].
  - Req. set (s := sqrt (1 + z * (z + 2 * rho))) in *. field. lra.
Qed.
Lemma xx_0 : xx 0 = 0.
Proof. unfold xx, vv. replace (1 + 0 * (0 + 2 * rho)) with 1 by ring. rewrite sqrt_1. replace ((1 + 0 + rho) / (1 + rho)) with 1 by (field; lra). apply ln_1. Qed.
Lemma xx_integral z : is_RInt (fun u => / vv u rho) 0 z (xx z).
Proof.
  replace (xx z) with (xx z - xx 0) by (rewrite xx_0; ring).
  apply (is_RInt_derive (V := R_CompleteNormedModule) xx (fun u => / vv u rho)).
  - intros u _. apply d_xx.
  - intros u _. apply ex_derive_continuous_R. unfold vv. pose proof (vv2_pos u). auto_derive.
    split; [assumption|]. split; [|exact I]. pose proof (sqrt_lt_R0 _ H). lra.
Qed.
Lemma xx_nz z : z <> 0 -> xx z <> 0.
Proof.
  intros Hz. destruct (MVT_gen xx 0 z (fun u => / vv u rho)) as (c & _ & E).
  - intros; apply d_xx.
  - intros u _. apply continuity_pt_filterlim, ex_derive_continuous_R. eexists. apply d_xx.
  - rewrite xx_0 in E. intros E0. rewrite E0 in E. pose proof (Rinv_0_lt_compat _ (vv_pos c)). assert (/ vv c rho * (z - 0) = 0) by lra.
    apply Rmult_integral in H0. lra.
Qed.
Lemma hh_exact z : / 10 ^ 3 <= Rabs z -> hh z rho * xx z = z.
Proof.
  intros Hz. assert (0 < / 10 ^ 3) by (apply Rinv_0_lt_compat, pow_lt; lra). assert (z <> 0) by (intros ->; rewrite Rabs_R0 in Hz; lra).
  unfold hh. destruct (Rlt_dec _ _); [lra|]. rewrite hh_log_eq. field. apply xx_nz. assumption.
Qed.
(** Taylor branch: Y(z) = z/T(z) approximates x(z) *)
Definition TT (z : R) : R := hh_taylor z rho.
Definition TT' (z : R) : R := rho / 2 + 2 * z * (/ 6 - rho ^ 2 / 4) + 3 * z ^ 2 * (rho * (6 * rho ^ 2 - 5) / 24).
Definition Sz (z : R) : R := TT z - z * TT' z.
Definition QQ (z : R) : R :=
  (TT z ^ 4 - Sz z ^ 2 * (1 + z * (z + 2 * rho))) .
Definition Pl (z : R) : R :=
  17 / 36 * (rho ^ 0 * z ^ 0) - 10 / 3 * (rho ^ 2 * z ^ 0) + 25 / 8 * (rho ^ 4 * z ^ 0) - 1 / 1 * (rho ^ 1 * z ^ 1) + 7 / 8 * (rho ^ 3 * z ^ 1) +
  3 / 8 * (rho ^ 5 * z ^ 1) - 1 / 108 * (rho ^ 0 * z ^ 2) - 1 / 96 * (rho ^ 2 * z ^ 2) + 1 / 32 * (rho ^ 6 * z ^ 2) + 17 / 216 * (rho ^ 1 * z ^ 3) -
  91 / 288 * (rho ^ 3 * z ^ 3) + 19 / 48 * (rho ^ 5 * z ^ 3) - 5 / 32 * (rho ^ 7 * z ^ 3) + 1 / 1296 * (rho ^ 0 * z ^ 4) - 109 / 864 * (rho ^ 2 * z ^ 4) +
  115 / 384 * (rho ^ 4 * z ^ 4) - 35 / 192 * (rho ^ 6 * z ^ 4) + 1 / 256 * (rho ^ 8 * z ^ 4) - 5 / 1296 * (rho ^ 1 * z ^ 5) + 101 / 3456 * (rho ^ 3 * z ^ 5) -
  11 / 128 * (rho ^ 5 * z ^ 5) + 41 / 384 * (rho ^ 7 * z ^ 5) - 3 / 64 * (rho ^ 9 * z ^ 5) + 25 / 3456 * (rho ^ 2 * z ^ 6) - 395 / 6912 * (rho ^ 4 * z ^ 6) +
  221 / 1536 * (rho ^ 6 * z ^ 6) - 19 / 128 * (rho ^ 8 * z ^ 6) + 7 / 128 * (rho ^ 10 * z ^ 6) - 125 / 20736 * (rho ^ 3 * z ^ 7) + 425 / 13824 * (rho ^ 5 * z ^ 7) -
  15 / 256 * (rho ^ 7 * z ^ 7) + 19 / 384 * (rho ^ 9 * z ^ 7) - 1 / 64 * (rho ^ 11 * z ^ 7) + 625 / 331776 * (rho ^ 4 * z ^ 8) - 125 / 13824 * (rho ^ 6 * z ^ 8) +
  25 / 1536 * (rho ^ 8 * z ^ 8) - 5 / 384 * (rho ^ 10 * z ^ 8) + 1 / 256 * (rho ^ 12 * z ^ 8).
Lemma QQ_eq z : QQ z = z ^ 4 * Pl z.
Proof. unfold QQ, Sz, TT', TT, hh_taylor, Pl. field. Qed.
Lemma Pl_bound z : Rabs z <= 1 -> Rabs (Pl z) <= 12.
Proof.
  intros Hz. unfold Pl. apply Rabs_le. assert (B : forall j i, - (1) <= rho ^ j * z ^ i <= 1).
  { intros j i. apply Rabs_le_between. rewrite Rabs_mult, <- !RPow_abs.
    assert (P : forall x n, 0 <= x <= 1 -> 0 <= x ^ n <= 1) by (intros x n Hx; split; [apply pow_le; lra|rewrite <- (pow1 n); apply pow_incr; lra]).
    assert (Rabs rho <= 1) by (apply Rabs_le; lra). pose proof (P (Rabs rho) j (conj (Rabs_pos _) H)). pose proof (P (Rabs z) i (conj (Rabs_pos _) Hz)). nra. }
  pose proof (B 0%nat 0%nat) as B0_0. set (m0_0 := rho ^ 0 * z ^ 0) in *.
  pose proof (B 2%nat 0%nat) as B2_0. set (m2_0 := rho ^ 2 * z ^ 0) in *.
  pose proof (B 4%nat 0%nat) as B4_0. set (m4_0 := rho ^ 4 * z ^ 0) in *.
  pose proof (B 1%nat 1%nat) as B1_1. set (m1_1 := rho ^ 1 * z ^ 1) in *.
  pose proof (B 3%nat 1%nat) as B3_1. set (m3_1 := rho ^ 3 * z ^ 1) in *.
  pose proof (B 5%nat 1%nat) as B5_1. set (m5_1 := rho ^ 5 * z ^ 1) in *.
  pose proof (B 0%nat 2%nat) as B0_2. set (m0_2 := rho ^ 0 * z ^ 2) in *.
  pose proof (B 2%nat 2%nat) as B2_2. set (m2_2 := rho ^ 2 * z ^ 2) in *.
  pose proof (B 6%nat 2%nat) as B6_2. set (m6_2 := rho ^ 6 * z ^ 2) in *.
  pose proof (B 1%nat 3%nat) as B1_3. set (m1_3 := rho ^ 1 * z ^ 3) in *.
  pose proof (B 3%nat 3%nat) as B3_3. set (m3_3 := rho ^ 3 * z ^ 3) in *.
  pose proof (B 5%nat 3%nat) as B5_3. set (m5_3 := rho ^ 5 * z ^ 3) in *.
  pose proof (B 7%nat 3%nat) as B7_3. set (m7_3 := rho ^ 7 * z ^ 3) in *.
  pose proof (B 0%nat 4%nat) as B0_4. set (m0_4 := rho ^ 0 * z ^ 4) in *.
  pose proof (B 2%nat 4%nat) as B2_4. set (m2_4 := rho ^ 2 * z ^ 4) in *.
  pose proof (B 4%nat 4%nat) as B4_4. set (m4_4 := rho ^ 4 * z ^ 4) in *.
  pose proof (B 6%nat 4%nat) as B6_4. set (m6_4 := rho ^ 6 * z ^ 4) in *.
  pose proof (B 8%nat 4%nat) as B8_4. set (m8_4 := rho ^ 8 * z ^ 4) in *.
  pose proof (B 1%nat 5%nat) as B1_5. set (m1_5 := rho ^ 1 * z ^ 5) in *.
  pose proof (B 3%nat 5%nat) as B3_5. set (m3_5 := rho ^ 3 * z ^ 5) in *.
  pose proof (B 5%nat 5%nat) as B5_5. set (m5_5 := rho ^ 5 * z ^ 5) in *.
  pose proof (B 7%nat 5%nat) as B7_5. set (m7_5 := rho ^ 7 * z ^ 5) in *.
  pose proof (B 9%nat 5%nat) as B9_5. set (m9_5 := rho ^ 9 * z ^ 5) in *.
  pose proof (B 2%nat 6%nat) as B2_6. set (m2_6 := rho ^ 2 * z ^ 6) in *.
  pose proof (B 4%nat 6%nat) as B4_6. set (m4_6 := rho ^ 4 * z ^ 6) in *.
  pose proof (B 6%nat 6%nat) as B6_6. set (m6_6 := rho ^ 6 * z ^ 6) in *.
  pose proof (B 8%nat 6%nat) as B8_6. set (m8_6 := rho ^ 8 * z ^ 6) in *.
  pose proof (B 10%nat 6%nat) as B10_6. set (m10_6 := rho ^ 10 * z ^ 6) in *.
  pose proof (B 3%nat 7%nat) as B3_7. set (m3_7 := rho ^ 3 * z ^ 7) in *.
  pose proof (B 5%nat 7%nat) as B5_7. set (m5_7 := rho ^ 5 * z ^ 7) in *.
  pose proof (B 7%nat 7%nat) as B7_7. set (m7_7 := rho ^ 7 * z ^ 7) in *.
  pose proof (B 9%nat 7%nat) as B9_7. set (m9_7 := rho ^ 9 * z ^ 7) in *.
  pose proof (B 11%nat 7%nat) as B11_7. set (m11_7 := rho ^ 11 * z ^ 7) in *.
  pose proof (B 4%nat 8%nat) as B4_8. set (m4_8 := rho ^ 4 * z ^ 8) in *.
  pose proof (B 6%nat 8%nat) as B6_8. set (m6_8 := rho ^ 6 * z ^ 8) in *.
  pose proof (B 8%nat 8%nat) as B8_8. set (m8_8 := rho ^ 8 * z ^ 8) in *.
  pose proof (B 10%nat 8%nat) as B10_8. set (m10_8 := rho ^ 10 * z ^ 8) in *.
  pose proof (B 12%nat 8%nat) as B12_8. set (m12_8 := rho ^ 12 * z ^ 8) in *.

  clear B. clearbody m0_0 m2_0 m4_0 m1_1 m3_1 m5_1 m0_2 m2_2 m6_2 m1_3 m3_3 m5_3 m7_3 m0_4 m2_4 m4_4 m6_4 m8_4 m1_5 m3_5 m5_5 m7_5 m9_5 m2_6 m4_6 m6_6 m8_6 m10_6 m3_7 m5_7 m7_7 m9_7 m11_7 m4_8 m6_8 m8_8 m10_8 m12_8. clear Hr Hz. split; lra.
Qed.

Lemma small_z z : Rabs z <= / 10 ^ 3 -> - / 1000 <= z <= / 1000.
Proof. intros H. apply Rabs_le_between in H. simpl in H. lra. Qed.
Lemma TT_lo z : Rabs z <= / 10 ^ 3 -> 999 / 1000 <= TT z <= 1001 / 1000.
Proof.
  intros Hz. apply small_z in Hz. unfold TT, hh_taylor.
  assert (-1 <= rho * (6 * rho ^ 2 - 5) / 24 <= 1) by nra. set (c := rho * (6 * rho ^ 2 - 5) / 24) in *.
  assert (-1 / 3 <= / 6 - rho ^ 2 / 4 <= / 3) by nra. set (b := / 6 - rho ^ 2 / 4) in *.
  assert (- / 1000 <= c * z <= / 1000) by nra. assert (- / 2000 <= z * (b + c * z) <= / 2000) by nra.
  assert (- / 1000 <= z * (rho / 2 + z * (b + c * z)) <= / 1000) by nra. lra.
Qed.
Lemma Sz_lo z : Rabs z <= / 10 ^ 3 -> 999 / 1000 <= Sz z.
Proof.
  intros Hz. apply small_z in Hz. unfold Sz, TT, TT', hh_taylor.
  assert (-1 <= rho * (6 * rho ^ 2 - 5) / 24 <= 1) by nra. set (c := rho * (6 * rho ^ 2 - 5) / 24) in *.
  assert (-1 / 3 <= / 6 - rho ^ 2 / 4 <= / 3) by nra. set (b := / 6 - rho ^ 2 / 4) in *.
  replace (_ - _) with (1 - z ^ 2 * (b + 2 * c * z)) by field.
  assert (0 <= z ^ 2 <= / 1000) by nra. assert (b + 2 * c * z <= 1 / 2) by nra. nra.
Qed.
Lemma vv_lo z : Rabs z <= / 10 ^ 3 -> 998 / 1000 <= vv z rho.
Proof.
  intros Hz. apply small_z in Hz. unfold vv. rewrite <- (sqrt_pow2 (998 / 1000)) by lra. apply sqrt_le_1_alt. nra.
Qed.
Definition Ey (z : R) : R := z / TT z - xx z.
Lemma d_Ey z : Rabs z <= / 10 ^ 3 -> is_derive Ey z (Sz z / TT z ^ 2 - / vv z rho).
Proof.
  intros Hz. pose proof (TT_lo z Hz) as Ht. unfold Ey. apply (is_derive_minus (K := R_AbsRing) (V := R_NormedModule)); [|apply d_xx].
  unfold Sz. assert (D : is_derive TT z (TT' z)) by (unfold TT, TT', hh_taylor; auto_derive; [exact I|Req; field]).
  auto_derive; [split; [eexists; exact D|split; [lra|exact I]]|].
  replace (Derive (fun x => TT x) z) with (TT' z) by (symmetry; apply is_derive_unique, D). Req. field. lra.
Qed.
Lemma dEy_bound z : Rabs z <= / 10 ^ 3 -> Rabs (Sz z / TT z ^ 2 - / vv z rho) <= 7 * z ^ 4.
Proof.
  intros Hz. pose proof (TT_lo z Hz) as Ht. pose proof (Sz_lo z Hz) as Hs. pose proof (vv_lo z Hz) as Hv. pose proof (vv_sq z) as Hq.
  assert (HP : Rabs (Pl z) <= 12) by (apply Pl_bound; apply (Rle_trans _ _ _ Hz); simpl; lra).
  pose proof (QQ_eq z) as E. unfold QQ in E.
  set (T := TT z) in *. set (S := Sz z) in *. set (V := vv z rho) in *. set (P := Pl z) in *.
  assert (0 < S * V + T ^ 2) by nra.
  replace (S / T ^ 2 - / V) with (- (z ^ 4 * P) / ((S * V + T ^ 2) * (T ^ 2 * V))).
  2: { rewrite <- E, <- Hq. field. repeat match goal with |- _ /\ _ => split end; nra. }
  unfold Rdiv. rewrite Rabs_mult, Rabs_Ropp, Rabs_mult, Rabs_inv.
  assert (H4 : 0 <= z ^ 4) by (replace (z ^ 4) with ((z ^ 2) ^ 2) by ring; apply pow2_ge_0). rewrite (Rabs_right (z ^ 4)) by lra.
  assert (HD : 198 / 100 * (99 / 100) <= (S * V + T ^ 2) * (T ^ 2 * V)).
  { assert (99 / 100 <= S * V) by nra. assert (998 / 1000 <= T ^ 2) by nra. apply Rmult_le_compat; try lra. nra. }
  rewrite (Rabs_right ((S * V + T ^ 2) * (T ^ 2 * V))) by lra.
  assert (HI : / ((S * V + T ^ 2) * (T ^ 2 * V)) <= / (198 / 100 * (99 / 100))) by (apply Rinv_le_contravar; lra).
  assert (0 < / ((S * V + T ^ 2) * (T ^ 2 * V))) by (apply Rinv_0_lt_compat; lra).
  pose proof (Rabs_pos P). set (D := / ((S * V + T ^ 2) * (T ^ 2 * V))) in *. assert (Rabs P * D <= 12 * / (198 / 100 * (99 / 100))) by (apply Rmult_le_compat; lra).
  assert (z ^ 4 * (Rabs P * D) <= z ^ 4 * 7) by (apply Rmult_le_compat_l; lra). lra.
Qed.
Lemma hh_near z : Rabs z < / 10 ^ 3 -> Rabs (hh z rho * xx z - z) <= 8 * Rabs z ^ 5.
Proof.
  intros Hz. unfold hh. destruct (Rlt_dec _ _); [|lra]. change (hh_taylor z rho) with (TT z).
  assert (Ht := TT_lo z (Rlt_le _ _ Hz)).
  assert (Hin : forall u, Rmin 0 z <= u <= Rmax 0 z -> Rabs u <= Rabs z).
  { intros u Hu. unfold Rmin, Rmax in Hu. unfold Rabs. destruct (Rle_dec 0 z), (Rcase_abs u), (Rcase_abs z); lra. }
  destruct (MVT_gen Ey 0 z (fun u => Sz u / TT u ^ 2 - / vv u rho)) as (c & Hc & E).
  - intros u Hu. apply d_Ey. apply (Rle_trans _ (Rabs z)); [apply Hin; lra|lra].
  - intros u Hu. apply continuity_pt_filterlim, ex_derive_continuous_R. eexists. apply d_Ey. apply (Rle_trans _ (Rabs z)); [apply Hin; lra|lra].
  - assert (E0 : Ey 0 = 0) by (unfold Ey; rewrite xx_0; unfold Rdiv; ring). rewrite E0 in E.
    replace (TT z * xx z - z) with (- TT z * Ey z) by (unfold Ey; field; lra).
    rewrite Rabs_mult, Rabs_Ropp, (Rabs_right (TT z)) by lra.
    assert (HE : Rabs (Ey z) <= 7 * Rabs z ^ 4 * Rabs z).
    { replace (Ey z) with ((Sz c / TT c ^ 2 - / vv c rho) * z) by lra. rewrite Rabs_mult. apply Rmult_le_compat_r; [apply Rabs_pos|].
      pose proof (Hin c Hc). apply (Rle_trans _ (7 * c ^ 4)).
      - apply dEy_bound. lra.
      - apply Rmult_le_compat_l; [lra|]. replace (c ^ 4) with (Rabs c ^ 4).
        + apply pow_incr. split; [apply Rabs_pos|assumption].
        + rewrite RPow_abs. apply Rabs_right, Rle_ge. replace (c ^ 4) with ((c ^ 2) ^ 2) by ring. apply pow2_ge_0. }
    pose proof (Rabs_pos (Ey z)). pose proof (pow_le (Rabs z) 5 (Rabs_pos z)).
    replace (7 * Rabs z ^ 4 * Rabs z) with (7 * Rabs z ^ 5) in HE by ring. nra.
Qed.
End HH.
