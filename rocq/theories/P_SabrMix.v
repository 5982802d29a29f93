(** The conditional variance of the average variance given the terminal volatility is strictly positive (SabrABC.cond_avgvar_mvsk). *)
From Coq Require Import Reals Lra List.
From Coquelicot Require Import Coquelicot.
From Verif Require Import Base Gauss Sums M_Opt M_Mgf M_Heston M_Fd M_Sabr Spec_Expect Spec_Sabr P_Expect P_Sabr.
Open Scope R_scope.

Section Bridge.
Variables v a : R.
Hypothesis Hv : 0 < v.
Let g (a s : R) : R := exp (2 * v * a * s - 2 * v ^ 2 * s ^ 2).
Let K (a : R) : R := sqrt (2 * PI) / (2 * v) * exp (a ^ 2 / 2).
Let G (a s : R) : R := K a * (Phi (2 * v * s - a) - Phi (- a)).

Lemma D_Phi_lin (c d s : R) : is_derive (fun s => Phi (c * s - d)) s (c * npdf (c * s - d)).
Proof.
  apply (is_derive_Phi_comp (fun s => c * s - d) s c). auto_derive; [exact I|Req; ring].
Qed.
Lemma D_exp_lin (q t : R) : is_derive (fun t => - exp (- q * t)) t (q * exp (- q * t)).
Proof. auto_derive; [exact I|Req; ring]. Qed.
Lemma exp_npdf (p x q y : R) : p - x ^ 2 / 2 = q - y ^ 2 / 2 -> exp p * npdf x = exp q * npdf y.
Proof.
  intros E. unfold npdf.
  replace (exp p * (exp (- (x * x) / 2) / sqrt (2 * PI))) with (exp p * exp (- (x * x) / 2) / sqrt (2 * PI)) by (unfold Rdiv; ring).
  replace (exp q * (exp (- (y * y) / 2) / sqrt (2 * PI))) with (exp q * exp (- (y * y) / 2) / sqrt (2 * PI)) by (unfold Rdiv; ring).
  rewrite <- !exp_plus. f_equal. f_equal. lra.
Qed.
Lemma K_npdf (b c x : R) : K b * npdf x = / (2 * v) * exp (b ^ 2 / 2 - x ^ 2 / 2) .
Proof.
  unfold K, npdf. replace (b ^ 2 / 2 - x ^ 2 / 2) with (b ^ 2 / 2 + - (x * x) / 2) by field. rewrite exp_plus. pose proof sqrt_2PI_pos. field. lra.
Qed.
Lemma D_G (b s : R) : is_derive (G b) s (g b s).
Proof.
  unfold G. apply is_derive_eq with (K b * (2 * v * npdf (2 * v * s - b) - 0)).
  - apply is_derive_scal_R. apply is_derive_minus_R; [apply D_Phi_lin|apply is_derive_const_R].
  - replace (K b * (2 * v * npdf (2 * v * s - b) - 0)) with (2 * v * (K b * npdf (2 * v * s - b))) by ring.
    rewrite (K_npdf b 0). unfold g. replace (b ^ 2 / 2 - (2 * v * s - b) ^ 2 / 2) with (2 * v * b * s - 2 * v ^ 2 * s ^ 2) by field. field. lra.
Qed.
Lemma G_0 (b : R) : G b 0 = 0.
Proof. unfold G. replace (2 * v * 0 - b) with (- b) by ring. ring. Qed.
(** the second moment of the average over [0, t], up to a factor 2 *)
Let b := a + 2 * v.
Let Q (t : R) : R := sqrt (2 * PI) / (8 * v ^ 3) * exp (b ^ 2 / 2) *
  (- exp (- (4 * v ^ 2) * t) * (Phi (4 * v * t - b) - Phi (2 * v * t - b))
   + exp (- (b * v - v ^ 2 / 2)) * Phi (4 * v * t - (b - v)) - exp (- (2 * b * v - 2 * v ^ 2)) * Phi (2 * v * t - a)).
Lemma D_Q (t : R) : is_derive Q t (g a t * G (a + 2 * v * (1 - t)) t).
Proof.
  unfold Q. set (C := sqrt (2 * PI) / (8 * v ^ 3) * exp (b ^ 2 / 2)). set (e1 := exp (- (b * v - v ^ 2 / 2))). set (e2 := exp (- (2 * b * v - 2 * v ^ 2))).
  apply is_derive_eq with (C * ((4 * v ^ 2 * exp (- (4 * v ^ 2) * t) * (Phi (4 * v * t - b) - Phi (2 * v * t - b))
      + - exp (- (4 * v ^ 2) * t) * (4 * v * npdf (4 * v * t - b) - 2 * v * npdf (2 * v * t - b)))
      + e1 * (4 * v * npdf (4 * v * t - (b - v))) - e2 * (2 * v * npdf (2 * v * t - a)))).
  - apply is_derive_scal_R. apply is_derive_minus_R; [apply is_derive_plus_R|].
    + apply (is_derive_mult_R (fun t => - exp (- (4 * v ^ 2) * t)) (fun t => Phi (4 * v * t - b) - Phi (2 * v * t - b)) t).
      * apply D_exp_lin.
      * apply is_derive_minus_R; apply D_Phi_lin.
    + apply is_derive_scal_R, D_Phi_lin.
    + apply is_derive_scal_R, D_Phi_lin.
  - assert (E1 : e1 * npdf (4 * v * t - (b - v)) = exp (- (4 * v ^ 2) * t) * npdf (4 * v * t - b)).
    { unfold e1. apply exp_npdf. field. }
    assert (E2 : e2 * npdf (2 * v * t - a) = exp (- (4 * v ^ 2) * t) * npdf (2 * v * t - b)).
    { unfold e2. apply exp_npdf. unfold b. field. }
    replace (e1 * (4 * v * npdf (4 * v * t - (b - v)))) with (4 * v * (e1 * npdf (4 * v * t - (b - v)))) by ring. rewrite E1.
    replace (e2 * (2 * v * npdf (2 * v * t - a))) with (2 * v * (e2 * npdf (2 * v * t - a))) by ring. rewrite E2.
    unfold G, g, K, C. replace (2 * v * t - (a + 2 * v * (1 - t))) with (4 * v * t - b) by (unfold b; ring).
    replace (- (a + 2 * v * (1 - t))) with (2 * v * t - b) by (unfold b; ring).
    replace (exp (2 * v * a * t - 2 * v ^ 2 * t ^ 2) * (sqrt (2 * PI) / (2 * v) * exp ((a + 2 * v * (1 - t)) ^ 2 / 2) * (Phi (4 * v * t - b) - Phi (2 * v * t - b))))
      with (sqrt (2 * PI) / (2 * v) * (exp (2 * v * a * t - 2 * v ^ 2 * t ^ 2) * exp ((a + 2 * v * (1 - t)) ^ 2 / 2)) * (Phi (4 * v * t - b) - Phi (2 * v * t - b))) by ring.
    rewrite <- exp_plus. replace (2 * v * a * t - 2 * v ^ 2 * t ^ 2 + (a + 2 * v * (1 - t)) ^ 2 / 2) with (b ^ 2 / 2 + - (4 * v ^ 2) * t) by (unfold b; field).
    rewrite exp_plus. field. lra.
Qed.
Lemma inner_ge (t s : R) : 0 <= t <= 1 -> 0 <= s -> g a s <= g (a + 2 * v * (1 - t)) s.
Proof. intros Ht Hs. unfold g. apply exp_le. assert (0 <= v * v * (1 - t) * s) by (apply Rmult_le_pos; [apply Rmult_le_pos; [nra|lra]|lra]). nra. Qed.
Lemma inner_lt (t s : R) : 0 <= t < 1 -> 0 < s -> g a s < g (a + 2 * v * (1 - t)) s.
Proof. intros Ht Hs. unfold g. apply exp_increasing. assert (0 < v * v * (1 - t) * s) by (apply Rmult_lt_0_compat; [apply Rmult_lt_0_compat; [nra|lra]|lra]). nra. Qed.
Lemma G_le (t s1 s2 : R) : 0 <= t <= 1 -> 0 <= s1 <= s2 -> G (a + 2 * v * (1 - t)) s1 - G a s1 <= G (a + 2 * v * (1 - t)) s2 - G a s2.
Proof.
  intros Ht Hs. apply (nondecreasing_on (fun s => G (a + 2 * v * (1 - t)) s - G a s) (fun s => g (a + 2 * v * (1 - t)) s - g a s)); [lra| |].
  - intros s _. apply is_derive_minus_R; apply D_G.
  - intros s Hs'. pose proof (inner_ge t s Ht ltac:(lra)). lra.
Qed.
Lemma G_lt (t s1 s2 : R) : 0 <= t < 1 -> 0 < s1 < s2 -> G (a + 2 * v * (1 - t)) s1 - G a s1 < G (a + 2 * v * (1 - t)) s2 - G a s2.
Proof.
  intros Ht Hs. apply (increasing_on (fun s => G (a + 2 * v * (1 - t)) s - G a s) (fun s => g (a + 2 * v * (1 - t)) s - g a s)); [lra| |].
  - intros s _. apply is_derive_minus_R; apply D_G.
  - intros s Hs'. pose proof (inner_lt t s Ht ltac:(lra)). lra.
Qed.
Lemma D_var (t : R) : is_derive (fun t => Q t - / 2 * G a t ^ 2) t (g a t * (G (a + 2 * v * (1 - t)) t - G a t)).
Proof.
  apply is_derive_eq with (g a t * G (a + 2 * v * (1 - t)) t - / 2 * (INR 2 * g a t * G a t ^ 1)).
  - apply is_derive_minus_R; [apply D_Q|]. apply is_derive_scal_R. apply (is_derive_pow (G a) 2 t (g a t)), D_G.
  - replace (INR 2) with 2 by (simpl; ring). field.
Qed.
Lemma g_pos (a' s : R) : 0 < g a' s. Proof. apply exp_pos. Qed.
Lemma var_pos : G a 1 ^ 2 < 2 * (Q 1 - Q 0).
Proof.
  assert (A : forall t, 0 <= t <= 1 -> 0 <= g a t * (G (a + 2 * v * (1 - t)) t - G a t)).
  { intros t Ht. apply Rmult_le_pos; [left; apply g_pos|]. pose proof (G_le t 0 t Ht ltac:(lra)) as H. rewrite !G_0 in H. lra. }
  pose proof (nondecreasing_on _ _ 0 (/ 4) ltac:(lra) (fun t _ => D_var t) (fun t H => A t ltac:(lra))) as H1.
  pose proof (nondecreasing_on _ _ (/ 2) 1 ltac:(lra) (fun t _ => D_var t) (fun t H => A t ltac:(lra))) as H3.
  assert (H2 : Q (/ 4) - / 2 * G a (/ 4) ^ 2 < Q (/ 2) - / 2 * G a (/ 2) ^ 2).
  { apply (increasing_on _ _ (/ 4) (/ 2) ltac:(lra) (fun t _ => D_var t)). intros t Ht. apply Rmult_lt_0_compat; [apply g_pos|].
    pose proof (G_le t 0 (t / 2) ltac:(lra) ltac:(lra)) as L1. pose proof (G_lt t (t / 2) t ltac:(lra) ltac:(lra)) as L2. rewrite !G_0 in L1. lra. }
  cbv beta in H1, H3. rewrite G_0 in H1. lra.
Qed.
(** ** identification with the routine *)
Lemma mfn_G : mfn_exact (a - v) v * exp (v * (a - v)) = G a 1.
Proof.
  unfold G, K, mfn_exact. rewrite Phi_diff_even. replace (v - (a - v)) with (2 * v * 1 - a) by ring. replace (- v - (a - v)) with (- a) by ring.
  assert (E : sqrt (2 * PI) = 2 * sqrt (PI / 2)).
  { pose proof half_const as Hc. pose proof sqrt_2PI_pos. apply (Rmult_eq_reg_l (/ 2)); [|lra]. rewrite <- Hc at 1. field. lra. }
  rewrite E. replace (a ^ 2 / 2) with (((a - v) ^ 2 + v ^ 2) / 2 + v * (a - v)) by field. rewrite exp_plus. field. lra.
Qed.
Lemma second_Q : (mfn_exact (a - v) (2 * v) - mfn_exact (a - v) v * cosh_z v (a - v)) / v ^ 2 * exp (v * (a - v)) ^ 2 = 2 * (Q 1 - Q 0).
Proof.
  unfold Q, mfn_exact, cosh_z. cbv zeta. rewrite !Phi_diff_even.
  replace (2 * v - (a - v)) with (4 * v * 1 - (b - v)) by (unfold b; ring). replace (- (2 * v) - (a - v)) with (4 * v * 0 - (b - v)) by (unfold b; ring).
  replace (v - (a - v)) with (2 * v * 1 - a) by ring. replace (- v - (a - v)) with (2 * v * 0 - a) by ring.
  replace (4 * v * 1 - b) with (2 * v * 1 - a) by (unfold b; ring). replace (2 * v * 1 - b) with (2 * v * 0 - a) by (unfold b; ring).
  replace (4 * v * 0 - b) with (2 * v * 0 - b) by ring.
  set (P1 := Phi (4 * v * 1 - (b - v))). set (P0 := Phi (4 * v * 0 - (b - v))). set (R1 := Phi (2 * v * 1 - a)). set (R0 := Phi (2 * v * 0 - a)).
  replace (Phi (2 * v * 0 - b) - Phi (2 * v * 0 - b)) with 0 by ring.
  assert (E : sqrt (2 * PI) = 2 * sqrt (PI / 2)).
  { pose proof half_const as Hc. pose proof sqrt_2PI_pos. apply (Rmult_eq_reg_l (/ 2)); [|lra]. rewrite <- Hc at 1. field. lra. }
  rewrite E. set (h := sqrt (PI / 2)). set (z := a - v). set (w := exp (v * z)). assert (Hw : 0 < w) by apply exp_pos.
  set (f1 := exp ((z ^ 2 + (2 * v) ^ 2) / 2)). set (f2 := exp ((z ^ 2 + v ^ 2) / 2)).
  assert (X1 : exp (b ^ 2 / 2) * exp (- (b * v - v ^ 2 / 2)) = f1 * w ^ 2).
  { unfold f1, w. replace (exp (v * z) ^ 2) with (exp (v * z) * exp (v * z)) by ring. rewrite <- !exp_plus. f_equal. unfold z, b. field. }
  assert (X2 : exp (b ^ 2 / 2) * exp (- (2 * b * v - 2 * v ^ 2)) = f2 * w).
  { unfold f2, w. rewrite <- !exp_plus. f_equal. unfold z, b. field. }
  assert (X3 : exp (b ^ 2 / 2) * exp (- (4 * v ^ 2) * 1) = f2 * w ^ 3).
  { unfold f2, w. replace (exp (v * z) ^ 3) with (exp (v * z) * exp (v * z) * exp (v * z)) by ring. rewrite <- !exp_plus. f_equal. unfold z, b. field. }
  transitivity (2 * (2 * h / (8 * v ^ 3)) * (- (exp (b ^ 2 / 2) * exp (- (4 * v ^ 2) * 1)) * (R1 - R0)
     + (exp (b ^ 2 / 2) * exp (- (b * v - v ^ 2 / 2))) * (P1 - P0) - (exp (b ^ 2 / 2) * exp (- (2 * b * v - 2 * v ^ 2))) * (R1 - R0))).
  - rewrite X1, X2, X3. field. lra.
  - ring.
Qed.
Lemma cond_var_pos_a : (mfn_exact (a - v) v * exp (v * (a - v))) ^ 2 < (mfn_exact (a - v) (2 * v) - mfn_exact (a - v) v * cosh_z v (a - v)) / v ^ 2 * exp (v * (a - v)) ^ 2.
Proof. rewrite mfn_G, second_Q. apply var_pos. Qed.
End Bridge.

Lemma cond_var_pos (v z : R) : 0 < v -> mfn_exact z v ^ 2 < (mfn_exact z (2 * v) - mfn_exact z v * cosh_z v z) / v ^ 2.
Proof.
  intros Hv. pose proof (cond_var_pos_a v (v + z) Hv) as H. replace (v + z - v) with z in H by ring.
  rewrite Rpow_mult_distr in H. apply Rmult_lt_reg_r in H; [exact H|]. apply pow_lt, exp_pos.
Qed.
Lemma mfn_exact_pos (v z : R) : 0 < v -> 0 < mfn_exact z v.
Proof.
  intros Hv. unfold mfn_exact. rewrite Phi_diff_even. apply Rmult_lt_0_compat; [|apply exp_pos]. apply Rmult_lt_0_compat.
  - apply Rdiv_lt_0_compat; [|exact Hv]. apply sqrt_lt_R0. pose proof PI_RGT_0. lra.
  - assert (Phi (- v - z) < Phi (v - z)) by (apply Phi_incr; lra). lra.
Qed.
Lemma mfn_pos (v z : R) : 0 < v -> 0 < cond_avgvar_mfn z v.
Proof.
  intros Hv. unfold cond_avgvar_mfn. destruct (Rlt_dec _ _) as [_|N]; [now apply mfn_exact_pos|].
  rewrite Rabs_right in N by lra. unfold mfn_herm. apply Rmult_lt_0_compat; [|apply exp_pos]. unfold herme2, herme4, herme6.
  assert (A : 0 < v ^ 2 <= / 10000) by (split; [apply pow_lt; lra|nra]). 
  replace (v ^ 4) with (v ^ 2 * v ^ 2) by ring. replace (v ^ 6) with (v ^ 2 * v ^ 2 * v ^ 2) by ring.
  replace (z ^ 6) with (z ^ 2 * z ^ 2 * z ^ 2) by ring. replace (z ^ 4) with (z ^ 2 * z ^ 2) by ring. assert (B : 0 <= z ^ 2) by apply pow2_ge_0.
  generalize dependent (v ^ 2). generalize dependent (z ^ 2). intros y Hy x Hx. set (u := x * y). assert (Hu : 0 <= u) by (apply Rmult_le_pos; lra).
  replace (1 + x / 6 * (y - 1) + x * x / 120 * (y * y - 6 * y + 3) + x * x * x / 5040 * (y * y * y - 15 * (y * y) + 45 * y - 15))
    with (1 - x / 6 + 3 * (x * x) / 120 - 15 * (x * x * x) / 5040 + u * (/ 6 - 6 * x / 120 + 45 * (x * x) / 5040) + u * u * (/ 120 - 15 * x / 5040) + u * u * u / 5040) by (unfold u; field).
  assert (0 <= u * u) by nra. assert (0 <= u * u * u) by (apply Rmult_le_pos; assumption).
  assert (0 <= u * (/ 6 - 6 * x / 120 + 45 * (x * x) / 5040)) by (apply Rmult_le_pos; nra).
  assert (0 <= u * u * (/ 120 - 15 * x / 5040)) by (apply Rmult_le_pos; nra).
  assert (0 <= x * x) by nra. assert (x * x * x <= x * x) by nra. nra.
Qed.
(** mean and scaled variance returned by cond_avgvar_mvsk are positive *)
Lemma cond_mv_pos (v z : R) : 0 < v -> forall m s sk k, cond_avgvar_mvsk v z = (m, s, sk, k) -> 0 < m /\ 0 < s.
Proof.
  intros Hv m s sk k. unfold cond_avgvar_mvsk, cond_mnc. cbv zeta.
  assert (Hm := mfn_pos v z Hv). assert (He := exp_pos (v * z)).
  destruct (Rlt_dec _ _) as [L|L]; intros E; injection E as <- <- _ _; (split; [apply Rmult_lt_0_compat; assumption|]).
  - assert (0 < v ^ 2) by (apply pow_lt; lra). apply Rmult_lt_0_compat; [assumption|].
    replace (/ 3 - (6 - z ^ 2) / 45 * v ^ 2) with (/ 3 - 6 / 45 * v ^ 2 + z ^ 2 * v ^ 2 / 45) by field.
    assert (0 <= z ^ 2 * v ^ 2) by (apply Rmult_le_pos; apply pow2_ge_0). lra.
  - assert (Hv1 : / 10 <= v) by (apply Rnot_lt_le in L; apply Rnot_lt_le; intro C; assert (v ^ 2 < / 10 ^ 2) by nra; lra).
    apply Rdiv_lt_0_compat; [|exact (pow_lt _ 2 Hm)].
    assert (B : forall x, v <= x -> cond_avgvar_mfn z x = mfn_exact z x).
    { intros x Hx. unfold cond_avgvar_mfn. destruct (Rlt_dec _ _) as [_|N]; [reflexivity|]. exfalso. apply N. rewrite Rabs_right; lra. }
    rewrite !B by lra. pose proof (cond_var_pos v z Hv) as P. replace (mfn_exact z v ^ 2) with (mfn_exact z v * mfn_exact z v) in P by ring. replace (v ^ 2) with (v * (v * 1)) in P by ring. rewrite Rmult_1_r. rewrite Rmult_1_r in P. lra.
Qed.
