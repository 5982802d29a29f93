(** CIR / Heston moments: the coded formulas solve the Kolmogorov backward equation. *)
From Coq Require Import Reals Lra Lia List Psatz.
From Coquelicot Require Import Coquelicot.
From Verif Require Import Base Sums M_Opt M_Mgf M_Heston Spec_Sde.
Open Scope R_scope.

Lemma exprel_mul (k t : R) : k <> 0 -> t * exprel (- (k * t)) = (1 - exp (- (k * t))) / k.
Proof.
  intros Hk. unfold exprel. destruct (Req_EM_T (- (k * t)) 0) as [E|E].
  - assert (t = 0). { apply (Rmult_eq_reg_l k); [lra|exact Hk]. } subst t. rewrite Rmult_0_r, Ropp_0, exp_0. unfold Rdiv. ring.
  - field. split; [exact Hk|]. intros ->. apply E. ring.
Qed.
Lemma exprel_eq (k t : R) : k <> 0 -> t <> 0 -> exprel (- (k * t)) = (1 - exp (- (k * t))) / (k * t).
Proof. intros Hk Ht. apply (Rmult_eq_reg_l t); [|exact Ht]. rewrite exprel_mul by exact Hk. field. auto. Qed.


Section Generic.
Variables (A B C : R -> R) (s a b c0 : R).
Hypothesis (HA : is_derive A s a) (HB : is_derive B s b) (HC : is_derive C s c0).
Ltac ad := auto_derive;
  [repeat (apply conj); try exact I; first [exists a; exact HA|exists b; exact HB|exists c0; exact HC] |
   try replace (Derive (fun x => A x) s) with a by (symmetry; exact (is_derive_unique _ _ _ HA));
   try replace (Derive (fun x => B x) s) with b by (symmetry; exact (is_derive_unique _ _ _ HB));
   try replace (Derive (fun x => C x) s) with c0 by (symmetry; exact (is_derive_unique _ _ _ HC)); Req; try ring; field].
Lemma g_J2 j : is_derive (fun y => (j + A y) ^ 2 + B y) s (2 * (j + A s) * a + b).
Proof. ad. Qed.
Lemma g_lin (j p q : R) : is_derive (fun y => 2 * (j + A y) * p + q) s (2 * a * p).
Proof. ad. Qed.
Lemma g_J3 j : is_derive (fun y => (j + A y) ^ 3 + 3 * (j + A y) * B y + C y) s (3 * (j + A s) ^ 2 * a + 3 * a * B s + 3 * (j + A s) * b + c0).
Proof. ad. Qed.
Lemma g_J3v (j p q r : R) : is_derive (fun y => 3 * (j + A y) ^ 2 * p + 3 * p * B y + 3 * (j + A y) * q + r) s (6 * (j + A s) * a * p + 3 * p * b + 3 * a * q).
Proof. ad. Qed.
Lemma g_X2 x r : is_derive (fun y => (x - / 2 * A y) ^ 2 + (A y + B y / 4 - r * C y)) s (2 * (x - / 2 * A s) * (- / 2 * a) + a + b / 4 - r * c0).
Proof. ad. Qed.
Lemma g_X2v (x p q : R) : is_derive (fun y => 2 * (x - / 2 * A y) * p + q) s (- a * p).
Proof. ad. Qed.
Lemma g_X2x x : is_derive (fun y => 2 * (x - / 2 * A y)) s (- a).
Proof. ad. Qed.
End Generic.

Section Moments.
Variables (k th xi rho : R).
Hypothesis Hk : k <> 0.
Let c := mkCir xi k th.
Definition mV (t v : R) : R := th + (v - th) * exp (- (k * t)).
Definition wV (t v : R) : R := xi ^ 2 / k * (1 - exp (- (k * t))) * (v * exp (- (k * t)) + th * (1 - exp (- (k * t))) / 2).
Definition mJ (t v : R) : R := th * t + (v - th) * (1 - exp (- (k * t))) / k.
Definition wJ (t v : R) : R := let e := exp (- (k * t)) in
  xi ^ 2 / k ^ 2 * ((th - 2 * (v - th) * e) * t + (v - 5 / 2 * th + (v - th / 2) * e) * (1 - e) / k).
Definition cJ3 (t v : R) : R := let e := exp (- (k * t)) in
  (xi / k) ^ 4 / k * (k * th * (t * (3 + 9 * e + 3 * e ^ 2 + 3 * k * t * e) - (11 + 7 / 2 * e + / 2 * e ^ 2) * (1 - e) / k)
     + v * (3 * ((1 + / 2 * e * (1 - e * (2 + e))) - k * t * e * (1 + k * t + 2 * e)))).
Definition cXJ (t v : R) : R := let e := exp (- (k * t)) in (* T Cov(Y, I)/... *)
  xi / k * (th * (t - (1 - e) / k) + (v - th) * ((1 - e) / k - t * e)).
Definition wX (t v : R) : R := mJ t v + wJ t v / 4 - rho * cXJ t v.

Lemma cir_mean_eq t v : cir_mean c t v = mV t v. Proof. reflexivity. Qed.
Lemma cir_var_eq t v : cir_var c t v = wV t v.
Proof.
  unfold cir_var, c; cbn [c_xi c_mr c_theta]. unfold wV.
  replace (xi ^ 2 * t * exprel (- (k * t)) * (v * exp (- (k * t)) + th * (k * t) * exprel (- (k * t)) / 2))
    with (xi ^ 2 * (t * exprel (- (k * t))) * (v * exp (- (k * t)) + th * k * (t * exprel (- (k * t))) / 2)) by field.
  rewrite exprel_mul by exact Hk. field. exact Hk.
Qed.
Lemma cir_avg_mean_eq t v : t * cir_avg_mean c t v = mJ t v.
Proof.
  unfold cir_avg_mean, c; cbn [c_xi c_mr c_theta]. unfold mJ.
  replace (t * (th + (v - th) * exprel (- (k * t)))) with (th * t + (v - th) * (t * exprel (- (k * t)))) by ring.
  rewrite exprel_mul by exact Hk. field. exact Hk.
Qed.
Lemma cir_avg_var_eq t v : t <> 0 -> t ^ 2 * cir_avg_var c t v = wJ t v.
Proof.
  intros Ht. unfold cir_avg_var, c; cbn [c_xi c_mr c_theta]. unfold wJ. rewrite exprel_eq by auto. field. auto.
Qed.
Lemma cir_avg_c3_eq t v : t <> 0 -> t ^ 3 * cir_avg_c3_full c t v = cJ3 t v.
Proof.
  intros Ht. unfold cir_avg_c3_full, c; cbn [c_xi c_mr c_theta]. unfold cJ3. rewrite exprel_eq by auto. field. auto.
Qed.
Lemma logp_mean_eq t v : heston_logp_mean (mkSv v xi rho k th) t = - / 2 * mJ t v.
Proof. unfold heston_logp_mean. change (heston_cir (mkSv v xi rho k th)) with c. cbn [v_sigma]. rewrite <- cir_avg_mean_eq. ring. Qed.
Lemma logp_var_eq t v : xi <> 0 -> t <> 0 -> heston_logp_var (mkSv v xi rho k th) t = wX t v.
Proof.
  intros Hx Ht. unfold heston_logp_var. change (heston_cir (mkSv v xi rho k th)) with c. cbn [v_sigma v_mr v_theta v_vov v_rho].
  unfold wX. rewrite <- cir_avg_mean_eq, <- (cir_avg_var_eq t v Ht). rewrite exprel_eq by auto. unfold cXJ. field. auto.
Qed.

Ltac bwd := auto_derive; [try trivial; auto | Req; try (set (e := exp _) in *); try field; auto].
Ltac bw ft fx fxx fv fvv fxv fj :=
  split; [intros; rewrite ?Rmult_0_r, ?Ropp_0, ?exp_0; try field; auto |
    exists ft, fx, fxx, fv, fvv, fxv, fj; intros t x v j _; cbv beta zeta;
    split; [bwd|split; [bwd|split; [bwd|split; [bwd|split; [bwd|split; [bwd|split; [bwd|
    try (set (e := exp _) in *); try field; auto]]]]]]]].

Lemma exp_V : expectation_of k th xi rho (fun x v j => v) (fun t x v j => mV t v).
Proof.
  unfold mV.
  bw (fun t x v j : R => - k * (v - th) * exp (- (k * t))) (fun t x v j : R => 0) (fun t x v j : R => 0)
     (fun t x v j : R => exp (- (k * t))) (fun t x v j : R => 0) (fun t x v j : R => 0) (fun t x v j : R => 0).
Qed.
Lemma exp_V2 : expectation_of k th xi rho (fun x v j => v ^ 2) (fun t x v j => mV t v ^ 2 + wV t v).
Proof.
  unfold mV, wV.
  bw (fun t x v j : R => let e := exp (- (k * t)) in 2 * (th + (v - th) * e) * (- k * (v - th) * e)
        + xi ^ 2 * (e * (v * e + th * (1 - e) / 2) + (1 - e) * (- v * e + th * e / 2)))
     (fun t x v j : R => 0) (fun t x v j : R => 0)
     (fun t x v j : R => let e := exp (- (k * t)) in 2 * (th + (v - th) * e) * e + xi ^ 2 / k * (1 - e) * e)
     (fun t x v j : R => 2 * exp (- (k * t)) ^ 2) (fun t x v j : R => 0) (fun t x v j : R => 0).
Qed.
Lemma exp_J : expectation_of k th xi rho (fun x v j => j) (fun t x v j => j + mJ t v).
Proof.
  unfold mJ.
  bw (fun t x v j : R => th + (v - th) * exp (- (k * t))) (fun t x v j : R => 0) (fun t x v j : R => 0)
     (fun t x v j : R => (1 - exp (- (k * t))) / k) (fun t x v j : R => 0) (fun t x v j : R => 0) (fun t x v j : R => 1).
Qed.
Lemma exp_X : expectation_of k th xi rho (fun x v j => x) (fun t x v j => x - / 2 * mJ t v).
Proof.
  unfold mJ.
  bw (fun t x v j : R => - / 2 * (th + (v - th) * exp (- (k * t)))) (fun t x v j : R => 1) (fun t x v j : R => 0)
     (fun t x v j : R => - / 2 * ((1 - exp (- (k * t))) / k)) (fun t x v j : R => 0) (fun t x v j : R => 0) (fun t x v j : R => 0).
Qed.

(** derivatives of the coefficient functions *)
Definition m1 (t : R) : R := (1 - exp (- (k * t))) / k.
Definition w1 (t : R) : R := let e := exp (- (k * t)) in xi ^ 2 / k ^ 2 * (- 2 * e * t + (1 + e) * (1 - e) / k).
Definition wJt (t v : R) : R := let e := exp (- (k * t)) in
  xi ^ 2 / k ^ 2 * ((th - 2 * (v - th) * e) + 2 * (v - th) * k * e * t - (v - th / 2) * e * (1 - e) + (v - 5 / 2 * th + (v - th / 2) * e) * e).
Lemma der_mJ_t (t v : R) : is_derive (fun s => mJ s v) t (mV t v).
Proof. unfold mJ, mV. bwd. Qed.
Lemma der_mJ_v (t v : R) : is_derive (fun w => mJ t w) v (m1 t).
Proof. unfold mJ, m1. bwd. Qed.
Lemma der_wJ_t (t v : R) : is_derive (fun s => wJ s v) t (wJt t v).
Proof. unfold wJ, wJt. bwd. Qed.
Lemma der_wJ_v (t v : R) : is_derive (fun w => wJ t w) v (w1 t).
Proof. unfold wJ, w1. bwd. Qed.
Lemma ode_wJ t v : wJt t v = k * (th - v) * w1 t + xi ^ 2 * v * m1 t ^ 2.
Proof. unfold wJt, w1, m1. set (e := exp _). field. exact Hk. Qed.
Lemma ode_mJ t v : mV t v = k * (th - v) * m1 t + v.
Proof. unfold mV, m1. set (e := exp _). field. exact Hk. Qed.
Lemma mJ_0 v : mJ 0 v = 0. Proof. unfold mJ. rewrite (Rmult_0_r k), Ropp_0, exp_0. field. exact Hk. Qed.
Lemma wJ_0 v : wJ 0 v = 0. Proof. unfold wJ. rewrite (Rmult_0_r k), Ropp_0, exp_0. field. exact Hk. Qed.
Lemma m1_const (t v : R) : is_derive (fun w : R => m1 t) v 0. Proof. apply is_derive_const_R. Qed.

Definition c31 (t : R) : R := let e := exp (- (k * t)) in
  (xi / k) ^ 4 / k * (3 * ((1 + / 2 * e * (1 - e * (2 + e))) - k * t * e * (1 + k * t + 2 * e))).
Definition c3t (t v : R) : R := k * (th - v) * c31 t + 3 * xi ^ 2 * v * m1 t * w1 t.
Lemma der_c3_v (t v : R) : is_derive (fun w => cJ3 t w) v (c31 t).
Proof. unfold cJ3, c31. bwd. Qed.
Lemma der_c3_t (t v : R) : is_derive (fun s => cJ3 s v) t (c3t t v).
Proof. unfold cJ3, c3t, c31, m1, w1. bwd. Qed.
Lemma cJ3_0 v : cJ3 0 v = 0. Proof. unfold cJ3. rewrite (Rmult_0_r k), Ropp_0, exp_0. field. exact Hk. Qed.

Definition x1 (t : R) : R := let e := exp (- (k * t)) in xi / k * ((1 - e) / k - t * e).
Definition cXt (t v : R) : R := k * (th - v) * x1 t + xi * v * m1 t.
Lemma der_cX_v (t v : R) : is_derive (fun w => cXJ t w) v (x1 t).
Proof. unfold cXJ, x1. bwd. Qed.
Lemma der_cX_t (t v : R) : is_derive (fun s => cXJ s v) t (cXt t v).
Proof. unfold cXJ, cXt, x1, m1. bwd. Qed.
Lemma cXJ_0 v : cXJ 0 v = 0. Proof. unfold cXJ. rewrite (Rmult_0_r k), Ropp_0, exp_0. field. exact Hk. Qed.


Lemma exp_J2 : expectation_of k th xi rho (fun x v j => j ^ 2) (fun t x v j => (j + mJ t v) ^ 2 + wJ t v).
Proof.
  split. { intros. rewrite mJ_0, wJ_0. ring. }
  exists (fun t x v j => 2 * (j + mJ t v) * mV t v + wJt t v), (fun t x v j => 0), (fun t x v j => 0),
    (fun t x v j => 2 * (j + mJ t v) * m1 t + w1 t), (fun t x v j => 2 * m1 t * m1 t), (fun t x v j => 0), (fun t x v j => 2 * (j + mJ t v)).
  intros t x v j _. cbv beta.
  split. { exact (g_J2 _ _ _ _ _ _ _ (der_mJ_t t v) (der_wJ_t t v) (der_c3_t t v) j). }
  split. { apply is_derive_const_R. }
  split. { apply is_derive_const_R. }
  split. { exact (g_J2 _ _ _ _ _ _ _ (der_mJ_v t v) (der_wJ_v t v) (der_c3_v t v) j). }
  split. { exact (g_lin _ _ _ _ _ _ _ (der_mJ_v t v) (der_wJ_v t v) (der_c3_v t v) j (m1 t) (w1 t)). }
  split. { apply is_derive_const_R. }
  split. { generalize (mJ t v) (wJ t v). intros. auto_derive; [trivial|Req; ring]. }
  rewrite ode_wJ, ode_mJ. field.
Qed.
Lemma exp_J3 : expectation_of k th xi rho (fun x v j => j ^ 3) (fun t x v j => (j + mJ t v) ^ 3 + 3 * (j + mJ t v) * wJ t v + cJ3 t v).
Proof.
  split. { intros. rewrite mJ_0, wJ_0, cJ3_0. ring. }
  exists (fun t x v j => 3 * (j + mJ t v) ^ 2 * mV t v + 3 * mV t v * wJ t v + 3 * (j + mJ t v) * wJt t v + c3t t v), (fun t x v j => 0), (fun t x v j => 0),
    (fun t x v j => 3 * (j + mJ t v) ^ 2 * m1 t + 3 * m1 t * wJ t v + 3 * (j + mJ t v) * w1 t + c31 t),
    (fun t x v j => 6 * (j + mJ t v) * m1 t * m1 t + 3 * m1 t * w1 t + 3 * m1 t * w1 t), (fun t x v j => 0),
    (fun t x v j => 3 * (j + mJ t v) ^ 2 + 3 * wJ t v).
  intros t x v j _. cbv beta.
  split. { exact (g_J3 _ _ _ _ _ _ _ (der_mJ_t t v) (der_wJ_t t v) (der_c3_t t v) j). }
  split. { apply is_derive_const_R. }
  split. { apply is_derive_const_R. }
  split. { exact (g_J3 _ _ _ _ _ _ _ (der_mJ_v t v) (der_wJ_v t v) (der_c3_v t v) j). }
  split. { exact (g_J3v _ _ _ _ _ _ _ (der_mJ_v t v) (der_wJ_v t v) (der_c3_v t v) j (m1 t) (w1 t) (c31 t)). }
  split. { apply is_derive_const_R. }
  split. { generalize (mJ t v) (wJ t v) (cJ3 t v). intros. auto_derive; [trivial|Req; ring]. }
  change (c3t t v) with (k * (th - v) * c31 t + 3 * xi ^ 2 * v * m1 t * w1 t). rewrite ode_wJ, ode_mJ. field.
Qed.
Lemma exp_X2 : expectation_of k th xi rho (fun x v j => x ^ 2) (fun t x v j => (x - / 2 * mJ t v) ^ 2 + wX t v).
Proof.
  unfold wX. split. { intros. rewrite mJ_0, wJ_0, cXJ_0. field. }
  exists (fun t x v j => 2 * (x - / 2 * mJ t v) * (- / 2 * mV t v) + mV t v + wJt t v / 4 - rho * cXt t v),
    (fun t x v j => 2 * (x - / 2 * mJ t v)), (fun t x v j => 2),
    (fun t x v j => 2 * (x - / 2 * mJ t v) * (- / 2 * m1 t) + m1 t + w1 t / 4 - rho * x1 t),
    (fun t x v j => - m1 t * (- / 2 * m1 t)), (fun t x v j => - m1 t), (fun t x v j => 0).
  intros t x v j _. cbv beta.
  split. { exact (g_X2 _ _ _ _ _ _ _ (der_mJ_t t v) (der_wJ_t t v) (der_cX_t t v) x rho). }
  split. { generalize (mJ t v) (wJ t v) (cXJ t v). intros. auto_derive; [trivial|Req; field]. }
  split. { generalize (mJ t v). intros. auto_derive; [trivial|Req; ring]. }
  split. { exact (g_X2 _ _ _ _ _ _ _ (der_mJ_v t v) (der_wJ_v t v) (der_cX_v t v) x rho). }
  split. { pose proof (g_X2v _ _ _ _ _ _ _ (der_mJ_v t v) (der_wJ_v t v) (der_cX_v t v) x (- / 2 * m1 t) (m1 t + w1 t / 4 - rho * x1 t)) as H.
           apply (is_derive_ext (fun y => 2 * (x - / 2 * mJ t y) * (- / 2 * m1 t) + (m1 t + w1 t / 4 - rho * x1 t))); [|exact H].
           intros y. Req. ring. }
  split. { exact (g_X2x _ _ _ _ _ _ _ (der_mJ_v t v) (der_wJ_v t v) (der_cX_v t v) x). }
  split. { apply is_derive_const_R. }
  change (cXt t v) with (k * (th - v) * x1 t + xi * v * m1 t). rewrite ode_wJ, ode_mJ. field.
Qed.
End Moments.
