(** Taylor bounds for exp(-y), and the small mean-reversion branch of the third central moment of the CIR average. *)
From Coq Require Import Reals Lra Lia Psatz.
From Coquelicot Require Import Coquelicot.
From Verif Require Import Base Sums M_Mgf M_Heston P_Cir P_Newton.
Open Scope R_scope.
Fixpoint fr (n : nat) : R := match n with O => 1 | S k => INR (S k) * fr k end.
Lemma fr_pos n : 0 < fr n.
Proof. induction n as [|n IH]; [cbn; lra|]. change (fr (S n)) with (INR (S n) * fr n). apply Rmult_lt_0_compat; [apply lt_0_INR; lia|exact IH]. Qed.
Fixpoint etay (n : nat) (y : R) : R := match n with O => 0 | S k => etay k y + (- y) ^ k / fr k end.
Lemma etay_S n y : etay (S n) y = etay n y + (- y) ^ n / fr n. Proof. reflexivity. Qed.
Lemma dpow_fact n y : is_derive (fun t => t ^ S n / fr (S n)) y (y ^ n / fr n).
Proof.
  assert (E : fr (S n) = INR (S n) * fr n) by reflexivity. rewrite E. pose proof (fr_pos n) as Hf. pose proof (lt_0_INR (S n) ltac:(lia)) as Hn.
  set (c := fr n) in *. clearbody c. apply (is_derive_ext (fun t => / (INR (S n) * c) * t ^ S n)); [intros t; Req; unfold Rdiv; ring|].
  eapply is_derive_eq; [exact (is_derive_scal_R _ (/ (INR (S n) * c)) _ _ (is_derive_pow (fun t => t) (S n) y 1 (idd y)))|]. cbn [pred]. field. split; lra.
Qed.
Lemma etay_derive n y : is_derive (etay (S n)) y (- etay n y).
Proof.
  induction n as [|n IH].
  - apply (is_derive_ext (fun _ => 1)); [intros t; Req; cbn; field|]. eapply is_derive_eq; [apply is_derive_const_R|]. cbn. ring.
  - apply (is_derive_ext (fun t => etay (S n) t + (- t) ^ S n / fr (S n))); [intros t; reflexivity|].
    assert (D : is_derive (fun t => (- t) ^ S n / fr (S n)) y (- ((- y) ^ n / fr n))).
    { pose proof (dpow_fact n (- y)) as D. eapply is_derive_eq; [exact (is_derive_comp_R (fun t => t ^ S n / fr (S n)) (fun t => - t) y _ (-1) D ltac:(auto_derive; [trivial|Req; ring]))|]. ring. }
    eapply is_derive_eq; [exact (is_derive_plus_R _ _ _ _ _ IH D)|]. rewrite etay_S. ring.
Qed.
Lemma etay_0 n : etay (S n) 0 = 1.
Proof. induction n as [|n IH]; [cbn; field|]. rewrite etay_S, IH. replace ((- 0) ^ S n) with 0 by (cbn; ring). unfold Rdiv. ring. Qed.
(** (-1)^n (exp(-y) - sum_(i<n)) lies between 0 and y^n/n! *)
Lemma etay_bound n : forall y, 0 <= y -> 0 <= (-1) ^ n * (exp (- y) - etay n y) <= y ^ n / fr n.
Proof.
  induction n as [|n IH]; intros y Hy.
  - cbn. pose proof (exp_pos (- y)). pose proof (exp_le (- y) 0 ltac:(lra)) as E. rewrite exp_0 in E. lra.
  - set (f := fun t => (-1) ^ S n * (exp (- t) - etay (S n) t)).
    assert (Df : forall t, is_derive f t ((-1) ^ n * (exp (- t) - etay n t))).
    { intros t. unfold f. assert (D1 : is_derive (fun t => exp (- t)) t (- exp (- t))) by (auto_derive; [trivial|Req; ring]).
      eapply is_derive_eq; [exact (is_derive_scal_R _ ((-1) ^ S n) _ _ (is_derive_minus_R _ _ _ _ _ D1 (etay_derive n t)))|]. cbn [pow]. ring. }
    assert (F0 : f 0 = 0) by (unfold f; rewrite etay_0, Ropp_0, exp_0; ring).
    split.
    + fold (f y). rewrite <- F0. apply (nondecreasing_on f (fun t => (-1) ^ n * (exp (- t) - etay n t)) 0 y); [exact Hy|intros z Hz; apply Df|intros z Hz; apply IH; lra].
    + set (g := fun t => t ^ S n / fr (S n) - f t).
      assert (Dg : forall t, is_derive g t (t ^ n / fr n - (-1) ^ n * (exp (- t) - etay n t))).
      { intros t. unfold g. assert (D1 : is_derive (fun t => t ^ S n / fr (S n)) t (t ^ n / fr n)) by apply dpow_fact.
        exact (is_derive_minus_R _ _ _ _ _ D1 (Df t)). }
      assert (G0 : g 0 = 0) by (unfold g; rewrite F0; replace (0 ^ S n) with 0 by (cbn; ring); unfold Rdiv; ring).
      assert (L : g 0 <= g y). { apply (nondecreasing_on g (fun t => t ^ n / fr n - (-1) ^ n * (exp (- t) - etay n t)) 0 y); [exact Hy|intros z Hz; apply Dg|intros z Hz; pose proof (IH z ltac:(lra)); lra]. }
      rewrite G0 in L. unfold g in L. fold (f y). lra.
Qed.
Lemma etay_abs n y : 0 <= y -> Rabs (exp (- y) - etay n y) <= y ^ n / fr n.
Proof.
  intros Hy. pose proof (etay_bound n y Hy) as H. replace (Rabs (exp (- y) - etay n y)) with (Rabs ((-1) ^ n * (exp (- y) - etay n y))).
  - rewrite Rabs_right; lra.
  - rewrite Rabs_mult, pow_1_abs. ring.
Qed.

Lemma ex2 x : exp (- (2 * x)) = exp (- x) * exp (- x). Proof. rewrite <- exp_plus. f_equal. ring. Qed.
Lemma ex3 x : exp (- (3 * x)) = exp (- x) * exp (- x) * exp (- x). Proof. rewrite <- !exp_plus. f_equal. ring. Qed.
Lemma fr_val : fr 6 = 720 /\ fr 7 = 5040 /\ fr 8 = 40320.
Proof. unfold fr. rewrite !INR_IZR_INZ. cbn [Z.of_nat Pos.of_succ_nat Pos.succ]. split; [|split]; ring. Qed.
Definition q6 (y : R) := 1 - y + y ^ 2 / 2 - y ^ 3 / 6 + y ^ 4 / 24 - y ^ 5 / 120.
Lemma etay6 y : etay 6 y = q6 y.
Proof. unfold etay, fr, q6. rewrite !INR_IZR_INZ. cbn [Z.of_nat Pos.of_succ_nat Pos.succ]. field. Qed.
Lemma etay7 y : etay 7 y = q6 y + y ^ 6 / 720.
Proof. rewrite etay_S, etay6. destruct fr_val as (-> & _). field. Qed.
Lemma etay8 y : etay 8 y = q6 y + y ^ 6 / 720 - y ^ 7 / 5040.
Proof. rewrite etay_S, etay7. destruct fr_val as (_ & -> & _). field. Qed.
Lemma tb6 y : 0 <= y -> Rabs (exp (- y) - q6 y) <= y ^ 6 / 720.
Proof. intros H. pose proof (etay_abs 6 y H) as A. rewrite etay6 in A. destruct fr_val as (E & _). now rewrite E in A. Qed.
Lemma tb7 y : 0 <= y -> Rabs (exp (- y) - (q6 y + y ^ 6 / 720)) <= y ^ 7 / 5040.
Proof. intros H. pose proof (etay_abs 7 y H) as A. rewrite etay7 in A. destruct fr_val as (_ & E & _). now rewrite E in A. Qed.
Lemma tb8 y : 0 <= y -> Rabs (exp (- y) - (q6 y + y ^ 6 / 720 - y ^ 7 / 5040)) <= y ^ 8 / 40320.
Proof. intros H. pose proof (etay_abs 8 y H) as A. rewrite etay8 in A. destruct fr_val as (_ & _ & E). now rewrite E in A. Qed.
Lemma abs_mul k a b : 0 <= k -> Rabs a <= b -> - (k * b) <= k * a <= k * b.
Proof. intros Hk H. apply Rabs_le_between in H. split; nra. Qed.
Section T.
Variable x : R.
Hypothesis Hx : 0 <= x.
Let e := exp (- x).
Let a := e - (q6 x + x ^ 6 / 720 - x ^ 7 / 5040).
Let a7 := e - (q6 x + x ^ 6 / 720).
Let a6 := e - q6 x.
Let b := e * e - (q6 (2 * x) + (2 * x) ^ 6 / 720 - (2 * x) ^ 7 / 5040).
Let b7 := e * e - (q6 (2 * x) + (2 * x) ^ 6 / 720).
Let c := e * e * e - (q6 (3 * x) + (3 * x) ^ 6 / 720 - (3 * x) ^ 7 / 5040).
Let y := x ^ 8.
Lemma six : - y <= 40320 * a <= y /\ - y <= 5040 * (x * a7) <= y /\ - y <= 720 * (x ^ 2 * a6) <= y /\
  - (256 * y) <= 40320 * b <= 256 * y /\ - (128 * y) <= 5040 * (x * b7) <= 128 * y /\ - (6561 * y) <= 40320 * c <= 6561 * y.
Proof using Hx.
  pose proof (tb8 x Hx) as A. pose proof (tb7 x Hx) as A7. pose proof (tb6 x Hx) as A6.
  pose proof (tb8 (2 * x) ltac:(lra)) as B. pose proof (tb7 (2 * x) ltac:(lra)) as B7. pose proof (tb8 (3 * x) ltac:(lra)) as C.
  rewrite ex2 in B, B7. rewrite ex3 in C. fold e in A, A7, A6, B, B7, C. fold a in A. fold a7 in A7. fold a6 in A6. fold b in B. fold b7 in B7. fold c in C.
  apply (abs_mul 40320) in A; [|lra]. apply (abs_mul (5040 * x)) in A7; [|lra]. apply (abs_mul (720 * x ^ 2)) in A6; [|pose proof (pow2_ge_0 x); lra].
  apply (abs_mul 40320) in B; [|lra]. apply (abs_mul (5040 * x)) in B7; [|lra]. apply (abs_mul 40320) in C; [|lra].
  replace (40320 * (x ^ 8 / 40320)) with y in A by (unfold y; field). replace (5040 * x * (x ^ 7 / 5040)) with y in A7 by (unfold y; field). replace (720 * x ^ 2 * (x ^ 6 / 720)) with y in A6 by (unfold y; field).
  replace (40320 * ((2 * x) ^ 8 / 40320)) with (256 * y) in B by (unfold y; field). replace (5040 * x * ((2 * x) ^ 7 / 5040)) with (128 * y) in B7 by (unfold y; field). replace (40320 * ((3 * x) ^ 8 / 40320)) with (6561 * y) in C by (unfold y; field).
  rewrite Rmult_assoc in A7, A6, B7. clearbody a a7 a6 b b7 c y. lra.
Qed.
Lemma c3_b3 : Rabs (3 * ((1 + / 2 * e * (1 - e * (2 + e))) - x * e * (1 + x + 2 * e)) - x ^ 5 * (1 / 5 - 17 / 60 * x + 3 / 14 * x ^ 2)) <= x ^ 8 / 2.
Proof using Hx.
  pose proof six as H.
  assert (E : 3 * ((1 + / 2 * e * (1 - e * (2 + e))) - x * e * (1 + x + 2 * e)) - x ^ 5 * (1 / 5 - 17 / 60 * x + 3 / 14 * x ^ 2) = 3 * (a / 2 - b - c / 2 - x * a7 - x ^ 2 * a6 - 2 * (x * b7))).
  { unfold a, a7, a6, b, b7, c, q6. field. }
  rewrite E. fold y. assert (0 <= y) by (apply pow_le; exact Hx). clearbody a b c y. set (u := x * a7) in *. set (v := x ^ 2 * a6) in *. set (w := x * b7) in *. clearbody u v w. apply Rabs_le. lra.
Qed.
Lemma c3_ib : Rabs ((3 * x - 11 * (1 - e) + e * (9 * x - 7 / 2 * (1 - e) + e * (3 * x - / 2 * (1 - e)))) + 3 * x ^ 2 * e - x ^ 6 * (1 / 30 - 17 / 420 * x)) <= x ^ 8 / 5.
Proof using Hx.
  pose proof six as H.
  assert (E : (3 * x - 11 * (1 - e) + e * (9 * x - 7 / 2 * (1 - e) + e * (3 * x - / 2 * (1 - e)))) + 3 * x ^ 2 * e - x ^ 6 * (1 / 30 - 17 / 420 * x) = 15 / 2 * a + 3 * b + c / 2 + 9 * (x * a7) + 3 * (x * b7) + 3 * (x ^ 2 * a6)).
  { unfold a, a7, a6, b, b7, c, q6. field. }
  rewrite E. fold y. assert (0 <= y) by (apply pow_le; exact Hx). clearbody a b c y. set (u := x * a7) in *. set (v := x ^ 2 * a6) in *. set (w := x * b7) in *. clearbody u v w. apply Rabs_le. lra.
Qed.
End T.
Lemma c3_small_close c T v0 : 0 < c_mr c -> 0 < T -> 0 <= v0 -> 0 <= c_theta c ->
  Rabs (cir_avg_c3 c T v0 - cir_avg_c3_full c T v0) <= (c_xi c ^ 2 * T) ^ 2 * (c_mr c * T) ^ 3 * (v0 / 2 + c_theta c / 5).
Proof.
  intros Hk HT Hv Hth. set (x := c_mr c * T). assert (Hx : 0 < x) by now apply Rmult_lt_0_compat.
  assert (HB : 0 <= (c_xi c ^ 2 * T) ^ 2 * x ^ 3 * (v0 / 2 + c_theta c / 5)). { apply Rmult_le_pos; [apply Rmult_le_pos; [apply pow2_ge_0|apply pow_le; lra]|lra]. }
  unfold cir_avg_c3. fold x. destruct (Rlt_dec x (/ 10)) as [_|_]; [|rewrite Rminus_eq_0, Rabs_R0; exact HB].
  pose proof (c3_b3 x ltac:(lra)) as B1. pose proof (c3_ib x ltac:(lra)) as B2.
  unfold cir_avg_c3_small, cir_avg_c3_full. fold x. assert (EX : exprel (- x) = (1 - exp (- x)) / x) by (unfold exprel; destruct (Req_EM_T (- x) 0); [lra|field; lra]). rewrite EX. set (e := exp (- x)) in *.
  set (u1 := 3 * (1 + / 2 * e * (1 - e * (2 + e)) - x * e * (1 + x + 2 * e)) - x ^ 5 * (1 / 5 - 17 / 60 * x + 3 / 14 * x ^ 2)) in *.
  set (u2 := 3 * x - 11 * (1 - e) + e * (9 * x - 7 / 2 * (1 - e) + e * (3 * x - / 2 * (1 - e))) + 3 * x ^ 2 * e - x ^ 6 * (1 / 30 - 17 / 420 * x)) in *.
  match goal with |- Rabs ?z <= _ => replace z with ((c_xi c ^ 2 * T) ^ 2 * (- (v0 * u1 + c_theta c * u2) / x ^ 5)) end.
  2:{ unfold u1, u2. assert (EK : c_mr c = x / T) by (unfold x; field; lra). rewrite EK. clearbody x. field. split; lra. }
  rewrite Rabs_mult, (Rabs_right ((c_xi c ^ 2 * T) ^ 2)) by (apply Rle_ge, pow2_ge_0). rewrite Rmult_assoc. apply Rmult_le_compat_l; [apply pow2_ge_0|].
  assert (P5 : 0 < x ^ 5) by (apply pow_lt; exact Hx). unfold Rdiv at 1. rewrite Rabs_mult, Rabs_Ropp, (Rabs_right (/ x ^ 5)) by (left; now apply Rinv_0_lt_compat).
  apply Rmult_le_reg_r with (x ^ 5); [exact P5|]. rewrite Rmult_assoc, Rinv_l, Rmult_1_r by lra. replace (x ^ 3 * (v0 / 2 + c_theta c / 5) * x ^ 5) with (v0 * (x ^ 8 / 2) + c_theta c * (x ^ 8 / 5)) by field.
  eapply Rle_trans; [apply Rabs_triang|]. rewrite !Rabs_mult, (Rabs_right v0), (Rabs_right (c_theta c)) by lra. apply Rplus_le_compat; apply Rmult_le_compat_l; lra.
Qed.
