(** C35: moments of the SABR average variance. *)
From Coq Require Import Reals Lra Lia List Psatz.
From Coquelicot Require Import Coquelicot.
From Verif Require Import Base Gauss Sums M_Opt M_Mgf M_Heston M_Fd M_Sabr Spec_Expect Spec_Sabr P_Expect.
Import ListNotations.
Open Scope R_scope.

(** raw moments of J_t (unit start), as smooth functions of t *)
Definition jc1 (a t : R) : R := (exp (a ^ 2 * t) - 1) / a ^ 2.
Definition jc2 (a t : R) : R := let w := exp (a ^ 2 * t) in (w ^ 6 - 6 * w + 5) / 15 / (a ^ 2) ^ 2.
Definition jc3 (a t : R) : R := let w := exp (a ^ 2 * t) in (w ^ 15 - 7 * w ^ 6 + 27 * w - 21) / 315 / (a ^ 2) ^ 3.
Definition jc4 (a t : R) : R :=
  let w := exp (a ^ 2 * t) in (5 * w ^ 28 - 44 * w ^ 15 + 182 * w ^ 6 - 572 * w + 429) / 45045 / (a ^ 2) ^ 4.

Lemma d_jc1 (a t : R) : a <> 0 -> is_derive (jc1 a) t (a ^ 2 * jc1 a t + 1).
Proof.
  intros Ha. unfold jc1. auto_derive; [exact I|]. Req.
  replace (a * (a * 1) * t) with (a ^ 2 * t) by ring. generalize (exp (a ^ 2 * t)). intros w. field. exact Ha.
Qed.
Lemma d_jc2 (a t : R) : a <> 0 -> is_derive (jc2 a) t (6 * a ^ 2 * jc2 a t + 2 * jc1 a t).
Proof.
  intros Ha. unfold jc2, jc1. cbv zeta. auto_derive; [exact I|]. Req.
  replace (a * (a * 1) * t) with (a ^ 2 * t) by ring. generalize (exp (a ^ 2 * t)). intros w. field. exact Ha.
Qed.
Lemma d_jc3 (a t : R) : a <> 0 -> is_derive (jc3 a) t (15 * a ^ 2 * jc3 a t + 3 * jc2 a t).
Proof.
  intros Ha. unfold jc3, jc2. cbv zeta. auto_derive; [exact I|]. Req.
  replace (a * (a * 1) * t) with (a ^ 2 * t) by ring. generalize (exp (a ^ 2 * t)). intros w. field. exact Ha.
Qed.
Lemma d_jc4 (a t : R) : a <> 0 -> is_derive (jc4 a) t (28 * a ^ 2 * jc4 a t + 4 * jc3 a t).
Proof.
  intros Ha. unfold jc4, jc3. cbv zeta. auto_derive; [exact I|]. Req.
  replace (a * (a * 1) * t) with (a ^ 2 * t) by ring. generalize (exp (a ^ 2 * t)). intros w. field. exact Ha.
Qed.
Lemma jc_0 (a : R) : jc1 a 0 = 0 /\ jc2 a 0 = 0 /\ jc3 a 0 = 0 /\ jc4 a 0 = 0.
Proof.
  unfold jc1, jc2, jc3, jc4. cbv zeta. rewrite Rmult_0_r, exp_0, !pow1.
  repeat match goal with |- _ /\ _ => split end; unfold Rdiv; ring.
Qed.

Lemma gbm_exp1 (a : R) : a <> 0 -> gbm_expectation a (fun v j => j) (fun t v j => j + jc1 a t * v).
Proof.
  intros Ha. destruct (jc_0 a) as (Z1 & _). split. { intros. rewrite Z1. ring. }
  exists (fun t v j => (a ^ 2 * jc1 a t + 1) * v), (fun t v j => jc1 a t), (fun _ _ _ => 0), (fun _ _ _ => 1).
  intros t v j Ht. split; [|split; [|split; [|split]]].
  - pose proof (d_jc1 a t Ha) as D. auto_derive; [eexists; exact D|].
    replace (Derive _ t) with (a ^ 2 * jc1 a t + 1) by (symmetry; apply is_derive_unique, D). Req. ring.
  - auto_derive; [exact I|]. Req. ring.
  - apply @is_derive_const.
  - auto_derive; [exact I|]. Req. ring.
  - ring.
Qed.
Lemma gbm_exp2 (a : R) : a <> 0 -> gbm_expectation a (fun v j => j ^ 2) (fun t v j => j ^ 2 + 2 * j * (jc1 a t * v) + jc2 a t * v ^ 2).
Proof.
  intros Ha. destruct (jc_0 a) as (Z1 & Z2 & _). split. { intros. rewrite Z1, Z2. ring. }
  exists (fun t v j => 2 * j * ((a ^ 2 * jc1 a t + 1) * v) + (6 * a ^ 2 * jc2 a t + 2 * jc1 a t) * v ^ 2),
    (fun t v j => 2 * j * jc1 a t + 2 * jc2 a t * v), (fun t _ _ => 2 * jc2 a t), (fun t v j => 2 * j + 2 * (jc1 a t * v)).
  intros t v j Ht. pose proof (d_jc1 a t Ha) as D1. pose proof (d_jc2 a t Ha) as D2.
  split; [|split; [|split; [|split]]].
  - auto_derive; [split; [eexists; exact D1|split; [eexists; exact D2|exact I]]|].
    replace (Derive (fun x : R => jc1 a x) t) with (a ^ 2 * jc1 a t + 1) by (symmetry; apply is_derive_unique, D1).
    replace (Derive (fun x : R => jc2 a x) t) with (6 * a ^ 2 * jc2 a t + 2 * jc1 a t) by (symmetry; apply is_derive_unique, D2). Req. ring.
  - auto_derive; [exact I|]. Req. ring.
  - auto_derive; [exact I|]. Req. ring.
  - auto_derive; [exact I|]. Req. ring.
  - field.
Qed.
Lemma gbm_exp3 (a : R) : a <> 0 -> gbm_expectation a (fun v j => j ^ 3)
  (fun t v j => j ^ 3 + 3 * j ^ 2 * (jc1 a t * v) + 3 * j * (jc2 a t * v ^ 2) + jc3 a t * v ^ 3).
Proof.
  intros Ha. destruct (jc_0 a) as (Z1 & Z2 & Z3 & _). split. { intros. rewrite Z1, Z2, Z3. ring. }
  exists (fun t v j => 3 * j ^ 2 * ((a ^ 2 * jc1 a t + 1) * v) + 3 * j * ((6 * a ^ 2 * jc2 a t + 2 * jc1 a t) * v ^ 2)
                       + (15 * a ^ 2 * jc3 a t + 3 * jc2 a t) * v ^ 3),
    (fun t v j => 3 * j ^ 2 * jc1 a t + 6 * j * jc2 a t * v + 3 * jc3 a t * v ^ 2),
    (fun t v j => 6 * j * jc2 a t + 6 * jc3 a t * v),
    (fun t v j => 3 * j ^ 2 + 6 * j * (jc1 a t * v) + 3 * (jc2 a t * v ^ 2)).
  intros t v j Ht. pose proof (d_jc1 a t Ha) as D1. pose proof (d_jc2 a t Ha) as D2. pose proof (d_jc3 a t Ha) as D3.
  split; [|split; [|split; [|split]]].
  - auto_derive; [split; [eexists; exact D1|split; [eexists; exact D2|split; [eexists; exact D3|exact I]]]|].
    replace (Derive (fun x : R => jc1 a x) t) with (a ^ 2 * jc1 a t + 1) by (symmetry; apply is_derive_unique, D1).
    replace (Derive (fun x : R => jc2 a x) t) with (6 * a ^ 2 * jc2 a t + 2 * jc1 a t) by (symmetry; apply is_derive_unique, D2).
    replace (Derive (fun x : R => jc3 a x) t) with (15 * a ^ 2 * jc3 a t + 3 * jc2 a t) by (symmetry; apply is_derive_unique, D3). Req. ring.
  - auto_derive; [exact I|]. Req. ring.
  - auto_derive; [exact I|]. Req. ring.
  - auto_derive; [exact I|]. Req. ring.
  - field.
Qed.
Lemma gbm_exp4 (a : R) : a <> 0 -> gbm_expectation a (fun v j => j ^ 4)
  (fun t v j => j ^ 4 + 4 * j ^ 3 * (jc1 a t * v) + 6 * j ^ 2 * (jc2 a t * v ^ 2) + 4 * j * (jc3 a t * v ^ 3) + jc4 a t * v ^ 4).
Proof.
  intros Ha. destruct (jc_0 a) as (Z1 & Z2 & Z3 & Z4). split. { intros. rewrite Z1, Z2, Z3, Z4. ring. }
  exists (fun t v j => 4 * j ^ 3 * ((a ^ 2 * jc1 a t + 1) * v) + 6 * j ^ 2 * ((6 * a ^ 2 * jc2 a t + 2 * jc1 a t) * v ^ 2)
                       + 4 * j * ((15 * a ^ 2 * jc3 a t + 3 * jc2 a t) * v ^ 3) + (28 * a ^ 2 * jc4 a t + 4 * jc3 a t) * v ^ 4),
    (fun t v j => 4 * j ^ 3 * jc1 a t + 12 * j ^ 2 * jc2 a t * v + 12 * j * jc3 a t * v ^ 2 + 4 * jc4 a t * v ^ 3),
    (fun t v j => 12 * j ^ 2 * jc2 a t + 24 * j * jc3 a t * v + 12 * jc4 a t * v ^ 2),
    (fun t v j => 4 * j ^ 3 + 12 * j ^ 2 * (jc1 a t * v) + 12 * j * (jc2 a t * v ^ 2) + 4 * (jc3 a t * v ^ 3)).
  intros t v j Ht. pose proof (d_jc1 a t Ha) as D1. pose proof (d_jc2 a t Ha) as D2.
  pose proof (d_jc3 a t Ha) as D3. pose proof (d_jc4 a t Ha) as D4.
  split; [|split; [|split; [|split]]].
  - auto_derive; [split; [eexists; exact D1|split; [eexists; exact D2|split; [eexists; exact D3|split; [eexists; exact D4|exact I]]]]|].
    replace (Derive (fun x : R => jc1 a x) t) with (a ^ 2 * jc1 a t + 1) by (symmetry; apply is_derive_unique, D1).
    replace (Derive (fun x : R => jc2 a x) t) with (6 * a ^ 2 * jc2 a t + 2 * jc1 a t) by (symmetry; apply is_derive_unique, D2).
    replace (Derive (fun x : R => jc3 a x) t) with (15 * a ^ 2 * jc3 a t + 3 * jc2 a t) by (symmetry; apply is_derive_unique, D3).
    replace (Derive (fun x : R => jc4 a x) t) with (28 * a ^ 2 * jc4 a t + 4 * jc3 a t) by (symmetry; apply is_derive_unique, D4). Req. ring.
  - auto_derive; [exact I|]. Req. ring.
  - auto_derive; [exact I|]. Req. ring.
  - auto_derive; [exact I|]. Req. ring.
  - field.
Qed.

(** in terms of the routine's numbers, vovn = a sqrt t *)
Lemma vovn_sq (a t : R) : 0 <= t -> (a * sqrt t) ^ 2 = a ^ 2 * t.
Proof. intros Ht. replace ((a * sqrt t) ^ 2) with (a ^ 2 * (sqrt t * sqrt t)) by ring. rewrite sqrt_sqrt; lra. Qed.
Lemma m2_jc (a t : R) : a <> 0 -> 0 < t -> t ^ 2 * avgvar_m2 (a * sqrt t) = jc2 a t.
Proof. intros Ha Ht. unfold avgvar_m2, jc2. cbv zeta. rewrite vovn_sq by lra. field. lra. Qed.
Lemma m3_jc (a t : R) : a <> 0 -> 0 < t -> t ^ 3 * avgvar_m3 (a * sqrt t) = jc3 a t.
Proof. intros Ha Ht. unfold avgvar_m3, jc3. cbv zeta. rewrite vovn_sq by lra. field. lra. Qed.
Lemma m4_jc (a t : R) : a <> 0 -> 0 < t -> t ^ 4 * avgvar_m4 (a * sqrt t) = jc4 a t.
Proof. intros Ha Ht. unfold avgvar_m4, jc4. cbv zeta. rewrite vovn_sq by lra. field. lra. Qed.
Lemma exprel_jc (a t : R) : a <> 0 -> 0 < t -> t * exprel ((a * sqrt t) ^ 2) = jc1 a t.
Proof.
  intros Ha Ht. rewrite vovn_sq by lra. unfold exprel, jc1. assert (a ^ 2 * t <> 0).
  { intros E. apply Rmult_integral in E. destruct E as [E|E]; [apply (pow_nonzero a 2 Ha E)|lra]. }
  destruct (Req_EM_T _ _); [lra|]. field. lra.
Qed.
Lemma m1_exprel (v : R) : / 10 ^ 6 < v ^ 2 -> avgvar_m1 v = exprel (v ^ 2).
Proof.
  intros H. unfold avgvar_m1, exprel. cbv zeta. assert (0 < / 10 ^ 6) by (apply Rinv_0_lt_compat, pow_lt; lra).
  destruct (Rlt_dec _ _); [|lra]. destruct (Req_EM_T _ _); [lra|reflexivity].
Qed.

(** the raw moments of the average variance: E[(J_t/t)^n], all at once *)
Definition avg_raw (a t : R) (n : nat) : R :=
  match n with
  | 0%nat => 1 | 1%nat => exprel ((a * sqrt t) ^ 2) | 2%nat => avgvar_m2 (a * sqrt t) | 3%nat => avgvar_m3 (a * sqrt t)
  | _ => avgvar_m4 (a * sqrt t)
  end.
Lemma gbm_expectation_ext a g f f' : (forall t v j, 0 <= t -> f t v j = f' t v j) -> gbm_expectation a g f ->
  (forall t v j, t < 0 -> f t v j = f' t v j) -> gbm_expectation a g f'.
Proof.
  intros E [H0 (ft & fv & fvv & fj & H)] E'.
  assert (EE : forall t v j, f t v j = f' t v j) by (intros t v j; destruct (Rle_lt_dec 0 t); [apply E; assumption|apply E'; assumption]).
  split; [intros; rewrite <- EE; apply H0|]. exists ft, fv, fvv, fj. intros t v j Ht.
  destruct (H t v j Ht) as (A & B & C & D & F). split; [|split; [|split; [|split]]].
  - apply is_derive_ext with (2 := A). intros; apply EE.
  - apply is_derive_ext with (2 := B). intros; apply EE.
  - exact C.
  - apply is_derive_ext with (2 := D). intros; apply EE.
  - exact F.
Qed.

(** existence form: some conditional-expectation function takes the routine's values at J_0 = 0 *)
Lemma avgvar_true_moments (a : R) : a <> 0 -> forall n, (1 <= n <= 4)%nat ->
  exists f, gbm_expectation a (fun _ j => j ^ n) f /\ forall t v, 0 < t -> f t v 0 = t ^ n * avg_raw a t n * v ^ n.
Proof.
  intros Ha n Hn. assert (n = 1 \/ n = 2 \/ n = 3 \/ n = 4)%nat as [->|[->|[->| ->]]] by lia; cbn [avg_raw].
  - exists (fun t v j => j + jc1 a t * v). split.
    { destruct (gbm_exp1 a Ha) as [H0 H1]. split; [|exact H1]. intros v j. cbv beta in H0. rewrite H0. ring. }
    intros t v Ht. cbv beta. rewrite <- exprel_jc by assumption. ring.
  - eexists. split; [apply gbm_exp2, Ha|]. intros t v Ht. cbv beta. rewrite <- m2_jc by assumption. ring.
  - eexists. split; [apply gbm_exp3, Ha|]. intros t v Ht. cbv beta. rewrite <- m3_jc by assumption. ring.
  - eexists. split; [apply gbm_exp4, Ha|]. intros t v Ht. cbv beta. rewrite <- m4_jc by assumption. ring.
Qed.

(** ** Closed polynomial form *)
Lemma exprel_pos (x : R) : 0 < x -> 0 < exprel x /\ exprel x * x + 1 = exp x.
Proof.
  intros Hx. unfold exprel. destruct (Req_EM_T x 0); [lra|]. split.
  - apply Rdiv_lt_0_compat; [|lra]. pose proof (exp_ineq1 x). assert (x <> 0) by lra. specialize (H H0). lra.
  - field. lra.
Qed.
Definition mvsk_of (v : R) : R * R * R * R :=
  let m1 := exprel (v ^ 2) in
  (m1, var_of_raw m1 (avgvar_m2 v) / m1 ^ 2, skew_of_raw m1 (avgvar_m2 v) (avgvar_m3 v),
   exkurt_of_raw m1 (avgvar_m2 v) (avgvar_m3 v) (avgvar_m4 v)).
Section Poly.
Variables (v w m : R).
Hypothesis Hv : 0 < v.
Hypothesis Hw : w = exp (v ^ 2).
Hypothesis Hm : m = (w - 1) / v ^ 2.
Hypothesis Hw1 : 1 < w.
Lemma m_pos : 0 < m. Proof. rewrite Hm. apply Rdiv_lt_0_compat; [lra|apply pow_lt; lra]. Qed.
Lemma w_eq : m * v ^ 2 + 1 = w. Proof. rewrite Hm. field. lra. Qed.
Lemma mc2_eq : var_of_raw m (avgvar_m2 v) = v ^ 2 * mvsk_m2 w * m * m ^ 2.
Proof.
  unfold var_of_raw, avgvar_m2, mvsk_m2. cbv zeta. rewrite <- Hw. pose proof w_eq as E. rewrite Hm. field. lra.
Qed.
Lemma m2b_pos : 0 < mvsk_m2 w.
Proof. unfold mvsk_m2. assert (0 < w) by lra. assert (0 < w * (6 + w * (3 + w))) by (apply Rmult_lt_0_compat; [lra|nra]). lra. Qed.
Lemma mc3_eq : avgvar_m3 v - 3 * m * avgvar_m2 v + 2 * m ^ 3 = v ^ 4 * polyval mvsk_c3 w * m ^ 5.
Proof.
  unfold avgvar_m3, avgvar_m2, polyval, mvsk_c3. cbn [map fold_left]. cbv zeta. rewrite <- Hw, Hm. field. lra.
Qed.
Lemma mc4_eq : avgvar_m4 v - 4 * m * avgvar_m3 v + 6 * m ^ 2 * avgvar_m2 v - 3 * m ^ 4
  = 3 * (v ^ 2 * mvsk_m2 w * m * m ^ 2) ^ 2 + v ^ 6 * polyval mvsk_c4 w * m ^ 7.
Proof.
  unfold avgvar_m4, avgvar_m3, avgvar_m2, mvsk_m2, polyval, mvsk_c4. cbn [map fold_left]. cbv zeta. rewrite <- Hw, Hm.
  field. lra.
Qed.
End Poly.
Lemma avgvar_mvsk_eq (v : R) : 0 < v -> avgvar_mvsk v = mvsk_of v.
Proof.
  intros Hv. assert (Hv2 : 0 < v ^ 2) by (apply pow_lt; lra).
  destruct (exprel_pos (v ^ 2) Hv2) as [Hm0 Hw0]. set (w := exp (v ^ 2)) in *.
  assert (Hm : exprel (v ^ 2) = (w - 1) / v ^ 2) by (rewrite <- Hw0; field; lra).
  assert (Hw1 : 1 < w) by (rewrite <- Hw0; nra).
  unfold avgvar_mvsk, mvsk_of. cbv zeta. set (m := exprel (v ^ 2)) in *.
  rewrite Hw0.
  pose proof (m_pos v w m Hv Hm Hw1) as Hmp. pose proof (m2b_pos w Hw1) as Hb.
  unfold skew_of_raw, exkurt_of_raw. rewrite (mc2_eq v w m Hv eq_refl Hm), (mc3_eq v w m Hv eq_refl Hm), (mc4_eq v w m Hv eq_refl Hm).
  assert (Es : sqrt (v ^ 2 * mvsk_m2 w * m * m ^ 2) = v * sqrt (mvsk_m2 w) * sqrt m * m).
  { rewrite <- (sqrt_pow2 (v * sqrt (mvsk_m2 w) * sqrt m * m)).
    - f_equal. rewrite !Rpow_mult_distr, !pow2_sqrt by lra. ring.
    - repeat apply Rmult_le_pos; try apply sqrt_pos; lra. }
  rewrite Es. generalize (polyval mvsk_c3 w) (polyval mvsk_c4 w). intros P3 P4.
  assert (Sb : 0 < sqrt (mvsk_m2 w)) by (apply sqrt_lt_R0; lra). assert (Sm : 0 < sqrt m) by (apply sqrt_lt_R0; lra).
  assert (Qb : mvsk_m2 w = sqrt (mvsk_m2 w) ^ 2) by (symmetry; apply pow2_sqrt; lra).
  assert (Qm : m = sqrt m ^ 2) by (symmetry; apply pow2_sqrt; lra).
  repeat (apply (f_equal2 pair)).
  - reflexivity.
  - field. lra.
  - set (sb := sqrt (mvsk_m2 w)) in *. set (sm := sqrt m) in *. rewrite Qb, Qm. field. lra.
  - field. lra.
Qed.

(** the small-vovn branch of the mean: error of the series *)
Lemma exp_taylor3 (x : R) : 0 <= x <= / 10 ^ 6 -> Rabs (exp x - 1 - x - x ^ 2 / 2 - x ^ 3 / 6) <= x ^ 4.
Proof.
  intros Hx. assert (Hx1 : x <= 1) by (simpl in Hx; lra).
  (* e^x between: F(x) = exp x - (1 + x + x^2/2 + x^3/6) >= 0, and exp x <= that + x^4 *)
  assert (mono : forall f f' : R -> R, (forall y, 0 <= y <= 1 -> is_derive f y (f' y)) -> (forall y, 0 <= y <= 1 -> 0 <= f' y) -> f 0 = 0 -> forall y, 0 <= y <= 1 -> 0 <= f y).
  { intros f f' D P Z y Hy. destruct (MVT_gen f 0 y f') as (c & Hc & E).
    - intros z Hz. rewrite Rmin_left, Rmax_right in Hz by lra. apply D. lra.
    - intros z Hz. rewrite Rmin_left, Rmax_right in Hz by lra. apply continuity_pt_filterlim, ex_derive_continuous_R. eexists. apply D. lra.
    - rewrite Rmin_left, Rmax_right in Hc by lra. rewrite Z in E. specialize (P c). assert (0 <= f' c) by (apply P; lra). nra. }
  assert (L1 : forall y, 0 <= y <= 1 -> 0 <= exp y - 1 - y).
  { intros y Hy. pose proof (exp_ineq1_le y). lra. }
  assert (L2 : forall y, 0 <= y <= 1 -> 0 <= exp y - 1 - y - y ^ 2 / 2).
  { apply (mono _ (fun y => exp y - 1 - y)); [|exact L1|rewrite exp_0; field]. intros y _. auto_derive; [exact I|]. Req. field. }
  assert (L3 : forall y, 0 <= y <= 1 -> 0 <= exp y - 1 - y - y ^ 2 / 2 - y ^ 3 / 6).
  { apply (mono _ (fun y => exp y - 1 - y - y ^ 2 / 2)); [|exact L2|rewrite exp_0; field]. intros y _. auto_derive; [exact I|]. Req. field. }
  assert (e3 : forall y, 0 <= y <= 1 -> exp y <= 3).
  { intros y Hy. apply Rle_trans with (exp 1); [destruct (Req_dec y 1) as [->|]; [lra|left; apply exp_increasing; lra]|apply exp_le_3]. }
  assert (U0 : forall y, 0 <= y <= 1 -> 0 <= 24 * y - (exp y - 1)).
  { apply (mono _ (fun y => 24 - exp y)); [|intros y Hy; pose proof (e3 y Hy); lra|rewrite exp_0; ring]. intros y _. auto_derive; [exact I|]. Req. ring. }
  assert (U1 : forall y, 0 <= y <= 1 -> 0 <= 12 * y ^ 2 - (exp y - 1 - y)).
  { apply (mono _ (fun y => 24 * y - (exp y - 1))); [|exact U0|rewrite exp_0; ring]. intros y _. auto_derive; [exact I|]. Req. ring. }
  assert (U2 : forall y, 0 <= y <= 1 -> 0 <= 4 * y ^ 3 - (exp y - 1 - y - y ^ 2 / 2)).
  { apply (mono _ (fun y => 12 * y ^ 2 - (exp y - 1 - y))); [|exact U1|rewrite exp_0; field]. intros y _. auto_derive; [exact I|]. Req. field. }
  assert (U3 : forall y, 0 <= y <= 1 -> 0 <= y ^ 4 - (exp y - 1 - y - y ^ 2 / 2 - y ^ 3 / 6)).
  { apply (mono _ (fun y => 4 * y ^ 3 - (exp y - 1 - y - y ^ 2 / 2))); [|exact U2|rewrite exp_0; field]. intros y _. auto_derive; [exact I|]. Req. field. }
  assert (Hx01 : 0 <= x <= 1) by lra. specialize (L3 x Hx01). specialize (U3 x Hx01). rewrite Rabs_right; lra.
Qed.
Lemma m1_close (v : R) : 0 < v -> Rabs (avgvar_m1 v - exprel (v ^ 2)) <= / 10 ^ 18.
Proof.
  intros Hv. destruct (Rlt_dec (/ 10 ^ 6) (v ^ 2)) as [H|H].
  - rewrite m1_exprel by assumption. rewrite Rminus_diag_eq by reflexivity. rewrite Rabs_R0. left. apply Rinv_0_lt_compat, pow_lt. lra.
  - assert (Hv2 : 0 < v ^ 2) by (apply pow_lt; lra). unfold avgvar_m1, exprel. cbv zeta.
    destruct (Rlt_dec _ _); [lra|]. destruct (Req_EM_T _ _); [lra|]. set (x := v ^ 2) in *.
    assert (Hx : 0 <= x <= / 10 ^ 6) by lra. pose proof (exp_taylor3 x Hx) as E.
    replace (1 + x / 2 * (1 + x / 3) - (exp x - 1) / x) with (- (exp x - 1 - x - x ^ 2 / 2 - x ^ 3 / 6) / x) by (field; lra).
    rewrite Rabs_div by lra. rewrite Rabs_Ropp, (Rabs_right x) by lra.
    apply Rle_trans with (x ^ 3).
    + apply Rmult_le_reg_r with x; [lra|]. replace (Rabs (exp x - 1 - x - x ^ 2 / 2 - x ^ 3 / 6) / x * x) with (Rabs (exp x - 1 - x - x ^ 2 / 2 - x ^ 3 / 6)) by (field; lra).
      replace (x ^ 3 * x) with (x ^ 4) by ring. exact E.
    + replace (/ 10 ^ 18) with ((/ 10 ^ 6) ^ 3) by field. apply pow_incr. lra.
Qed.

(** ** Conditional moments *)
Lemma half_const : sqrt (PI / 2) / sqrt (2 * PI) = / 2.
Proof.
  rewrite <- sqrt_div by (pose proof PI_RGT_0; lra). replace (PI / 2 / (2 * PI)) with ((/ 2) ^ 2) by (field; pose proof PI_RGT_0; lra).
  apply sqrt_pow2. lra.
Qed.
(** the difference of normal cdfs is even in z *)
Lemma Phi_diff_even (z v : R) : Phi (- Rabs z + v) - Phi (- Rabs z - v) = Phi (v - z) - Phi (- v - z).
Proof.
  unfold Rabs. destruct (Rcase_abs z).
  - replace (- - z + v) with (- (- v - z)) by ring. replace (- - z - v) with (- (v - z)) by ring. rewrite !Phi_opp. ring.
  - replace (- z + v) with (v - z) by ring. replace (- z - v) with (- v - z) by ring. reflexivity.
Qed.
Lemma npdf_mfn (z v : R) : npdf z * mfn_exact z v = (Phi (v - z) - Phi (- v - z)) * exp (v ^ 2 / 2) / (2 * v).
Proof.
  unfold mfn_exact. rewrite Phi_diff_even. unfold npdf. set (D := Phi (v - z) - Phi (- v - z)).
  replace ((z ^ 2 + v ^ 2) / 2) with (z * z / 2 + v ^ 2 / 2) by field. rewrite exp_plus.
  assert (E : exp (- (z * z) / 2) * exp (z * z / 2) = 1) by (rewrite <- exp_plus; replace (- (z * z) / 2 + z * z / 2) with 0 by field; apply exp_0).
  transitivity (sqrt (PI / 2) / sqrt (2 * PI) * (exp (- (z * z) / 2) * exp (z * z / 2)) * (D * exp (v ^ 2 / 2) / v)).
  - unfold Rdiv. ring.
  - rewrite E, half_const. unfold Rdiv. rewrite Rinv_mult. ring.
Qed.

(** Brownian-bridge mean: given zhat, E[exp(2 v Z_s - v^2 s)] = exp(2 v s zhat + 2 v^2 s (1 - s)); time average *)
Lemma bridge_mean (v z : R) : 0 < v ->
  is_RInt (fun s => exp (2 * v * s * z + 2 * v ^ 2 * s * (1 - s))) 0 1 (mfn_exact z v * exp (v * z)).
Proof.
  intros Hv. set (K := sqrt (2 * PI) * exp ((v + z) ^ 2 / 2) / (2 * v)).
  assert (D : forall s : R, is_derive (fun s => K * Phi (2 * v * s - (v + z))) s (exp (2 * v * s * z + 2 * v ^ 2 * s * (1 - s)))).
  { intros s. assert (Dp := is_derive_Phi_comp (fun s => 2 * v * s - (v + z)) s (2 * v)).
    assert (Da : is_derive (fun s : R => 2 * v * s - (v + z)) s (2 * v)) by (auto_derive; [exact I|Req; ring]).
    specialize (Dp Da). pose proof (is_derive_scal _ s K _ Dp) as D2. eapply is_derive_ext_loc; [apply filter_forall; reflexivity|].
    replace (exp (2 * v * s * z + 2 * v ^ 2 * s * (1 - s))) with (K * (2 * v * npdf (2 * v * s - (v + z)))); [exact D2|].
    unfold K, npdf. replace (2 * v * s * z + 2 * v ^ 2 * s * (1 - s))
      with ((v + z) ^ 2 / 2 + - ((2 * v * s - (v + z)) * (2 * v * s - (v + z))) / 2) by field.
    rewrite exp_plus. pose proof sqrt_2PI_pos. field. lra. }
  replace (mfn_exact z v * exp (v * z)) with (K * Phi (2 * v * 1 - (v + z)) - K * Phi (2 * v * 0 - (v + z))).
  - apply (is_RInt_derive (V := R_CompleteNormedModule) (fun s => K * Phi (2 * v * s - (v + z)))).
    + intros s _. apply D.
    + intros s _. apply ex_derive_continuous_R. auto_derive. exact I.
  - unfold K, mfn_exact. rewrite Phi_diff_even.
    replace (2 * v * 1 - (v + z)) with (v - z) by ring. replace (2 * v * 0 - (v + z)) with (- v - z) by ring.
    replace ((v + z) ^ 2 / 2) with ((z ^ 2 + v ^ 2) / 2 + v * z) by field. rewrite exp_plus.
    assert (E : sqrt (2 * PI) = 2 * sqrt (PI / 2)).
    { pose proof half_const as Hc. pose proof sqrt_2PI_pos. apply (Rmult_eq_reg_l (/ 2)); [|lra].
      rewrite <- Hc at 1. field. lra. }
    rewrite E. field. lra.
Qed.
