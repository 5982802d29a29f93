(** Moments of a standard normal variable. *)
From Coq Require Import Reals Lra Psatz Lia.
From Coquelicot Require Import Coquelicot.
From Verif Require Import Base Gauss P_Black Spec_Expect P_Expect.
Open Scope R_scope.

(** exponential beats powers *)
Lemma exp_ge_pow (n : nat) y : 0 <= y -> (1 <= n)%nat -> (1 + y / INR n) ^ n <= exp y.
Proof.
  intros Hy Hn. assert (P : 0 < INR n) by (apply lt_0_INR; lia).
  replace (exp y) with (exp (y / INR n) ^ n). 2:{ rewrite <- exp_n. f_equal. field. lra. }
  apply pow_incr. assert (0 <= y / INR n) by (apply Rmult_le_pos; [lra|left; now apply Rinv_0_lt_compat]).
  split; [lra|]. apply exp_ineq1_le.
Qed.
Lemma pow_npdf_bound (k : nat) b : 1 <= b -> (k <= 3)%nat -> b ^ k * npdf b <= 16 / b.
Proof.
  intros Hb Hk.
  assert (E : exp (- (b * b) / 2) <= 16 / b ^ 4).
  { pose proof (exp_ge_pow 2 (b * b / 2)) as H. cbn [INR] in H.
    assert (H2 : (1 + b * b / 2 / (1 + 1)) ^ 2 <= exp (b * b / 2)). { apply H; [nra|lia]. }
    replace (- (b * b) / 2) with (- (b * b / 2)) by field. rewrite exp_Ropp.
    assert (B4 : 0 < b ^ 4) by (apply pow_lt; lra).
    replace (16 / b ^ 4) with (/ (b ^ 4 / 16)) by (field; lra).
    apply Rinv_le_contravar; [lra|]. eapply Rle_trans; [|exact H2].
    replace ((1 + b * b / 2 / (1 + 1)) ^ 2) with (b ^ 4 / 16 + (1 + b * b / 2)) by field. nra. }
  assert (S1 : 1 <= sqrt (2 * PI)). { rewrite <- sqrt_1 at 1. apply sqrt_le_1_alt. pose proof PI2_3_2. lra. }
  assert (N : npdf b <= 16 / b ^ 4).
  { unfold npdf. eapply Rle_trans; [|exact E]. pose proof (exp_pos (- (b * b) / 2)).
    apply (Rmult_le_reg_r (sqrt (2 * PI))); [lra|]. unfold Rdiv at 1. rewrite Rmult_assoc, Rinv_l by lra. rewrite Rmult_1_r.
    rewrite <- (Rmult_1_r (exp _)) at 1. apply Rmult_le_compat_l; lra. }
  assert (K : b ^ k <= b ^ 3) by (apply Rle_pow; [lra|lia]).
  assert (0 < b ^ k) by (apply pow_lt; lra).
  apply Rle_trans with (b ^ 3 * (16 / b ^ 4)).
  - apply Rmult_le_compat; try lra. left. apply npdf_pos.
  - right. field. lra.
Qed.
Lemma pow_npdf_lim (k : nat) : (k <= 3)%nat -> is_lim (fun b => b ^ k * npdf b) p_infty 0.
Proof.
  intros Hk. apply (is_lim_le_le_loc (fun _ => 0) (fun b => 16 * / b)).
  - exists 1. intros b Hb. split.
    + apply Rmult_le_pos; [apply pow_le; lra|left; apply npdf_pos].
    + apply pow_npdf_bound; [lra|exact Hk].
  - apply is_lim_const.
  - replace (Finite 0) with (Rbar_mult 16 (Rbar_inv p_infty)). 2:{ cbn. f_equal. ring. }
    apply is_lim_scal_l. apply is_lim_inv; [apply is_lim_id|easy].
Qed.


Lemma cont_npdf (x : R) : continuous npdf x.
Proof. apply ex_derive_continuous_R. exists (- x * npdf x). apply is_derive_npdf. Qed.
Lemma cont_pow_npdf (k : nat) (x : R) : continuous (fun z => z ^ k * npdf z) x.
Proof.
  apply (continuous_mult (fun z : R => z ^ k) npdf); [|apply cont_npdf].
  apply ex_derive_continuous_R. auto_derive. trivial.
Qed.

(** generic: antiderivative A with limits at +-infinity *)
Lemma gauss_expect_anti (f A : R -> R) (lp lm : R) :
  (forall x, is_derive A x (f x * npdf x)) -> (forall x, continuous (fun z => f z * npdf z) x) ->
  is_lim A p_infty lp -> is_lim (fun b => A (- b)) p_infty lm -> gauss_expect f (lp - lm).
Proof.
  intros HA HC Lp Lm. apply (gauss_expect_of f 0 (fun b => A b - A (- b))).
  - intros b. apply ex_RInt_cont_all. exact HC.
  - intros b _. apply (is_RInt_derive A (fun z => f z * npdf z)); intros; [apply HA|apply HC].
  - eapply is_lim_minus; [exact Lp|exact Lm|]. cbn. reflexivity.
Qed.

Ltac dernp := match goal with |- is_derive _ ?x _ =>
   pose proof (is_derive_npdf x); pose proof (is_derive_Phi x) end.

Lemma gauss_z1 : gauss_expect (fun z => z) 0.
Proof.
  replace (gauss_expect (fun z => z) 0) with (gauss_expect (fun z => z) (0 - 0)) by (f_equal; ring).
  apply (gauss_expect_anti _ (fun z => - npdf z)).
  - intros x. eapply is_derive_eq. { apply (is_derive_opp npdf x). apply is_derive_npdf. } cbn. Req. ring.
  - intros x. apply (continuous_ext (fun z => z ^ 1 * npdf z)). { intros. Req. cbn. ring. } apply cont_pow_npdf.
  - replace (Finite 0) with (Rbar_opp 0) by (cbn; f_equal; ring). apply is_lim_opp.
    apply (is_lim_ext (fun b => b ^ 0 * npdf b)). { intros; cbn; ring. } now apply pow_npdf_lim; lia.
  - apply (is_lim_ext (fun b => - npdf b)). { intros; now rewrite npdf_even. }
    replace (Finite 0) with (Rbar_opp 0) by (cbn; f_equal; ring). apply is_lim_opp.
    apply (is_lim_ext (fun b => b ^ 0 * npdf b)). { intros; cbn; ring. } now apply pow_npdf_lim; lia.
Qed.

(** recursion E[z^(k+2)] = (k+1) E[z^k] for k <= 2 *)
Lemma gauss_zS (k : nat) v : (k <= 2)%nat -> gauss_expect (fun z => z ^ k) v -> gauss_expect (fun z => z ^ (S (S k))) (INR (S k) * v).
Proof.
  intros Hk [H1 H2].
  assert (D : forall x, is_derive (fun z => z ^ (S k) * npdf z) x (INR (S k) * (x ^ k * npdf x) - x ^ (S (S k)) * npdf x)).
  { intros x. eapply is_derive_eq.
    - apply (is_derive_mult (fun z => z ^ S k) npdf x (INR (S k) * x ^ k) (- x * npdf x)); [|apply is_derive_npdf|intros; apply Rmult_comm].
      eapply is_derive_eq. { apply (is_derive_pow (fun z => z) (S k) x 1). apply (is_derive_id x). } cbn [pred]. Req. ring.
    - Req. cbn [pow plus mult]. unfold plus, mult; cbn. ring. }
  assert (CI : forall b, is_RInt (fun z => z ^ (S (S k)) * npdf z) (- b) b
     (INR (S k) * RInt (fun z => z ^ k * npdf z) (- b) b - (b ^ (S k) * npdf b - (- b) ^ (S k) * npdf (- b)))).
  { intros b.
    apply (is_RInt_ext (fun z => minus (INR (S k) * (z ^ k * npdf z)) (INR (S k) * (z ^ k * npdf z) - z ^ (S (S k)) * npdf z))).
    { intros x _. Req. unfold minus, plus, opp; cbn. ring. }
    apply (is_RInt_minus (V := R_NormedModule)).
    - apply (is_RInt_scal (V := R_NormedModule) (fun z => z ^ k * npdf z)). apply (RInt_correct (V := R_CompleteNormedModule)). apply H1.
    - apply (is_RInt_derive (fun z => z ^ (S k) * npdf z)); intros; [apply D|].
      apply (continuous_ext (fun z => minus (scal (INR (S k)) (z ^ k * npdf z)) (z ^ (S (S k)) * npdf z))). { intros; reflexivity. }
      apply (continuous_minus (V := R_NormedModule)); [|apply cont_pow_npdf].
      apply (continuous_scal_r (V := R_NormedModule) (INR (S k)) (fun z => z ^ k * npdf z)). apply cont_pow_npdf. }
  apply (gauss_expect_of _ 0 (fun b => INR (S k) * RInt (fun z => z ^ k * npdf z) (- b) b - (b ^ (S k) * npdf b - (- b) ^ (S k) * npdf (- b)))).
  - intros b. eexists. apply CI.
  - intros b _. apply CI.
  - replace (Finite (INR (S k) * v)) with (Finite (INR (S k) * v - (0 - (-1) ^ S k * 0))) by (f_equal; ring).
    apply (is_lim_minus' _ _ p_infty (INR (S k) * v) (0 - (-1) ^ S k * 0)). { apply (is_lim_scal_l _ (INR (S k)) p_infty v). exact H2. }
    apply (is_lim_minus' _ _ p_infty 0 ((-1) ^ S k * 0)). { apply pow_npdf_lim. lia. }
    apply (is_lim_ext (fun b => (-1) ^ S k * (b ^ S k * npdf b))).
    { intros b. rewrite npdf_even. replace (- b) with (-1 * b) by ring. rewrite Rpow_mult_distr. ring. }
    apply (is_lim_scal_l _ ((-1) ^ S k) p_infty 0). apply pow_npdf_lim. lia.
Qed.
Lemma gauss_z0 : gauss_expect (fun z => z ^ 0) 1.
Proof. apply (gauss_expect_ext (fun _ => 1)). { intros; cbn; ring. } apply gauss_expect_const. Qed.
Lemma gauss_z2 : gauss_expect (fun z => z ^ 2) 1.
Proof. pose proof (gauss_zS 0 1 ltac:(lia) gauss_z0) as H. cbn [INR] in H. now rewrite Rmult_1_l in H. Qed.
Lemma gauss_z3 : gauss_expect (fun z => z ^ 3) 0.
Proof.
  pose proof (gauss_zS 1 0 ltac:(lia)) as H. rewrite Rmult_0_r in H. apply H.
  apply (gauss_expect_ext (fun z => z)). { intros; cbn; ring. } apply gauss_z1.
Qed.
Lemma gauss_z4 : gauss_expect (fun z => z ^ 4) 3.
Proof. pose proof (gauss_zS 2 1 ltac:(lia) gauss_z2) as H. cbn [INR] in H. replace ((1 + 1 + 1) * 1) with 3 in H by ring. exact H. Qed.

Lemma gauss_poly4 (a0 a1 a2 a3 a4 : R) :
  gauss_expect (fun z => a0 + a1 * z + a2 * z ^ 2 + a3 * z ^ 3 + a4 * z ^ 4) (a0 + a2 + 3 * a4).
Proof.
  replace (a0 + a2 + 3 * a4) with (a0 + a1 * 0 + a2 * 1 + a3 * 0 + a4 * 3) by ring.
  pose proof (gauss_expect_scal _ _ a1 gauss_z1) as H1. pose proof (gauss_expect_scal _ _ a2 gauss_z2) as H2.
  pose proof (gauss_expect_scal _ _ a3 gauss_z3) as H3. pose proof (gauss_expect_scal _ _ a4 gauss_z4) as H4.
  exact (gauss_expect_plus _ _ _ _ (gauss_expect_plus _ _ _ _ (gauss_expect_plus _ _ _ _ (gauss_expect_plus _ _ _ _ (gauss_expect_const a0) H1) H2) H3) H4).
Qed.
