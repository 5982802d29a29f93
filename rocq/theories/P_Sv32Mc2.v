(** 3/2 model: Bessel series and its order derivatives, mean and variance of the conditional average variance. *)
From Coq Require Import Reals Lra Lia List Arith Psatz.
From Coquelicot Require Import Coquelicot.
From Verif Require Import Base Sums Spec_Cev P_Gamma P_Gamma2 P_KlSum P_Digamma P_Ncx2 M_Mgf M_Heston M_Sv32Mc Spec_HestonMc P_HestonMc3 Spec_Sv32.
Open Scope R_scope.

Section B.
Variable Gam : R -> R.
Hypothesis HG : gamma_function Gam.
Lemma bterm_S nu z k : -1 < nu -> bessel_I_term Gam nu z (S k) = bessel_I_term Gam nu z k * ((z / 2) ^ 2 / ((INR k + 1) * (INR k + 1 + nu))).
Proof.
  intros Hn. unfold bessel_I_term. pose proof (pos_INR k). replace (INR (S k) + nu + 1) with (INR k + nu + 1 + 1) by (rewrite S_INR; ring).
  rewrite (Gam_succ Gam HG) by lra. pose proof (Gam_pos Gam HG (INR k + nu + 1) ltac:(lra)). rewrite fact_simpl, mult_INR, S_INR. pose proof (fact_pos k).
  replace (2 * S k)%nat with (2 * k + 2)%nat by lia. rewrite pow_add. field. repeat split; lra.
Qed.
Lemma ivc_loop_sum nu z : -1 < nu -> forall n k iv, ivc_loop nu ((z / 2) ^ 2) (INR k + 1) (bessel_I_term Gam nu z k) iv n =
  iv + rsum n (fun j => bessel_I_term Gam nu z (S k + j)).
Proof.
  intros Hn. induction n as [|n IH]; intros k iv; [cbn; ring|]. cbn [ivc_loop]. rewrite <- bterm_S by exact Hn. replace (INR k + 1 + 1) with (INR (S k) + 1) by (rewrite S_INR; ring).
  rewrite IH, rsum_shift, Nat.add_0_r. rewrite (rsum_ext n (fun j => bessel_I_term Gam nu z (S (S k) + j)) (fun j => bessel_I_term Gam nu z (S k + S j))); [ring|]. intros j _. f_equal. lia.
Qed.
Lemma bterm_0 nu z : bessel_I_term Gam nu z 0 = Rpower (/ 2 * z) nu / Gam (nu + 1).
Proof. unfold bessel_I_term. cbn [INR fact Nat.mul pow]. rewrite Rplus_0_l, !Rmult_1_r, Rmult_1_l. f_equal. f_equal. unfold Rdiv. ring. Qed.
Lemma iv_complex_sum n nu z : -1 < nu -> iv_complex Gam n nu z = rsum (S n) (bessel_I_term Gam nu z).
Proof.
  intros Hn. unfold iv_complex. rewrite <- bterm_0. replace 1 with (INR 0 + 1) at 1 by (cbn; ring). rewrite ivc_loop_sum by exact Hn. rewrite rsum_shift. f_equal.
Qed.
Lemma iv_complex_lim nu z : -1 < nu -> is_lim_seq (fun n => iv_complex Gam n nu z) (bessel_I Gam nu z).
Proof.
  intros Hn. apply (is_lim_seq_ext (fun n => rsum (S n) (bessel_I_term Gam nu z))); [intros n; symmetry; now apply iv_complex_sum|].
  apply (is_lim_seq_incr_1 (fun n => rsum n (bessel_I_term Gam nu z))). apply series_rsum. rewrite (bI_eq Gam HG) by exact Hn. now apply bI_series.
Qed.
Lemma iv_complex_below n nu z : -1 < nu -> 0 < z -> 0 < iv_complex Gam n nu z < bessel_I Gam nu z.
Proof.
  intros Hn Hz. assert (P : forall k, 0 < bessel_I_term Gam nu z k).
  { intros k. unfold bessel_I_term. pose proof (pos_INR k). apply Rdiv_lt_0_compat; [apply Rmult_lt_0_compat; [apply exp_pos|apply pow_lt; lra]|apply Rmult_lt_0_compat; [apply fact_pos|apply (Gam_pos Gam HG); lra]]. }
  rewrite iv_complex_sum by exact Hn. split; [apply rsum_pos; [lia|intros; apply P]|].
  apply Rlt_le_trans with (rsum (S (S n)) (bessel_I_term Gam nu z)). { cbn [rsum]. pose proof (P (S n)). lra. }
  assert (L : is_lim_seq (fun k => rsum k (bessel_I_term Gam nu z)) (bessel_I Gam nu z)). { apply series_rsum. rewrite (bI_eq Gam HG) by exact Hn. now apply bI_series. }
  apply (is_lim_seq_incr_compare (fun k => rsum k (bessel_I_term Gam nu z)) _ L). intros k. cbn [rsum]. pose proof (P k). lra.
Qed.

Variables psi psi1 : R -> R.
Hypothesis Hpsi : digamma_of Gam psi.
Hypothesis Hpsi1 : trigamma_of psi psi1.
Lemma psi_succ x : 0 < x -> psi (x + 1) = psi x + / x.
Proof.
  intros Hx. assert (D1 : is_derive (fun y => ln (Gam (y + 1))) x (psi (x + 1))).
  { assert (DI : is_derive (fun y : R => y + 1) x 1) by (auto_derive; [exact I|ring]).
    pose proof (is_derive_comp (fun y => ln (Gam y)) (fun y => y + 1) x _ _ (Hpsi (x + 1) ltac:(lra)) DI) as C. unfold scal in C; cbn in C. unfold mult in C; cbn in C. now rewrite Rmult_1_l in C. }
  assert (D2 : is_derive (fun y => ln (Gam (y + 1))) x (/ x + psi x)).
  { apply (is_derive_ext_loc (fun y => ln y + ln (Gam y))).
    - exists (mkposreal x Hx). intros y Hy. change (Rabs (y - x) < x) in Hy. apply Rabs_def2 in Hy. rewrite (Gam_succ Gam HG) by lra. rewrite ln_mult; [reflexivity|lra|apply (Gam_pos Gam HG); lra].
    - apply is_derive_plus_R; [|now apply Hpsi]. auto_derive; [exact Hx|]. field. lra. }
  apply is_derive_unique in D1. apply is_derive_unique in D2. lra.
Qed.
Lemma psi1_succ x : 0 < x -> psi1 (x + 1) = psi1 x - 1 / x ^ 2.
Proof.
  intros Hx. assert (D1 : is_derive (fun y => psi (y + 1)) x (psi1 (x + 1))).
  { assert (DI : is_derive (fun y : R => y + 1) x 1) by (auto_derive; [exact I|ring]).
    pose proof (is_derive_comp psi (fun y => y + 1) x _ _ (Hpsi1 (x + 1) ltac:(lra)) DI) as C. unfold scal in C; cbn in C. unfold mult in C; cbn in C. now rewrite Rmult_1_l in C. }
  assert (D2 : is_derive (fun y => psi (y + 1)) x (psi1 x + - (1 / x ^ 2))).
  { apply (is_derive_ext_loc (fun y => psi y + / y)).
    - exists (mkposreal x Hx). intros y Hy. change (Rabs (y - x) < x) in Hy. apply Rabs_def2 in Hy. rewrite psi_succ by lra. reflexivity.
    - apply is_derive_plus_R; [now apply Hpsi1|]. auto_derive; [lra|]. Req. field. lra. }
  apply is_derive_unique in D1. apply is_derive_unique in D2. lra.
Qed.
(** order derivatives of a term *)
Definition lmp (z y : R) (k : nat) : R := ln (z / 2) - psi (INR k + y + 1).
Lemma bterm_d1 z k nu : 0 < z -> -1 < nu -> is_derive (fun y => bessel_I_term Gam y z k) nu (lmp z nu k * bessel_I_term Gam nu z k).
Proof.
  intros Hz Hn. pose proof (pos_INR k). set (c := ln (z / 2)).
  assert (E : forall y, -1 < y -> bessel_I_term Gam y z k = (z / 2) ^ (2 * k) / INR (fact k) * exp (y * c - ln (Gam (INR k + y + 1)))).
  { intros y Hy. unfold bessel_I_term, Rpower. fold c. pose proof (Gam_pos Gam HG (INR k + y + 1) ltac:(lra)). unfold Rminus. rewrite exp_plus, exp_Ropp, exp_ln by assumption. field. split; [lra|apply Rgt_not_eq, fact_pos]. }
  assert (D0 : is_derive (fun y => ln (Gam (INR k + y + 1))) nu (psi (INR k + nu + 1))).
  { assert (DI : is_derive (fun y : R => INR k + y + 1) nu 1) by (auto_derive; [exact I|ring]).
    pose proof (is_derive_comp (fun y => ln (Gam y)) (fun y => INR k + y + 1) nu _ _ (Hpsi (INR k + nu + 1) ltac:(lra)) DI) as C. unfold scal in C; cbn -[INR] in C. unfold mult in C; cbn -[INR] in C. now rewrite Rmult_1_l in C. }
  apply (is_derive_ext_loc (fun y => (z / 2) ^ (2 * k) / INR (fact k) * exp (y * c - ln (Gam (INR k + y + 1))))).
  { assert (Hr : 0 < nu + 1) by lra. exists (mkposreal _ Hr). intros y Hy. change (Rabs (y - nu) < nu + 1) in Hy. apply Rabs_def2 in Hy. symmetry. apply E. lra. }
  rewrite E by exact Hn. eapply is_derive_eq.
  - apply is_derive_scal_R. apply (is_derive_comp exp (fun y => y * c - ln (Gam (INR k + y + 1)))); [apply is_derive_exp|]. apply is_derive_minus_R; [|exact D0]. instantiate (1 := c). auto_derive; [exact I|ring].
  - unfold scal, mult; cbn -[INR]. unfold mult; cbn -[INR]. unfold lmp. fold c. ring.
Qed.
Lemma lmp_d z k nu : -1 < nu -> is_derive (fun y => lmp z y k) nu (- psi1 (INR k + nu + 1)).
Proof.
  intros Hn. pose proof (pos_INR k). unfold lmp. assert (DI : is_derive (fun y : R => INR k + y + 1) nu 1) by (auto_derive; [exact I|ring]).
  pose proof (is_derive_comp psi (fun y => INR k + y + 1) nu _ _ (Hpsi1 (INR k + nu + 1) ltac:(lra)) DI) as C. unfold scal in C; cbn -[INR] in C. unfold mult in C; cbn -[INR] in C. rewrite Rmult_1_l in C.
  eapply is_derive_eq; [apply is_derive_minus_R; [apply (is_derive_const (K := R_AbsRing) (V := R_NormedModule))|exact C]|]. unfold zero; cbn -[INR]. ring.
Qed.
Lemma bterm_d2 z k nu : 0 < z -> -1 < nu ->
  is_derive (fun y => lmp z y k * bessel_I_term Gam y z k) nu ((lmp z nu k ^ 2 - psi1 (INR k + nu + 1)) * bessel_I_term Gam nu z k).
Proof.
  intros Hz Hn. eapply is_derive_eq; [apply is_derive_mult_R; [now apply lmp_d|now apply bterm_d1]|]. cbv beta. Req. ring.
Qed.
Lemma ivd_loop_sum nu z : -1 < nu -> forall n k iv1 iv2, ivd_loop nu ((z / 2) ^ 2) (INR k + 1) (bessel_I_term Gam nu z k) (lmp z nu k) (psi1 (INR k + nu + 1)) iv1 iv2 n =
  (iv1 + rsum n (fun j => lmp z nu (S k + j) * bessel_I_term Gam nu z (S k + j)),
   iv2 + rsum n (fun j => (lmp z nu (S k + j) ^ 2 - psi1 (INR (S k + j) + nu + 1)) * bessel_I_term Gam nu z (S k + j))).
Proof.
  intros Hn. induction n as [|n IH]; intros k iv1 iv2; [cbn; f_equal; ring|]. cbn [ivd_loop]. rewrite <- bterm_S by exact Hn. replace (INR k + 1 + 1) with (INR (S k) + 1) by (rewrite S_INR; ring).
  pose proof (pos_INR k). assert (EP : INR (S k) + nu + 1 = INR k + nu + 1 + 1) by (rewrite S_INR; ring).
  replace (lmp z nu k - 1 / (nu + (INR k + 1))) with (lmp z nu (S k)). 2: { unfold lmp. rewrite EP, psi_succ by lra. replace (INR k + nu + 1) with (nu + (INR k + 1)) by ring. unfold Rdiv. ring. }
  replace (psi1 (INR k + nu + 1) - 1 / (nu + (INR k + 1)) ^ 2) with (psi1 (INR (S k) + nu + 1)). 2: { rewrite EP, psi1_succ by lra. f_equal. f_equal. f_equal. ring. }
  rewrite IH, !rsum_shift, !Nat.add_0_r. f_equal.
  - rewrite (rsum_ext n (fun j => lmp z nu (S (S k) + j) * bessel_I_term Gam nu z (S (S k) + j)) (fun j => lmp z nu (S k + S j) * bessel_I_term Gam nu z (S k + S j))); [ring|]. intros j _. now replace (S (S k) + j)%nat with (S k + S j)%nat by lia.
  - rewrite (rsum_ext n (fun j => (lmp z nu (S (S k) + j) ^ 2 - psi1 (INR (S (S k) + j) + nu + 1)) * bessel_I_term Gam nu z (S (S k) + j)) (fun j => (lmp z nu (S k + S j) ^ 2 - psi1 (INR (S k + S j) + nu + 1)) * bessel_I_term Gam nu z (S k + S j))); [ring|]. intros j _. now replace (S (S k) + j)%nat with (S k + S j)%nat by lia.
Qed.
Lemma iv_d12_sum n nu z : -1 < nu -> iv_d12 Gam psi psi1 n nu z =
  (rsum (S n) (fun k => lmp z nu k * bessel_I_term Gam nu z k), rsum (S n) (fun k => (lmp z nu k ^ 2 - psi1 (INR k + nu + 1)) * bessel_I_term Gam nu z k)).
Proof.
  intros Hn. unfold iv_d12. replace (Rpower (z / 2) nu / Gam (nu + 1)) with (bessel_I_term Gam nu z 0) by (rewrite bterm_0; do 2 f_equal; unfold Rdiv; ring).
  replace (ln (z / 2) - psi (nu + 1)) with (lmp z nu 0) by (unfold lmp; cbn [INR]; do 2 f_equal; ring). replace (psi1 (nu + 1)) with (psi1 (INR 0 + nu + 1)) by (cbn [INR]; f_equal; ring).
  replace 1 with (INR 0 + 1) at 1 by (cbn; ring). cbv zeta. rewrite ivd_loop_sum by exact Hn. rewrite !rsum_shift. f_equal; f_equal.
Qed.
Lemma iv_d12_derive n nu z : -1 < nu -> 0 < z ->
  is_derive (fun y => iv_complex Gam n y z) nu (fst (iv_d12 Gam psi psi1 n nu z)) /\
  is_derive (fun y => fst (iv_d12 Gam psi psi1 n y z)) nu (snd (iv_d12 Gam psi psi1 n nu z)).
Proof.
  intros Hn Hz. rewrite iv_d12_sum by exact Hn. cbn [fst snd]. assert (Hr : 0 < nu + 1) by lra. split.
  - apply (is_derive_ext_loc (fun y => rsum (S n) (bessel_I_term Gam y z))).
    { exists (mkposreal _ Hr). intros y Hy. change (Rabs (y - nu) < nu + 1) in Hy. apply Rabs_def2 in Hy. symmetry. apply iv_complex_sum. lra. }
    apply (rsum_derive (S n) (fun k y => bessel_I_term Gam y z k)). intros k _. now apply bterm_d1.
  - apply (is_derive_ext_loc (fun y => rsum (S n) (fun k => lmp z y k * bessel_I_term Gam y z k))).
    { exists (mkposreal _ Hr). intros y Hy. change (Rabs (y - nu) < nu + 1) in Hy. apply Rabs_def2 in Hy. rewrite iv_d12_sum by lra. reflexivity. }
    apply (rsum_derive (S n) (fun k y => lmp z y k * bessel_I_term Gam y z k)). intros k _. now apply bterm_d2.
Qed.
End B.
