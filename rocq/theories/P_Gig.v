(** DistGig.mvsk is the law's own mean, scaled variance, skewness and excess kurtosis. *)
From Coq Require Import Reals Lra Lia List Psatz Bool.
From Coquelicot Require Import Coquelicot.
From Verif Require Import Base Gauss Sums M_Opt M_Dist Spec_Expect Spec_Misc Spec_Dist P_Half P_Gmom2 P_Dist P_Dist2 P_Dist3 P_Dist4 P_Dist5.
Open Scope R_scope.

Lemma half_line_nonneg f v : (forall x, 0 < x -> 0 <= f x) -> half_line f v -> 0 <= v.
Proof.
  intros Hf H. destruct (Rle_dec 0 v) as [|N]; [assumption|exfalso]. apply Rnot_le_lt in N.
  assert (L : locally v (fun y => y < 0)) by (exists (mkposreal (- v) ltac:(lra)); intros y Hy; unfold ball in Hy; cbn in Hy; unfold AbsRing_ball, abs, minus, plus, opp in Hy; cbn in Hy; apply Rabs_def2 in Hy; lra).
  specialize (H _ L). destruct H as [Q1 Q2 H1 H2 H].
  assert (P1 : at_right 0 (fun a => Q1 a /\ 0 < a < 1)).
  { apply filter_and; [exact H1|]. exists (mkposreal 1 Rlt_0_1). intros y Hy Hp. cbn in Hy. unfold ball in Hy; cbn in Hy. unfold AbsRing_ball, abs, minus, plus, opp in Hy; cbn in Hy. apply Rabs_def2 in Hy. lra. }
  assert (P2 : Rbar_locally p_infty (fun b => Q2 b /\ 1 < b)). { apply filter_and; [exact H2|]. exists 1. tauto. }
  destruct (filter_ex _ P1) as (a & A1 & A2). destruct (filter_ex _ P2) as (b & B1 & B2).
  destruct (H a b A1 B1) as (y & Hy & Ly). cbn in Hy.
  assert (0 <= y); [|lra]. apply (is_RInt_le (fun _ => 0) f a b 0 y); [lra| |exact Hy|intros; apply Hf; lra].
  pose proof (is_RInt_const (V := R_NormedModule) a b 0) as C. assert (E : scal (K := R_AbsRing) (V := R_NormedModule) (b - a) 0 = 0) by (unfold scal; cbn; unfold mult; cbn; ring). exact (eq_ind _ (fun z => is_RInt (fun _ => 0) a b z) C _ E).
Qed.
Lemma density_var dens m1 m2 : is_density dens -> pos_expect dens (fun x => x) m1 -> pos_expect dens (fun x => x ^ 2) m2 -> 0 <= var_of_raw m1 m2.
Proof.
  intros [D0 D1] H1 H2. unfold var_of_raw. apply (half_line_nonneg (fun x => (x - m1) ^ 2 * dens x)).
  - intros x Hx. apply Rmult_le_pos; [apply pow2_ge_0|now apply D0].
  - replace (m2 - m1 ^ 2) with (m2 + (- (2 * m1) * m1 + m1 ^ 2 * 1)) by ring.
    eapply half_line_ext; [|exact (half_line_plus _ _ _ _ H2 (half_line_plus _ _ _ _ (half_line_scal _ _ (- (2 * m1)) H1) (half_line_scal _ _ (m1 ^ 2) D1)))].
    intros x Hx. cbv beta. ring.
Qed.
Lemma gig_mvsk_true kve gm dl p : 0 < gm -> 0 < dl -> let q := gm * dl in 0 < kve p q ->
  (forall r : nat, (r <= 4)%nat -> bessel_K (p + INR r) q (kve (p + INR r) q * exp (- q))) ->
  let dens := gig_density gm dl p (kve p q * exp (- q)) in
  is_density dens /\ exists m1 m2 m3 m4, pos_expect dens (fun x => x) m1 /\ pos_expect dens (fun x => x ^ 2) m2 /\ pos_expect dens (fun x => x ^ 3) m3 /\ pos_expect dens (fun x => x ^ 4) m4 /\
  gig_mvsk kve (mkGig gm dl p) = (m1, var_of_raw m1 m2 / m1 ^ 2, skew_of_raw m1 m2 m3, exkurt_of_raw m1 m2 m3 m4).
Proof.
  intros Hg Hd q Hk HB dens. assert (B0 : bessel_K p q (kve p q * exp (- q))). { pose proof (HB 0%nat ltac:(lia)) as B. cbn [INR] in B. rewrite Rplus_0_r in B. exact B. }
  pose proof (gig_is_density gm dl p Hg Hd kve Hk B0) as D. split; [exact D|].
  assert (M : forall r : nat, (r <= 4)%nat -> pos_expect dens (fun x => x ^ r) (gig_mnc kve (mkGig gm dl p) r)).
  { intros r Hr. exact (gig_moment gm dl p Hg Hd kve Hk r B0 (HB r Hr)). }
  assert (M1 : pos_expect dens (fun x => x) (gig_mnc kve (mkGig gm dl p) 1)). { eapply half_line_ext; [|exact (M 1%nat ltac:(lia))]. intros. cbv beta. now rewrite pow_1. }
  pose proof (M 2%nat ltac:(lia)) as M2. pose proof (M 3%nat ltac:(lia)) as M3. pose proof (M 4%nat ltac:(lia)) as M4.
  do 4 eexists. split; [exact M1|]. split; [exact M2|]. split; [exact M3|]. split; [exact M4|].
  pose proof (density_var _ _ _ D M1 M2) as V. unfold gig_mvsk. cbv zeta. unfold skew_of_raw, exkurt_of_raw. rewrite <- (sqrt_cube _ V). unfold var_of_raw in *.
  set (a1 := gig_mnc _ _ 1) in *. set (a2 := gig_mnc _ _ 2) in *. set (a3 := gig_mnc _ _ 3). set (a4 := gig_mnc _ _ 4). clearbody a1 a2 a3 a4.
  apply (f_equal2 pair); [apply (f_equal2 pair); [reflexivity|]|]; unfold Rdiv; [f_equal; ring|do 2 f_equal; ring].
Qed.
(** an instance: p = -1/2, where the Bessel functions of half-integer order are the inverse Gaussian moments *)
Definition kve_half (s q : R) : R := / sqrt (2 / PI) * pmean (fst (igpoly (/ 2) (Z.to_nat (up s)))).
Lemma up_half r : Z.to_nat (up (- / 2 + INR r)) = r.
Proof. rewrite <- (tech_up (- / 2 + INR r) (Z.of_nat r)); [apply Nat2Z.id| |]; rewrite <- INR_IZR_INZ; lra. Qed.
Lemma kve_half_ok r : bessel_K (- / 2 + INR r) 1 (kve_half (- / 2 + INR r) 1 * exp (- (1))).
Proof.
  unfold kve_half. rewrite up_half. pose proof (ig_moment 1 1 Rlt_0_1 Rlt_0_1 r) as H. unfold pos_expect in H. replace (/ 2 * 1 / 1) with (/ 2) in H by field. rewrite pow1, Rmult_1_l in H.
  unfold bessel_K in *. pose proof (half_line_scal _ _ (/ sqrt (2 / PI) * exp (- (1))) H) as G.
  replace (/ sqrt (2 / PI) * pmean (fst (igpoly (/ 2) r)) * exp (- (1))) with (/ sqrt (2 / PI) * exp (- (1)) * pmean (fst (igpoly (/ 2) r))) by ring.
  eapply half_line_ext; [|exact G]. intros x Hx. cbv beta.
  pose proof (gig_reweight 1 1 (- / 2 + INR r) Rlt_0_1 Rlt_0_1 (fun _ _ => 1) Rlt_0_1 x Hx) as W. cbv beta in W. unfold gig_density, gig_ratio in W. rewrite Rmult_1_r in W.
  replace (1 / 1) with 1 in W by field. replace (- / 2 + INR r + / 2) with (INR r) in W by ring. rewrite Rpower_pow in W by exact Hx.
  assert (E1 : Rpower 1 (- / 2 + INR r) = 1). { unfold Rpower. rewrite ln_1, Rmult_0_r. apply exp_0. } rewrite E1 in W. rewrite pow1 in W.
  replace (- (1 * x + 1 / x) / 2) with (- (1) * (x + / x) / 2) in W by (field; lra).
  pose proof (exp_pos (- (1))) as Ep. assert (Sp : 0 < sqrt (2 / PI)) by (apply sqrt_lt_R0, Rdiv_lt_0_compat; [lra|apply PI_RGT_0]).
  set (A := Rpower x (- / 2 + INR r - 1) * exp (- (1) * (x + / x) / 2)). set (I := ig_density 1 1 x) in *.
  assert (W' : / 2 * A = exp (- (1)) * (1 / (2 * (1 * exp (- (1)))) * Rpower x (- / 2 + INR r - 1) * exp (- (1) * (x + / x) / 2))). { unfold A. field. lra. }
  rewrite W in W'. transitivity (/ 2 * A); [|unfold A; ring]. rewrite W'. field. lra.
Qed.
Lemma kve_half_pos : 0 < kve_half (- / 2) 1.
Proof.
  pose proof (up_half 0) as U. cbn [INR] in U. rewrite Rplus_0_r in U. unfold kve_half. rewrite U. cbn [igpoly fst pmean]. 
  assert (Sp : 0 < sqrt (2 / PI)) by (apply sqrt_lt_R0, Rdiv_lt_0_compat; [lra|apply PI_RGT_0]). apply Rinv_0_lt_compat in Sp. cbn. lra.
Qed.
