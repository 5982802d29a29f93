(** r = q, central moments, pricers *)
From Coq Require Import Reals Lra Lia Psatz List Arith.
From Coquelicot Require Import Coquelicot.
From Verif Require Import Base Gauss Sums Spec_Opt Spec_Expect M_Opt M_Heston M_Fd M_Sabr M_Asian Spec_Asian P_Bsm P_Nsvh P_Asian P_Asian2 P_Asian3.
Import ListNotations.
Open Scope R_scope.

Section Zero.
Variables (s T : R).
Hypotheses (Hs : 0 < s) (HT : 0 < T).
Definition Mz (m k : nat) (t : R) : R :=
  match m, k with
  | O, k => exp (mS 0 s k * t)
  | 1%nat, O => t
  | 1%nat, 1%nat => (exp (s ^ 2 * t) - 1) / s ^ 2
  | 2%nat, O => 2 * ((exp (s ^ 2 * t) - 1) / s ^ 2 - t) / s ^ 2
  | _, _ => 0
  end.
Lemma asian_zero n : (n <= 2)%nat -> asian_moment 0 s T n (Mz n 0 T / T ^ n).
Proof using Hs HT.
  intros Hn. assert (0 < s ^ 2) as H2 by (apply pow_lt; exact Hs).
  apply (asian_moment_lim 0 s T Hs HT Mz (fun m k => (m + k <= 2)%nat)); [..|lia].
  - reflexivity.
  - intros [|[|m]] [|[|k]] H; try lia; cbn [Mz]; rewrite ?Rmult_0_r; try rewrite exp_0; try reflexivity; field; lra.
  - intros [|[|m]] [|[|k]] t H; try lia; cbn [Mz]; unfold mS; cbn [INR].
    + eapply is_derive_eq; [apply is_derive_id|]. unfold one; cbn. Req.
      match goal with |- context [exp ?e] => replace e with 0 by field end. rewrite exp_0. field.
    + change (Mz 1 1) with (fun t : R => (exp (s ^ 2 * t) - 1) / s ^ 2). auto_derive; [lra|]. Req. replace (((1 + 1) * 0 + (1 + 1) * (1 + 1 - 1) / 2 * s ^ 2) * t) with (s ^ 2 * t) by field.
      replace (s * (s * 1) * t) with (s ^ 2 * t) by ring. generalize (exp (s ^ 2 * t)). intros. field. lra.
    + change (Mz 2 0) with (fun t : R => 2 * ((exp (s ^ 2 * t) - 1) / s ^ 2 - t) / s ^ 2). auto_derive; [lra|]. Req. replace (s * (s * 1) * t) with (s ^ 2 * t) by ring. generalize (exp (s ^ 2 * t)). intros. field. lra.
  - intros m k H. lia.
Qed.
End Zero.

Lemma mean_any (m : opt) T : 0 < sigma m -> 0 < T -> asian_moment (intr m - divr m) (sigma m) T 1 (exprel ((intr m - divr m) * T)).
Proof.
  intros Hs HT. destruct (Req_dec (mnc_p m) 0) as [E|N].
  - assert (intr m - divr m = 0) as E0. { unfold mnc_p in E. assert (0 < sigma m ^ 2) by (apply pow_lt; exact Hs).
      replace (intr m - divr m) with (2 * (intr m - divr m) / sigma m ^ 2 * (sigma m ^ 2 / 2)) by (field; lra). rewrite E. ring. }
    rewrite E0, Rmult_0_l, exprel_z. pose proof (asian_zero (sigma m) T Hs HT 1 ltac:(lia)) as H. cbn [Mz] in H.
    replace (T / T ^ 1) with 1 in H by (field; lra). exact H.
  - pose proof (mnc_moment m T Hs HT 1) as H. rewrite mnc1 in H by assumption. apply H.
    intros k Hk. assert (k = 0%nat) as -> by lia. cbn [INR]. lra.
Qed.
(** the second moment, r = q included *)
Definition m2_all (m : opt) (T : R) : R :=
  if Req_EM_T (mnc_p m) 0 then Mz (sigma m) 2 0 T / T ^ 2 else snd (fst (fst (asian_mnc4 m T))).
Lemma second_any (m : opt) T : 0 < sigma m -> 0 < T -> mnc_p m + 1 <> 0 -> mnc_p m + 2 <> 0 ->
  asian_moment (intr m - divr m) (sigma m) T 2 (m2_all m T).
Proof.
  intros Hs HT H1 H2. unfold m2_all. destruct (Req_EM_T (mnc_p m) 0) as [E|N].
  - assert (intr m - divr m = 0) as E0. { unfold mnc_p in E. assert (0 < sigma m ^ 2) by (apply pow_lt; exact Hs).
      replace (intr m - divr m) with (2 * (intr m - divr m) / sigma m ^ 2 * (sigma m ^ 2 / 2)) by (field; lra). rewrite E. ring. }
    rewrite E0. apply asian_zero; [assumption|assumption|lia].
  - pose proof (mnc_moment m T Hs HT 2) as H. rewrite mnc2 in H by assumption. apply H.
    intros k Hk. destruct k as [|[|[|k]]]; try lia; cbn [INR]; lra.
Qed.
(** exact variance *)
Definition mu2_exact (m : opt) (T : R) : R :=
  let v := sigma m ^ 2 * T in let p := mnc_p m in
  let m1 := exprel ((intr m - divr m) * T) in let bb := exprel v in
  (4 * ((bb - m1) / v) + 4 * p * m1 * bb + m1 ^ 2 * (p ^ 2 * bb * v - 3 * p - 2)) / ((p + 1) * (p + 2)).
Lemma mu2_exact_eq (m : opt) T : 0 < sigma m -> 0 < T -> mnc_p m + 1 <> 0 -> mnc_p m + 2 <> 0 ->
  mu2_exact m T = m2_all m T - exprel ((intr m - divr m) * T) ^ 2.
Proof.
  intros Hs HT H1 H2. assert (0 < sigma m ^ 2) as Hs2 by (apply pow_lt; exact Hs).
  assert (0 < sigma m ^ 2 * T) as Hv by (apply Rmult_lt_0_compat; assumption).
  assert (intr m - divr m = mnc_p m * sigma m ^ 2 / 2) as Eg by (unfold mnc_p; field; lra).
  unfold mu2_exact, m2_all. destruct (Req_EM_T (mnc_p m) 0) as [E|N].
  - rewrite Eg, E. replace (0 * sigma m ^ 2 / 2 * T) with 0 by field. rewrite exprel_z, exprel_nz by lra. cbn [Mz].
    generalize (exp (sigma m ^ 2 * T)). intros B. revert Hs2. generalize (sigma m ^ 2). intros s2 Hs2. field. repeat split; lra.
  - rewrite exprel_nz with (x := sigma m ^ 2 * T) by lra.
    rewrite exprel_nz by (rewrite Eg; assert (mnc_p m * (sigma m ^ 2 * T) <> 0) by (apply Rmult_integral_contrapositive; split; lra); lra).
    unfold asian_mnc4. cbn [fst snd]. replace ((intr m - divr m) * T) with (mnc_p m * (sigma m ^ 2 * T) / 2) by (rewrite Eg; field).
    generalize (exp (mnc_p m * (sigma m ^ 2 * T) / 2)) (exp (sigma m ^ 2 * T)). intros A B.
    revert Hv. generalize (sigma m ^ 2 * T). revert N H1 H2. generalize (mnc_p m). clear. intros p N H1 H2 v Hv. field. repeat split; lra.
Qed.
(** ** JSU price *)
Lemma jsu_parity fit (m : opt) K S T : asian_jsu_price fit m K S T 1 - asian_jsu_price fit m K S T (-1) =
  exp (- T * intr m) * (DF (intr m) T * (FWD (intr m) (divr m) (is_fwd m) (fst (fst (fst (asian_mvsk m T))) * S) T - K)).
Proof.
  unfold asian_jsu_price. destruct (asian_mvsk m T) as [[[mu0 vs] sk] ku]. cbn [fst snd]. rewrite <- Rmult_minus_distr_l. rewrite nsvh1_parity. reflexivity.
Qed.
Lemma jsu_mean (m : opt) T : fst (fst (fst (asian_mvsk m T))) = exprel ((intr m - divr m) * T).
Proof. unfold asian_mvsk, asian_mnc4. destruct (asian_mu34 m T). reflexivity. Qed.

(** ** Linetsky *)
Lemma linetsky_parity P (m : opt) K S T : is_fwd m = false -> linetsky_price P m K S T 1 - linetsky_price P m K S T (-1) =
  DF (intr m) T * (S * (if Rlt_dec (Rabs ((intr m - divr m) * T)) (/ 10 ^ 8) then 1 + (intr m - divr m) * T / 2 else exprel ((intr m - divr m) * T)) - K).
Proof.
  intros Hf. unfold linetsky_price. rewrite fdd_eq, Hf.
  destruct (Rlt_dec 0 1); [|lra]. destruct (Rlt_dec 0 (-1)); [lra|].
  set (x := (intr m - divr m) * T). change (mD m T) with (DF (intr m) T).
  destruct (Rlt_dec (Rabs x) (/ 10 ^ 8)) as [L|L].
  - ring.
  - assert (x <> 0) as Hx. { intros E. apply L. rewrite E, Rabs_R0. apply Rinv_0_lt_compat, pow_lt; lra. }
    rewrite exprel_nz by exact Hx.
    replace (exp (- (divr m * T)) / DF (intr m) T) with (exp x).
    2:{ unfold DF, x. unfold Rdiv. rewrite <- exp_Ropp, <- exp_plus. f_equal. ring. }
    ring.
Qed.
Lemma exp_m1_le (d : R) : Rabs d <= / 2 -> Rabs (exp d - 1) <= 2 * Rabs d.
Proof.
  intros Hd1. pose proof (exp_ineq1_le d). pose proof (exp_pos d). apply Rabs_le_between in Hd1.
  destruct (Rle_dec 0 d).
  - rewrite !Rabs_right by lra. assert (exp d <= 1 + 2 * d); [|lra].
    assert (exp (d / 2) * (1 - d / 2) <= 1) as Hh2.
    { pose proof (exp_ineq1_le (- (d / 2))). pose proof (exp_pos (d / 2)). rewrite exp_Ropp in H1.
      apply (Rmult_le_compat_l (exp (d / 2))) in H1; [|lra]. rewrite Rinv_r in H1 by lra. lra. }
    assert (exp d = exp (d / 2) * exp (d / 2)) as Es by (rewrite <- exp_plus; f_equal; field).
    rewrite Es. pose proof (exp_pos (d / 2)). generalize dependent (exp (d / 2)). intros e He _ He0.
    assert (e * e * ((1 - d / 2) * (1 - d / 2)) <= 1).
    { replace (e * e * ((1 - d / 2) * (1 - d / 2))) with ((e * (1 - d / 2)) * (e * (1 - d / 2))) by ring.
      rewrite <- (Rmult_1_l 1). apply Rmult_le_compat; try lra; apply Rmult_le_pos; lra. }
    assert (1 <= (1 + 2 * d) * ((1 - d / 2) * (1 - d / 2))).
    { replace ((1 + 2 * d) * ((1 - d / 2) * (1 - d / 2))) with (1 + d * (1 - 7 / 4 * d + d * d / 2)) by field. assert (0 <= d * (1 - 7 / 4 * d + d * d / 2)) by (apply Rmult_le_pos; nra). lra. }
    apply (Rmult_le_reg_r ((1 - d / 2) * (1 - d / 2))); [apply Rmult_lt_0_compat; lra|lra].
  - rewrite (Rabs_left1 d) by lra. rewrite Rabs_left1; [lra|]. assert (exp d <= 1) by (rewrite <- exp_0; apply exp_le; lra). lra.
Qed.
Lemma exprel_taylor (x : R) : Rabs x <= / 2 -> Rabs (exprel x - (1 + x / 2)) <= 2 * x ^ 2.
Proof.
  intros Hx. destruct (Req_dec x 0) as [->|N].
  - rewrite exprel_z. replace (1 - (1 + 0 / 2)) with 0 by field. rewrite Rabs_R0. simpl. lra.
  - rewrite exprel_nz by exact N.
    destruct (MVT_gen (fun y => exp y - 1 - y - y ^ 2 / 2) 0 x (fun y => exp y - 1 - y)) as (c & Hc & E).
    + intros. auto_derive; [trivial|]. field.
    + intros; apply continuity_pt_filterlim. apply (ex_derive_continuous (fun y => exp y - 1 - y - y ^ 2 / 2)). auto_derive. trivial.
    + cbv beta in E. rewrite exp_0 in E.
      assert (Rabs c <= Rabs x) as Hcx.
      { unfold Rmin, Rmax in Hc. destruct (Rle_dec 0 x); [rewrite !Rabs_right by lra; lra|]. rewrite !Rabs_left1 by lra. lra. }
      destruct (MVT_gen (fun y => exp y - 1 - y) 0 c (fun y => exp y - 1)) as (d & Hd & E2).
      * intros. auto_derive; [trivial|]. ring.
      * intros; apply continuity_pt_filterlim. apply (ex_derive_continuous (fun y => exp y - 1 - y)). auto_derive. trivial.
      * cbv beta in E2. rewrite exp_0 in E2.
        assert (Rabs d <= Rabs c) as Hdc.
        { unfold Rmin, Rmax in Hd. destruct (Rle_dec 0 c); [rewrite !Rabs_right by lra; lra|]. rewrite !Rabs_left1 by lra. lra. }
        replace ((exp x - 1) / x - (1 + x / 2)) with ((exp d - 1) * c).
        2:{ replace ((exp d - 1) * c) with (exp c - 1 - c) by lra.
            apply (Rmult_eq_reg_r x); [|exact N]. replace (((exp x - 1) / x - (1 + x / 2)) * x) with (exp x - 1 - x - x ^ 2 / 2) by (field; exact N). lra. }
        rewrite Rabs_mult, <- (pow2_abs x).
        apply Rle_trans with (2 * Rabs d * Rabs c); [apply Rmult_le_compat_r; [apply Rabs_pos|apply exp_m1_le; lra]|].
        pose proof (Rabs_pos d). pose proof (Rabs_pos c). simpl. nra.
Qed.
