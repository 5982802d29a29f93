(** Pricers: refutations and the statements assembled for Props_Asian *)
From Coq Require Import Reals Lra Lia Psatz List Arith ZArith.
From Coquelicot Require Import Coquelicot.
From Verif Require Import Base Gauss Sums Spec_Opt Spec_Expect M_Opt M_Heston M_Fd M_Sabr M_Asian Spec_Asian P_Bsm P_Asian P_Asian2 P_Asian3 P_Asian4 P_Asian5 P_Asian7.
Import ListNotations.
Open Scope R_scope.

Lemma p7 (p : R) : (forall k, (k < 7)%nat -> p + INR k <> 0) ->
  p <> 0 /\ p + 1 <> 0 /\ p + 2 <> 0 /\ p + 3 <> 0 /\ p + 4 <> 0 /\ p + 5 <> 0 /\ p + 6 <> 0.
Proof.
  intros H. pose proof (H 0%nat ltac:(lia)) as H0. pose proof (H 1%nat ltac:(lia)) as H1. pose proof (H 2%nat ltac:(lia)) as H2.
  pose proof (H 3%nat ltac:(lia)) as H3. pose proof (H 4%nat ltac:(lia)) as H4. pose proof (H 5%nat ltac:(lia)) as H5. pose proof (H 6%nat ltac:(lia)) as H6.
  cbn [INR] in *. repeat split; lra.
Qed.
Lemma mnc4_moments (m : opt) T : 0 < sigma m -> 0 < T -> (forall k, (k < 7)%nat -> mnc_p m + INR k <> 0) ->
  let '(m1, m2, m3, m4) := asian_mnc4 m T in
  let A := asian_moment (intr m - divr m) (sigma m) T in A 1%nat m1 /\ A 2%nat m2 /\ A 3%nat m3 /\ A 4%nat m4.
Proof.
  intros Hs HT H. destruct (p7 _ H) as (P0 & P1 & P2 & P3 & P4 & P5 & P6). rewrite (fm_eq m T Hs HT P0 P1 P2 P3 P4 P5 P6). cbv zeta.
  apply (moments4 m T Hs HT P0 P1 P2 P3 P4 P5 P6).
Qed.
Lemma mvsk_moments (m : opt) T : 0 < sigma m -> 0 < T -> (forall k, (k < 7)%nat -> mnc_p m + INR k <> 0) -> / 100 <= sigma m ^ 2 * T ->
  exists m1 m2 m3 m4, let A := asian_moment (intr m - divr m) (sigma m) T in A 1%nat m1 /\ A 2%nat m2 /\ A 3%nat m3 /\ A 4%nat m4 /\
  asian_mvsk m T = (m1, var_of_raw m1 m2 / m1 ^ 2, skew_of_raw m1 m2 m3, exkurt_of_raw m1 m2 m3 m4 + 3).
Proof.
  intros Hs HT H Hv. destruct (p7 _ H) as (P0 & P1 & P2 & P3 & P4 & P5 & P6).
  destruct (moments4 m T Hs HT P0 P1 P2 P3 P4 P5 P6) as (M1 & M2 & M3 & M4).
  do 4 eexists. cbv zeta. do 4 (split; [eassumption|]). apply (mvsk_big m T Hs HT P0 P1 P2 P3 P4 P5 P6 Hv).
Qed.
(** the mean and the scaled variance of price_mvsk do not need r <> q *)
Lemma mv_any (m : opt) T : 0 < sigma m -> 0 < T -> mnc_p m + 1 <> 0 -> mnc_p m + 2 <> 0 -> / 100 <= sigma m ^ 2 * T ->
  exists m1 m2, let A := asian_moment (intr m - divr m) (sigma m) T in A 1%nat m1 /\ A 2%nat m2 /\
  fst (fst (fst (asian_mvsk m T))) = m1 /\ snd (fst (fst (asian_mvsk m T))) = var_of_raw m1 m2 / m1 ^ 2.
Proof.
  intros Hs HT P1 P2 Hv. exists (exprel ((intr m - divr m) * T)), (m2_all m T). cbv zeta.
  split; [apply mean_any; assumption|]. split; [apply second_any; assumption|]. split; [apply jsu_mean|].
  unfold asian_mvsk, asian_mnc4. destruct (asian_mu34 m T) as [a b]. cbn [fst snd]. unfold var_of_raw. rewrite <- mu2_exact_eq by assumption.
  unfold asian_mu2, mu2_exact. destruct (Rlt_dec (sigma m ^ 2 * T) (/ 100)); [lra|reflexivity].
Qed.
(** r = q: the closed forms divide by zero *)
Lemma rq_singular (m : opt) : 0 < sigma m -> intr m = divr m -> mnc_p m = 0 /\
  forall n, (1 <= n)%nat -> let beta := (intr m - divr m - sigma m ^ 2 / 2) / sigma m / sigma m in
  (beta + INR 1) ^ 2 - (beta + INR 0) ^ 2 = 0.
Proof.
  intros Hs E. unfold mnc_p. rewrite E. split; [field; lra|]. intros n _. cbn [INR]. field. lra.
Qed.
Lemma jsu_parity_m fit (m : opt) K S T : asian_jsu_price fit m K S T 1 - asian_jsu_price fit m K S T (-1) =
  DF (intr m) T * (DF (intr m) T * (FWD (intr m) (divr m) (is_fwd m) (exprel ((intr m - divr m) * T) * S) T - K)).
Proof. rewrite jsu_parity, jsu_mean. unfold DF. replace (- (intr m * T)) with (- T * intr m) by ring. reflexivity. Qed.
Lemma jsu_refuted : exists m K S T m1, 0 < sigma m /\ 0 < K /\ 0 < S /\ 0 < T /\ asian_moment (intr m - divr m) (sigma m) T 1 m1 /\
  forall fit, asian_jsu_price fit m K S T 1 - asian_jsu_price fit m K S T (-1) <> DF (intr m) T * (S * m1 - K).
Proof.
  set (m := mkOpt 1 1 0 false). exists m, 1, 1, 1, (exprel ((intr m - divr m) * 1)).
  split; [cbn; lra|]. split; [lra|]. split; [lra|]. split; [lra|]. split; [apply mean_any; cbn; lra|].
  intros fit. rewrite jsu_parity_m. unfold DF, FWD. cbn [intr divr is_fwd m]. replace ((1 - 0) * 1) with 1 by ring. rewrite exprel_nz by lra.
  pose proof (exp_pos 1) as Hp. pose proof (exp_ineq1 1 ltac:(lra)) as H1.
  replace (- (1 * 1)) with (- (1)) by ring. rewrite exp_Ropp. set (e := exp 1) in *. intros E.
  assert (e * e * (/ e * (/ e * ((e - 1) / 1 * 1 * e - 1))) = e * e * (/ e * (1 * ((e - 1) / 1) - 1))) as E2 by (rewrite E; reflexivity).
  replace (e * e * (/ e * (/ e * ((e - 1) / 1 * 1 * e - 1)))) with ((e - 1) * e - 1) in E2 by (field; lra).
  replace (e * e * (/ e * (1 * ((e - 1) / 1) - 1))) with (e * (e - 2)) in E2 by (field; lra). lra.
Qed.
(** Linetsky *)
Lemma linetsky_parity_near P (m : opt) K S T : is_fwd m = false -> 0 < S -> exists d,
  linetsky_price P m K S T 1 - linetsky_price P m K S T (-1) = DF (intr m) T * (S * (exprel ((intr m - divr m) * T) + d) - K) /\ Rabs d <= 2 * / 10 ^ 16 /\
  (/ 10 ^ 8 <= Rabs ((intr m - divr m) * T) -> d = 0).
Proof.
  intros Hf HS. rewrite linetsky_parity by exact Hf. set (x := (intr m - divr m) * T).
  destruct (Rlt_dec (Rabs x) (/ 10 ^ 8)) as [L|L].
  - exists (1 + x / 2 - exprel x). split; [ring|]. split; [|intros; lra].
    rewrite Rabs_minus_sym. eapply Rle_trans; [apply exprel_taylor; lra|]. rewrite <- pow2_abs. pose proof (Rabs_pos x). set (a := Rabs x) in *. clearbody a.
    assert (a ^ 2 <= (/ 10 ^ 8) ^ 2) by (apply pow_incr; lra). lra.
  - exists 0. split; [ring|]. split; [rewrite Rabs_R0; lra|]. reflexivity.
Qed.
Lemma eta_zero f x : lin_eta_q f x = 0.
Proof. unfold lin_eta_q, Rdiv. rewrite Rminus_eq_0. ring. Qed.
Lemma xi_exact (a b c x : R) : lin_xi_p (fun y => a + b * y + c * y ^ 2) x = b + 2 * c * x.
Proof. unfold lin_xi_p. field. Qed.
Lemma real_sum_none w gam rest nu qs : qs <> [] -> lin_real_sum w gam rest nu qs = None.
Proof.
  destruct qs as [|q t]; [contradiction|]. intros _. cbn [lin_real_sum]. unfold lin_element_real. rewrite eta_zero.
  destruct (Req_EM_T (4 * 0 * gam (1 + q)) 0) as [|n]; [reflexivity|exfalso; apply n; ring].
Qed.
Lemma linetsky_real w gam rest nu k : INR k <= Rabs nu / 2 < INR k + 1 ->
  lin_real_sum w gam rest nu (lin_zeros_real nu k) = if Rle_dec nu (- (2)) then None else Some 0.
Proof.
  intros Hk. unfold lin_zeros_real. destruct (Rle_dec nu (- (2))) as [L|L]; [|reflexivity].
  apply real_sum_none. destruct k as [|k]; [|discriminate]. exfalso. cbn [INR] in Hk. rewrite Rabs_left1 in Hk by lra. lra.
Qed.
Lemma zeros_ok nu k : INR k <= Rabs nu / 2 < INR k + 1 -> List.Forall (fun q => 0 <= q) (lin_zeros_real nu k).
Proof.
  intros Hk. unfold lin_zeros_real. destruct (Rle_dec nu (- (2))); [|constructor].
  apply List.Forall_forall. intros q Hq. apply in_map_iff in Hq. destruct Hq as (n & <- & Hn). apply in_seq in Hn.
  assert (INR n <= INR (k + 1)) as H by (apply le_INR; lia). rewrite plus_INR in H. cbn [INR] in H. lra.
Qed.
