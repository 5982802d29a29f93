(** Property theorems C48: Asian options (asian.py); C44: second moment of Ju's basket price.
    [asian_moment g sig T n m] (Spec_Asian): the n-th moments of the N-date averages of a lognormal price exist and converge to m. *)
From Coq Require Import Reals Lra Lia List.
From Coquelicot Require Import Coquelicot.
From Verif Require Import Base Gauss Sums Spec_Opt Spec_Expect M_Opt M_Heston M_Fd M_Params M_Multi M_Asian Spec_Asian P_Bsm P_Asian3 P_Asian4 P_Asian5 P_Asian6 P_Asian7 P_Asian8.
Import ListNotations.
Open Scope R_scope.

(** price_mnc: every moment order, away from the documented resonances p + k = 0, p = 2 (r - q)/sigma^2, k < 2n - 1. *)
Theorem C48_raw_moments : forall m T n, 0 < sigma m -> 0 < T -> (forall k, (k < 2 * n - 1)%nat -> 2 * (intr m - divr m) / sigma m ^ 2 + INR k <> 0) ->
  asian_moment (intr m - divr m) (sigma m) T n (asian_mnc m T n).
Proof. intros m T n Hs HT H. exact (mnc_moment m T Hs HT n H). Qed.
Print Assumptions C48_raw_moments.
(** price_mnc4: the four hard-coded polynomials are the first four moments. *)
Theorem C48_mnc4 : forall m T, 0 < sigma m -> 0 < T -> (forall k, (k < 7)%nat -> 2 * (intr m - divr m) / sigma m ^ 2 + INR k <> 0) ->
  let '(m1, m2, m3, m4) := asian_mnc4 m T in
  let A := asian_moment (intr m - divr m) (sigma m) T in A 1%nat m1 /\ A 2%nat m2 /\ A 3%nat m3 /\ A 4%nat m4.
Proof. exact mnc4_moments. Qed.
Print Assumptions C48_mnc4.
(** price_mvsk, sigma^2 T >= 1/100: mean, variance / mean^2, skewness and raw kurtosis of the average. *)
Theorem C48_mvsk : forall m T, 0 < sigma m -> 0 < T -> (forall k, (k < 7)%nat -> 2 * (intr m - divr m) / sigma m ^ 2 + INR k <> 0) -> / 100 <= sigma m ^ 2 * T ->
  exists m1 m2 m3 m4, let A := asian_moment (intr m - divr m) (sigma m) T in A 1%nat m1 /\ A 2%nat m2 /\ A 3%nat m3 /\ A 4%nat m4 /\
  asian_mvsk m T = (m1, var_of_raw m1 m2 / m1 ^ 2, skew_of_raw m1 m2 m3, exkurt_of_raw m1 m2 m3 m4 + 3).
Proof. exact mvsk_moments. Qed.
Print Assumptions C48_mvsk.
(** The mean and the variance of price_mvsk stay correct at r = q... *)
Theorem C48_mean_variance_at_rq : forall m T, 0 < sigma m -> 0 < T -> intr m = divr m -> / 100 <= sigma m ^ 2 * T ->
  exists m1 m2, let A := asian_moment (intr m - divr m) (sigma m) T in A 1%nat m1 /\ A 2%nat m2 /\
  fst (fst (fst (asian_mvsk m T))) = m1 /\ snd (fst (fst (asian_mvsk m T))) = var_of_raw m1 m2 / m1 ^ 2.
Proof.
  intros m T Hs HT E Hv. destruct (rq_singular m Hs E) as [Ep _]. apply mv_any; try assumption; rewrite Ep; lra.
Qed.
Print Assumptions C48_mean_variance_at_rq.
(** ... while price_mnc and price_mnc4 divide by zero there: p = 0, and the first two squares in price_mnc coincide. *)
Theorem C48_rq_divides_by_zero : forall m, 0 < sigma m -> intr m = divr m -> mnc_p m = 0 /\
  forall n, (1 <= n)%nat -> let beta := (intr m - divr m - sigma m ^ 2 / 2) / sigma m / sigma m in
  (beta + INR 1) ^ 2 - (beta + INR 0) ^ 2 = 0.
Proof. exact rq_singular. Qed.
Print Assumptions C48_rq_divides_by_zero.
(** price_mvsk, sigma^2 T < 1/100, at fixed p and v = sigma^2 T -> 0: the third and fourth central moments are right to order v^2;
    the "Taylor" branch of the variance (which itself is about v/3) is off by - (8 - p^3)/(48 (p+1)(p+2)) v^2, up to O(v^3). *)
Theorem C48_small_variance : forall m, 0 < sigma m -> (forall k, (k < 7)%nat -> mnc_p m + INR k <> 0) ->
  exists C, forall T, 0 < T -> sigma m ^ 2 * T < / 100 ->
  exists m1 m2 m3 m4, asian_moment (intr m - divr m) (sigma m) T 1 m1 /\ asian_moment (intr m - divr m) (sigma m) T 2 m2 /\
    asian_moment (intr m - divr m) (sigma m) T 3 m3 /\ asian_moment (intr m - divr m) (sigma m) T 4 m4 /\
    let p := mnc_p m in let v := sigma m ^ 2 * T in
    Rabs (asian_mu2 m T - ((m2 - m1 ^ 2) - (8 - p ^ 3) / (48 * (p + 1) * (p + 2)) * v ^ 2)) <= C * v ^ 3 /\
    Rabs (fst (asian_mu34 m T) - (m3 - 3 * m1 * m2 + 2 * m1 ^ 3)) <= C * v ^ 3 /\
    Rabs (snd (asian_mu34 m T) - (m4 - 4 * m1 * m3 + 6 * m1 ^ 2 * m2 - 3 * m1 ^ 4)) <= C * v ^ 3.
Proof. exact small_v. Qed.
Print Assumptions C48_small_variance.
(** BsmAsianJsu.price: whatever parameters the moment fit returns, call minus put is discounted twice and grown by the carry once more. *)
Theorem C48_jsu_parity : forall fit m K S T, asian_jsu_price fit m K S T 1 - asian_jsu_price fit m K S T (-1) =
  DF (intr m) T * (DF (intr m) T * (FWD (intr m) (divr m) (is_fwd m) (exprel ((intr m - divr m) * T) * S) T - K)).
Proof. exact jsu_parity_m. Qed.
Print Assumptions C48_jsu_parity.
Theorem C48_jsu_parity_refuted : exists m K S T m1, 0 < sigma m /\ 0 < K /\ 0 < S /\ 0 < T /\ asian_moment (intr m - divr m) (sigma m) T 1 m1 /\
  forall fit, asian_jsu_price fit m K S T 1 - asian_jsu_price fit m K S T (-1) <> DF (intr m) T * (S * m1 - K).
Proof. exact jsu_refuted. Qed.
Print Assumptions C48_jsu_parity_refuted.
(** BsmAsianLinetsky2004.price: call minus put is the discounted mean of the average minus the strike, the switch to 1 + x/2 below 1e-8
    costing at most 2e-16 of the spot. *)
Theorem C48_linetsky_parity : forall P m K S T, is_fwd m = false -> 0 < S -> exists d,
  linetsky_price P m K S T 1 - linetsky_price P m K S T (-1) = DF (intr m) T * (S * (exprel ((intr m - divr m) * T) + d) - K) /\ Rabs d <= 2 * / 10 ^ 16 /\
  (/ 10 ^ 8 <= Rabs ((intr m - divr m) * T) -> d = 0).
Proof. exact linetsky_parity_near. Qed.
Print Assumptions C48_linetsky_parity.
(** The real part of the spectrum, present when nu <= -2, always ends in a division by zero because eta_q subtracts a value from itself:
    no price for 2 (r - q) <= - sigma^2, whatever the special functions.  xi_p beside it is a true central difference. *)
Theorem C48_linetsky_real_spectrum_refuted : forall w gam rest m k, INR k <= Rabs (lin_nu m) / 2 < INR k + 1 ->
  lin_real_sum w gam rest (lin_nu m) (lin_zeros_real (lin_nu m) k) = if Rle_dec (lin_nu m) (- (2)) then None else Some 0.
Proof. intros w gam rest m k. apply linetsky_real. Qed.
Print Assumptions C48_linetsky_real_spectrum_refuted.
Theorem C48_linetsky_differences : (forall f x, lin_eta_q f x = 0) /\ (forall a b c x, lin_xi_p (fun y => a + b * y + c * y ^ 2) x = b + 2 * c * x).
Proof. split; [exact eta_zero|exact xi_exact]. Qed.
Print Assumptions C48_linetsky_differences.
(** BsmContinuousAsianJu2002: the matched moments are those of the average, r = q included; parity holds. *)
Theorem C48_ju_moments : forall m S T, 0 < sigma m -> 0 < T -> intr m - divr m + sigma m ^ 2 <> 0 -> exists m1 m2,
  asian_moment (intr m - divr m) (sigma m) T 1 m1 /\ asian_moment (intr m - divr m) (sigma m) T 2 m2 /\ jua_u1 m S T = S * m1 /\ jua_u2 m S T = S ^ 2 * m2.
Proof.
  intros m S T Hs HT Hg. destruct (jua_moments m T Hs HT Hg) as [A B]. destruct (jua_scale m S T) as [E1 E2]. exists (jua_u1 m 1 T), (jua_u2 m 1 T). split; [exact A|]. split; [exact B|]. split; assumption.
Qed.
Print Assumptions C48_ju_moments.
Theorem C48_ju_parity : forall m K S T, 0 < sigma m -> 0 < T -> exists m1, asian_moment (intr m - divr m) (sigma m) T 1 m1 /\
  jua_price m K S T 1 - jua_price m K S T (- (1)) = DF (intr m) T * (S * m1 - K).
Proof. intros m K S T Hs HT. eexists. split; [exact (mean_any m T Hs HT)|]. rewrite jua_parity. reflexivity. Qed.
Print Assumptions C48_ju_parity.
(** The second moment implied by the call prices is not the matched one: the sigma^6 part of the correction is inconsistent
    (relative error 2 sigma^6 T^3 q((r-q)T), q(0) = 62/11340). *)
Theorem C48_ju_second_moment : forall m S T, 0 < jua_u1 m S T -> jua_u1 m S T ^ 2 < jua_u2 m S T ->
  implied_second_moment (fun K => jua_price m K S T 1 / DF (intr m) T)
    (jua_u2 m S T * (1 + 2 * (sigma m ^ 6 * T ^ 3 * jua_q ((intr m - divr m) * T)))).
Proof. exact jua_second. Qed.
Print Assumptions C48_ju_second_moment.
Theorem C48_ju_second_moment_refuted : exists m S T m2, 0 < sigma m /\ 0 < S /\ 0 < T /\ asian_moment (intr m - divr m) (sigma m) T 2 m2 /\
  0 < jua_u1 m S T /\ jua_u1 m S T ^ 2 < jua_u2 m S T /\
  ~ implied_second_moment (fun K => jua_price m K S T 1 / DF (intr m) T) (S ^ 2 * m2).
Proof. exact jua_refuted. Qed.
Print Assumptions C48_ju_second_moment_refuted.
(** Baskets: Levy's price and Ju's correction both imply exactly the basket's second moment. *)
Theorem C44_ju_second_moment : forall o spot T, let fwd := mk_fwd (bk_m o) spot T in
  0 < mv_m1 o fwd -> eps <= sqrt (ln (1 + mv_var_scaled o fwd T)) -> forall corr,
  implied_second_moment (fun K => ju_price o corr K spot T 1 / mk_df (bk_m o) T) (mv_m2 o fwd T).
Proof. intros o spot T. exact (ju_basket_second o spot T). Qed.
Print Assumptions C44_ju_second_moment.

Definition ex48 := mkOpt 1 1 0 false.
Example C48_ex : 0 < sigma ex48 /\ (forall k, (k < 7)%nat -> mnc_p ex48 + INR k <> 0) /\ / 100 <= sigma ex48 ^ 2 * 1 /\ sigma ex48 ^ 2 * / 200 < / 100 /\
  intr ex48 - divr ex48 + sigma ex48 ^ 2 <> 0 /\ is_fwd ex48 = false /\
  lin_zeros_real (lin_nu (mkOpt 1 0 2 false)) 2 = [Rabs (lin_nu (mkOpt 1 0 2 false)) - 2; Rabs (lin_nu (mkOpt 1 0 2 false)) - 4].
Proof.
  unfold mnc_p; cbn [sigma intr divr is_fwd ex48]. split; [lra|]. split; [|split; [lra|split; [lra|split; [lra|split; [reflexivity|]]]]].
  - intros k _. pose proof (pos_INR k). lra.
  - unfold lin_zeros_real, lin_nu; cbn [sigma intr divr]. destruct (Rle_dec (2 * (0 - 2) / 1 ^ 2 - 1) (- (2))) as [|n]; [|exfalso; apply n; lra].
    cbn [map seq INR]. f_equal; [ring|]. f_equal. ring.
Qed.
