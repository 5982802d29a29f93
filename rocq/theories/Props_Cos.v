(** C21-C23, C59: the Fourier-cosine (COS) pricer. *)
From Coq Require Import Reals Lra Lia List.
From Coquelicot Require Import Coquelicot.
From Verif Require Import Base Gauss Sums M_Opt M_Mgf M_Cos Spec_Opt Spec_Cos P_Cos.
Import ListNotations.
Open Scope R_scope.

(** *** C21 *)
Theorem C21_chi : forall u a c d, cos_chi u a c d = RInt (fun x => exp x * cos (u * (x - a))) c d.
Proof. exact chi_is_integral. Qed.
Print Assumptions C21_chi.
Theorem C21_psi : forall k a b c d, a < b -> cos_psi k (freq a b k) a c d = RInt (fun x => cos (freq a b k * (x - a))) c d.
Proof. exact (fun k a b c d H => psi_is_integral k (freq a b k) a c d (cos_u_zero a b k H)). Qed.
Print Assumptions C21_psi.
(** the price is exactly the discounted integral of the payoff against the N-term cosine series, for every
    N, interval and (arbitrary) transform values, and for strikes inside and outside the interval *)
Theorem C21_price : forall m re im n a b K S T cp, a < b -> 0 < K -> 0 < S -> call_or_put cp ->
  cos_price m re im n a b K S T cp =
  DF (intr m) T * RInt (fun x => payoff cp K (FWD (intr m) (divr m) (is_fwd m) S T * exp x) * cosine_series re im n a b x) a b.
Proof. exact cos_price_integral. Qed.
Print Assumptions C21_price.
(** and when re + i im is the characteristic function of a density f on [a,b], that series has the same first N
    cosine moments as f (in particular total mass 1) *)
Theorem C21_series : forall (f re im : R -> R) n a b j, a < b -> (j < n)%nat ->
  ex_RInt (fun x => f x * cos (freq a b j * x)) a b -> ex_RInt (fun x => f x * sin (freq a b j * x)) a b ->
  re (freq a b j) = RInt (fun x => f x * cos (freq a b j * x)) a b ->
  im (freq a b j) = RInt (fun x => f x * sin (freq a b j * x)) a b ->
  is_RInt (fun x => cosine_series re im n a b x * cos (freq a b j * (x - a))) a b
          (RInt (fun x => f x * cos (freq a b j * (x - a))) a b).
Proof.
  exact (fun f re im n a b j H Hj X1 X2 E1 E2 =>
    is_RInt_eq _ a b _ _ (series_cos_moment re im n a b j H Hj) (cf_cos_moment f re im a b (freq a b j) X1 X2 E1 E2)).
Qed.
Print Assumptions C21_series.
Theorem C21_mass : forall re im n a b, a < b -> (0 < n)%nat -> RInt (cosine_series re im n a b) a b = re 0.
Proof. exact series_mass. Qed.
Print Assumptions C21_mass.
Example C21_ex : cos_price (mkOpt (/ 5) 0 0 false) (fun u => exp (- u * u / 50)) (fun u => 0) 128 (-2) 2 110 100 1 1 =
  DF 0 1 * RInt (fun x => payoff 1 110 (FWD 0 0 false 100 1 * exp x) * cosine_series (fun u => exp (- u * u / 50)) (fun u => 0) 128 (-2) 2 x) (-2) 2.
Proof. apply (C21_price (mkOpt (/ 5) 0 0 false)); try lra. now left. Qed.

(** *** C22 *)
Theorem C22_lefloch_parity : forall m re im n a b K S T,
  lefloch_price m re im n a b K S T 1 - lefloch_price m re im n a b K S T (-1) =
  DF (intr m) T * (FWD (intr m) (divr m) (is_fwd m) S T - K).
Proof. exact lefloch_parity. Qed.
Print Assumptions C22_lefloch_parity.
Theorem C22_lefloch_boundary : forall m re im n a b K S T, a < b ->
  let F := FWD (intr m) (divr m) (is_fwd m) S T in
  (ln (K / F) < a -> lefloch_price m re im n a b K S T (-1) = 0) /\
  (b < ln (K / F) -> lefloch_price m re im n a b K S T (-1) = DF (intr m) T * payoff (-1) K F).
Proof. exact lefloch_outside. Qed.
Print Assumptions C22_lefloch_boundary.
Theorem C22_lefloch_put_is_fo_put : forall m re im n a b K S T, 0 < S -> a <= ln (K / FWD (intr m) (divr m) (is_fwd m) S T) <= b ->
  lefloch_price m re im n a b K S T (-1) = cos_price m re im n a b K S T (-1).
Proof. exact lefloch_put_inside. Qed.
Print Assumptions C22_lefloch_put_is_fo_put.
(** Fang-Oosterlee: call - put = DF (F m1 - K re(0)), m1 = mean of exp(x) under the series; exact parity iff m1 = re 0 = 1 *)
Theorem C22_fo_parity : forall m re im n a b K S T, a < b -> (0 < n)%nat -> 0 < K -> 0 < S ->
  cos_price m re im n a b K S T 1 - cos_price m re im n a b K S T (-1) =
  DF (intr m) T * (FWD (intr m) (divr m) (is_fwd m) S T * RInt (fun x => exp x * cosine_series re im n a b x) a b - K * re 0).
Proof. exact cos_parity. Qed.
Print Assumptions C22_fo_parity.
Example C22_ex : lefloch_price (mkOpt (/ 5) (/ 20) 0 false) cos sin 64 (-1) 1 1000 100 2 1
  - lefloch_price (mkOpt (/ 5) (/ 20) 0 false) cos sin 64 (-1) 1 1000 100 2 (-1) = exp (- (/ 20 * 2)) * (100 * exp ((/ 20 - 0) * 2) - 1000).
Proof. exact (C22_lefloch_parity (mkOpt (/ 5) (/ 20) 0 false) cos sin 64 (-1) 1 1000 100 2). Qed.

(** *** C23 *)
(** the interval of HestonCos.price contains the mean c1 of log(S_T/F) only for strikes near the forward *)
Theorem C23_interval_refuted : forall m p L c1 K S T, 0 < K -> 0 < S ->
  let F := FWD (intr m) (divr m) (is_fwd m) S T in
  let r := hcos_range m p L c1 K S T in
  (fst r <= c1 <= snd r <-> Rabs (ln (F / K)) <= hcos_L L T * hcos_sigma_h p).
Proof. exact hcos_mean_excluded. Qed.
Print Assumptions C23_interval_refuted.
(** consequence: from some strike on, the call price is exactly 0 whatever the characteristic function,
    because the (shifted) interval lies entirely below the log-strike *)
Theorem C23_call_vanishes : forall m p L c1 re im n K S T, 0 < K -> 0 < S -> 0 < hcos_L L T * hcos_sigma_h p ->
  let F := FWD (intr m) (divr m) (is_fwd m) S T in
  c1 + hcos_L L T * hcos_sigma_h p <= 2 * ln (K / F) -> hcos_price m p L c1 re im n K S T 1 = 0.
Proof. exact hcos_call_zero. Qed.
Print Assumptions C23_call_vanishes.
(** HestonCos.price (strike-dependent interval, shared frequencies) is CosABC.price on that interval *)
Theorem C23_shared_frequencies : forall m p L c1 re im n K S T cp, hcos_price m p L c1 re im n K S T cp =
  cos_price m re im n (fst (hcos_range m p L c1 K S T)) (snd (hcos_range m p L c1 K S T)) K S T cp.
Proof. exact hcos_eq_cos. Qed.
Print Assumptions C23_shared_frequencies.
Example C23_ex : exists K, let r := hcos_range (mkOpt 0 0 0 false) (mkSv (1 / 100) 0 0 1 (1 / 100)) None (- (1 / 200)) K 1 1 in
  ~ (fst r <= - (1 / 200) <= snd r).
Proof.
  exists (exp (- 2)). cbv zeta. rewrite (C23_interval_refuted (mkOpt 0 0 0 false) _ None _ (exp (-2)) 1 1 ltac:(apply exp_pos) ltac:(lra)).
  unfold FWD; simpl. replace (1 * exp ((0 - 0) * 1) / exp (-2)) with (exp 2).
  2:{ replace ((0 - 0) * 1) with 0 by ring. rewrite exp_0. replace (-2) with (- (2)) by lra. rewrite exp_Ropp. field. apply Rgt_not_eq, exp_pos. }
  rewrite ln_exp, Rabs_pos_eq by lra. unfold hcos_default_L, hcos_sigma_h; simpl.
  replace (3 * 1 + 2) with 5 by ring. rewrite Rmax_left by lra. replace (1 / 100 + 1 / 100 * 0) with ((1 / 10) ^ 2) by (simpl; field).
  rewrite sqrt_pow2 by lra. lra.
Qed.

(** *** C59: Chernoff truncation ('junike'). If the search ends by its tail test, the truncated tails of any
    (sub)density whose exponential moments are bounded by the MGF total at most eps_junike. *)
Theorem C59_tail_bound : forall f mgf grid epsj c1 c2 c4 w c d, subdensity f -> mgf_bounds f mgf -> (forall s, In s grid -> 0 < s) ->
  junike_half_width mgf grid epsj c1 c2 c4 = (w, true) -> c <= c1 - w -> c1 + w <= d ->
  RInt f c (c1 - w) + RInt f (c1 + w) d <= epsj.
Proof. exact junike_tails. Qed.
Print Assumptions C59_tail_bound.
(** in any case the half-width is between 12 and 30 units of sqrt(|c2| + sqrt|c4|) *)
Theorem C59_range : forall mgf grid epsj c1 c2 c4,
  let s := sqrt (Rabs c2 + sqrt (Rabs c4)) in
  12 * s <= fst (junike_half_width mgf grid epsj c1 c2 c4) <= 30 * s.
Proof. exact junike_range. Qed.
Print Assumptions C59_range.
Example C59_ex : forall c d, c <= 0 - 12 -> 0 + 12 <= d -> RInt npdf c (0 - 12) + RInt npdf (0 + 12) d <= 1 / 10.
Proof.
  intros c d Hc Hd. refine (C59_tail_bound npdf _ [1 / 2; 1] _ 0 1 0 12 c d npdf_subdensity npdf_mgf_bounds _ junike_normal_run Hc Hd).
  intros s [<-|[<-|[]]]; lra.
Qed.
