(** More property theorems about SABR (C35): small-volatility branches of the conditional average variance. *)
From Coq Require Import Reals Lra Arith Lia List.
From Coquelicot Require Import Coquelicot.
From Verif Require Import Spec_Expect Spec_Sabr M_Sabr P_Sabr7.
Open Scope R_scope.

(** *** C35 *)
(** vov*sqrt(T) at most 1/100: the Hermite expansion of the conditional mean (time average over Brownian bridges ending at z),
    with its error. *)
Theorem C35_conditional_mean_small : forall v z, 0 < v <= / 100 ->
  exists h mean, (forall s, 0 <= s <= 1 ->
      gauss_expect (fun y => exp (2 * v * (s * (z + v / 2) + sqrt (s * (1 - s)) * y) - v ^ 2 * s)) (h s)) /\
    is_RInt h 0 1 (mean * exp (v * z)) /\
    let b := Rabs z + / 100 in
    Rabs (cond_avgvar_mfn z v - mean) <= v ^ 8 / 362880 * (b ^ 8 + 28 * b ^ 6 + 210 * b ^ 4 + 420 * b ^ 2 + 105) * exp (Rabs z / 100 + v ^ 2 / 2).
Proof. exact mfn_herm_error. Qed.
Print Assumptions C35_conditional_mean_small.
(** vov^2 T < 1/100: skewness and excess kurtosis returned agree with the true ones to sixth order; the scaled variance has the
    sign of its fourth-order term wrong: it is the true one minus 2 (6 - z^2)/45 v^4, to sixth order. *)
Theorem C35_conditional_small_vov : forall a, 0 < a -> exists G, weighted_densities a 4 G /\
  forall z, exists C d, 0 < d /\ forall t, 0 < t -> a * sqrt t <= d ->
  let v := a * sqrt t in
  let r k := G k t (z * v) / (t ^ k * G 0%nat t (z * v)) in
  forall m s sk k, cond_avgvar_mvsk v z = (m, s, sk, k) ->
  0 <= sk /\ 0 < skew_of_raw (r 1%nat) (r 2%nat) (r 3%nat) /\
  Rabs (sk ^ 2 - skew_of_raw (r 1%nat) (r 2%nat) (r 3%nat) ^ 2) <= C * v ^ 6 /\
  Rabs (k - exkurt_of_raw (r 1%nat) (r 2%nat) (r 3%nat) (r 4%nat)) <= C * v ^ 6 /\
  Rabs (s - (var_of_raw (r 1%nat) (r 2%nat) / r 1%nat ^ 2 - 2 * (6 - z ^ 2) / 45 * v ^ 4)) <= C * v ^ 6.
Proof. exact cond_small_vov. Qed.
Print Assumptions C35_conditional_small_vov.
(** so it is not a sixth-order approximation of the true scaled variance *)
Theorem C35_conditional_small_vov_refuted : exists G, weighted_densities 1 4 G /\
  ~ exists C d, 0 < d /\ forall t, 0 < t -> sqrt t <= d ->
    let v := sqrt t in
    let r k := G k t (0 * v) / (t ^ k * G 0%nat t (0 * v)) in
    forall m s sk k, cond_avgvar_mvsk v 0 = (m, s, sk, k) -> Rabs (s - var_of_raw (r 1%nat) (r 2%nat) / r 1%nat ^ 2) <= C * v ^ 6.
Proof. exact cond_small_vov_refuted. Qed.
Print Assumptions C35_conditional_small_vov_refuted.
Example C35_small_ex : forall m s sk k, cond_avgvar_mvsk (/ 20) 1 = (m, s, sk, k) -> s = (/ 20) ^ 2 / 3 - (6 - 1 ^ 2) / 45 * (/ 20) ^ 4.
Proof. intros m s sk k E. exact (proj1 (code_small (/ 20) 1 m s sk k ltac:(lra) E)). Qed.
