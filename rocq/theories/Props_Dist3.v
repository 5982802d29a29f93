(** Property theorems, distributions (continued): C40. *)
From Coq Require Import Reals Lra Lia.
From Verif Require Import Spec_Expect Spec_Misc Spec_Dist M_Dist P_Gig.
Open Scope R_scope.

(** DistGig.mvsk returns the mean, scaled variance, skewness and excess kurtosis of the GIG law, given that scipy's kve is the scaled Bessel function. *)
Theorem C40_gig_mvsk : forall kve gm dl p, 0 < gm -> 0 < dl -> let q := gm * dl in 0 < kve p q ->
  (forall r : nat, (r <= 4)%nat -> bessel_K (p + INR r) q (kve (p + INR r) q * exp (- q))) ->
  let dens := gig_density gm dl p (kve p q * exp (- q)) in
  is_density dens /\ exists m1 m2 m3 m4, pos_expect dens (fun x => x) m1 /\ pos_expect dens (fun x => x ^ 2) m2 /\ pos_expect dens (fun x => x ^ 3) m3 /\ pos_expect dens (fun x => x ^ 4) m4 /\
  gig_mvsk kve (mkGig gm dl p) = (m1, var_of_raw m1 m2 / m1 ^ 2, skew_of_raw m1 m2 m3, exkurt_of_raw m1 m2 m3 m4).
Proof. exact gig_mvsk_true. Qed.
Print Assumptions C40_gig_mvsk.
(** the hypotheses are met at p = -1/2, gamma = delta = 1 *)
Example C40_ex_gig_mvsk : 0 < kve_half (- / 2) (1 * 1) /\ forall r : nat, (r <= 4)%nat -> bessel_K (- / 2 + INR r) (1 * 1) (kve_half (- / 2 + INR r) (1 * 1) * exp (- (1 * 1))).
Proof. rewrite Rmult_1_r. split; [exact kve_half_pos|intros r _; exact (kve_half_ok r)]. Qed.
