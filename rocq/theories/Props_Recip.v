(** C71: the inverse gamma and inverse Gaussian pricers (gamma.py).  [pos_expect dens f v]: v is the expectation of f(G), G of density
    dens on (0, infinity); scipy's routines are described in Spec_Recip.v. *)
From Coq Require Import Reals Lra.
From Coquelicot Require Import Coquelicot.
From Verif Require Import Base M_Opt M_Recip Spec_Opt Spec_Dist Spec_Cev Spec_Recip P_Gamma2 P_Ncx3 P_Ncx3 P_Recip P_Recip2.
Open Scope R_scope.

Theorem C71_routines_exist : (exists Gam gc, gamma_function Gam /\ gamma_cdf_routine Gam gc) /\ (exists igc igs, ig_routines igc igs).
Proof.
  split.
  - destruct gamma_exists as [Gam HG]. exists Gam, (fun a x => Hn Gam a 0 x). split; [exact HG|]. intros a Ha. now apply Hn_0.
  - exists (fun mu c => ig_cdf (mu * c) c), (fun mu c x => 1 - ig_cdf (mu * c) c x). exact ig_routines_exist.
Qed.
Print Assumptions C71_routines_exist.

(** InvGam: the terminal price is X = be / G, G gamma of shape al, with the mean and second moment of the lognormal law; cdf is the
    probability of X > K (cp = 1) and of X <= K (cp = -1); price is the discounted expected payoff - when spot is a spot price *)
Theorem C71_invgam_law : forall Gam gc m K S T, gamma_function Gam -> gamma_cdf_routine Gam gc -> 0 < K -> 0 < S -> 0 < sigma m ^ 2 * T ->
  let '(al, be) := invgam_alpha_beta m S T in
  let X := fun g => be / g in let dens := gamma_pdf Gam al in let F := FWD (intr m) (divr m) (is_fwd m) S T in
  half_line dens 1 /\ pos_expect dens X F /\ pos_expect dens (fun g => X g ^ 2) (F ^ 2 * exp (sigma m ^ 2 * T)) /\
  pos_expect dens (fun g => above K (X g)) (invgam_cdf gc m K S T 1) /\ invgam_cdf gc m K S T (-1) = 1 - invgam_cdf gc m K S T 1 /\
  (is_fwd m = false -> forall cp, call_or_put cp ->
     exists c, pos_expect dens (fun g => payoff cp K (X g)) c /\ invgam_price gc m K S T cp = DF (intr m) T * c).
Proof. exact invgam_law. Qed.
Print Assumptions C71_invgam_law.
(** parity, but always against the forward of a spot price: with is_fwd = true it fails as soon as rates differ *)
Theorem C71_invgam_parity : forall gc m K S T, 0 < K -> 0 < S -> 0 < sigma m ^ 2 * T ->
  invgam_price gc m K S T 1 - invgam_price gc m K S T (-1) = DF (intr m) T * (FWD (intr m) (divr m) false S T - K).
Proof. exact invgam_par. Qed.
Print Assumptions C71_invgam_parity.
Theorem C71_invgam_forward_refuted : forall gc m K S T, 0 < K -> 0 < S -> 0 < sigma m ^ 2 * T -> is_fwd m = true -> intr m <> divr m ->
  invgam_price gc m K S T 1 - invgam_price gc m K S T (-1) <> DF (intr m) T * (FWD (intr m) (divr m) (is_fwd m) S T - K).
Proof.
  intros gc m K S T HK HS Hv Hf Hr E. rewrite invgam_par in E by assumption. rewrite Hf in E.
  assert (D : 0 < DF (intr m) T) by (unfold DF; apply exp_pos). apply Rmult_eq_reg_l in E; [|lra]. unfold FWD in E.
  assert (X : exp ((intr m - divr m) * T) = exp 0). { rewrite exp_0. apply (Rmult_eq_reg_l S); lra. } apply exp_inv in X.
  apply Rmult_integral in X. destruct X as [X|X]; [lra|]. rewrite X, Rmult_0_r in Hv. lra.
Qed.
Print Assumptions C71_invgam_forward_refuted.

(** InvGauss: X = F Y, Y inverse Gaussian of mean one and shape 1/(exp(sigma^2 T) - 1) *)
Theorem C71_invgauss_law : forall igc igs m K S T, ig_routines igc igs -> 0 < K -> 0 < S -> 0 < sigma m ^ 2 * T ->
  let F := FWD (intr m) (divr m) (is_fwd m) S T in let dens := ig_density 1 (/ (exp (sigma m ^ 2 * T) - 1)) in
  half_line dens 1 /\ pos_expect dens (fun y => F * y) F /\ pos_expect dens (fun y => (F * y) ^ 2) (F ^ 2 * exp (sigma m ^ 2 * T)) /\
  pos_expect dens (fun y => above K (F * y)) (invgauss_cdf igc igs m K S T 1) /\ invgauss_cdf igc igs m K S T (-1) = 1 - invgauss_cdf igc igs m K S T 1 /\
  forall cp, call_or_put cp -> exists c, pos_expect dens (fun y => payoff cp K (F * y)) c /\ invgauss_price igc igs m K S T cp = DF (intr m) T * c.
Proof. exact invgauss_law. Qed.
Print Assumptions C71_invgauss_law.
Theorem C71_invgauss_parity : forall igc igs m K S T, ig_routines igc igs -> 0 < K -> 0 < S -> 0 < sigma m ^ 2 * T ->
  invgauss_price igc igs m K S T 1 - invgauss_price igc igs m K S T (-1) = DF (intr m) T * (FWD (intr m) (divr m) (is_fwd m) S T - K).
Proof. exact invgauss_par. Qed.
Print Assumptions C71_invgauss_parity.
Example C71_ex : let m := mkOpt (1/5) (1/20) (1/10) true in 0 < sigma m ^ 2 * 1 /\ is_fwd m = true /\ intr m <> divr m.
Proof. cbn. repeat split; lra. Qed.
