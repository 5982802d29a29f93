(** Property theorems C40: moments and moment fits of the distributions (disthelper.py). *)
From Coq Require Import Reals Lra Arith Lia List.
From Coquelicot Require Import Coquelicot.
From Verif Require Import Gauss Sums Spec_Opt Spec_Expect Spec_Misc Spec_Dist M_Opt M_Sabr M_Dist P_Dist P_Dist2 P_Dist3 P_Half P_Dist4 P_Dist5.
Import ListNotations.
Open Scope R_scope.

(** *** C40: the reported mean / scaled variance / skewness / excess kurtosis are those of the law that draw samples. *)
Theorem C40_lognormal_mvsk : forall d, 0 < ln_mu d -> 0 < ln_lam d -> ln_sig d <> 0 -> exists m2 m3 m4,
  gauss_expect (ln_draw d) (ln_mu d) /\ gauss_expect (fun z => (ln_draw d z - ln_mu d) ^ 2) m2 /\
  gauss_expect (fun z => (ln_draw d z - ln_mu d) ^ 3) m3 /\ gauss_expect (fun z => (ln_draw d z - ln_mu d) ^ 4) m4 /\
  ln_mvsk d = (ln_mu d, m2 / ln_mu d ^ 2, m3 / (m2 * sqrt m2), m4 / m2 ^ 2 - 3) /\ mc4_of (ln_mvsk d) = (ln_mu d, m2, m3, m4).
Proof. exact ln_mvsk_true. Qed.
Print Assumptions C40_lognormal_mvsk.
(** For a negative lam the reported skewness has the wrong sign. *)
Theorem C40_lognormal_negative_lam_refuted : exists d m2 m3, 0 < ln_mu d /\ ln_lam d < 0 /\ gauss_expect (ln_draw d) (ln_mu d) /\
  gauss_expect (fun z => (ln_draw d z - ln_mu d) ^ 2) m2 /\ gauss_expect (fun z => (ln_draw d z - ln_mu d) ^ 3) m3 /\ 0 < m2 /\ m3 < 0 /\
  0 < snd (fst (ln_mvsk d)).
Proof. exact ln_neg_skew. Qed.
Print Assumptions C40_lognormal_negative_lam_refuted.
Theorem C40_gamma_mvsk : forall c d, 0 < gm_shape d -> 0 < gm_rate d -> let dens := gamma_density c (gm_shape d) (gm_rate d) in is_density dens ->
  exists m1 m2 m3 m4, pos_expect dens (fun x => x) m1 /\ pos_expect dens (fun x => x ^ 2) m2 /\ pos_expect dens (fun x => x ^ 3) m3 /\ pos_expect dens (fun x => x ^ 4) m4 /\
  gm_mvsk d = (m1, var_of_raw m1 m2 / m1 ^ 2, skew_of_raw m1 m2 m3, exkurt_of_raw m1 m2 m3 m4) /\
  mc4_of (gm_mvsk d) = (m1, m2 - m1 ^ 2, m3 - 3 * m1 * m2 + 2 * m1 ^ 3, m4 - 4 * m1 * m3 + 6 * m1 ^ 2 * m2 - 3 * m1 ^ 4).
Proof. exact gm_mvsk_true. Qed.
Print Assumptions C40_gamma_mvsk.
Theorem C40_ig_mvsk : forall mu lam, 0 < mu -> 0 < lam -> is_density (ig_density mu lam) /\ exists m1 m2 m3 m4,
  pos_expect (ig_density mu lam) (fun x => x) m1 /\ pos_expect (ig_density mu lam) (fun x => x ^ 2) m2 /\
  pos_expect (ig_density mu lam) (fun x => x ^ 3) m3 /\ pos_expect (ig_density mu lam) (fun x => x ^ 4) m4 /\
  ig_mvsk (mkIg mu lam) = (m1, var_of_raw m1 m2 / m1 ^ 2, skew_of_raw m1 m2 m3, exkurt_of_raw m1 m2 m3 m4) /\
  mc4_of (ig_mvsk (mkIg mu lam)) = (m1, m2 - m1 ^ 2, m3 - 3 * m1 * m2 + 2 * m1 ^ 3, m4 - 4 * m1 * m3 + 6 * m1 ^ 2 * m2 - 3 * m1 ^ 4).
Proof. intros mu lam H1 H2. split; [exact (ig_is_density mu lam H1 H2)|exact (ig_mvsk_true mu lam H1 H2)]. Qed.
Print Assumptions C40_ig_mvsk.
(** DistGig.mnc is the true r-th moment, given that scipy's kve is the scaled Bessel function. *)
Theorem C40_gig_moments : forall kve gm dl p r, 0 < gm -> 0 < dl -> 0 < kve p (gm * dl) ->
  let q := gm * dl in let kp := kve p q * exp (- q) in bessel_K p q kp -> bessel_K (p + INR r) q (kve (p + INR r) q * exp (- q)) ->
  is_density (gig_density gm dl p kp) /\ pos_expect (gig_density gm dl p kp) (fun x => x ^ r) (gig_mnc kve (mkGig gm dl p) r).
Proof. intros kve gm dl p r H1 H2 H3 q kp B1 B2. split; [exact (gig_is_density gm dl p H1 H2 kve H3 B1)|exact (gig_moment gm dl p H1 H2 kve H3 r B1 B2)]. Qed.
Print Assumptions C40_gig_moments.
(** DistGh.mvsk: for any mixing density with the given raw moments. *)
Theorem C40_gh_mvsk : forall dens mu beta m1 m2 m3 m4, is_density dens ->
  pos_expect dens (fun x => x) m1 -> pos_expect dens (fun x => x ^ 2) m2 -> pos_expect dens (fun x => x ^ 3) m3 -> pos_expect dens (fun x => x ^ 4) m4 ->
  exists mean c2 c3 c4, nvm_expect dens mu beta (fun y => y) mean /\ nvm_expect dens mu beta (fun y => (y - mean) ^ 2) c2 /\
    nvm_expect dens mu beta (fun y => (y - mean) ^ 3) c3 /\ nvm_expect dens mu beta (fun y => (y - mean) ^ 4) c4 /\
    (0 <= c2 -> gh_mvsk_of mu beta m1 m2 m3 m4 = (mean, c2, c3 / sqrt c2 ^ 3, c4 / c2 ^ 2 - 3)).
Proof. exact gh_mvsk_density. Qed.
Print Assumptions C40_gh_mvsk.
(** DistNig.mvsk: the closed form is the law of the inverse Gaussian mixture. *)
Theorem C40_nig_mvsk : forall mu beta gm dl, 0 < gm -> 0 < dl -> let dens := ig_density (dl / gm) (dl ^ 2) in
  exists mean c2 c3 c4, nvm_expect dens mu beta (fun y => y) mean /\ nvm_expect dens mu beta (fun y => (y - mean) ^ 2) c2 /\
    nvm_expect dens mu beta (fun y => (y - mean) ^ 3) c3 /\ nvm_expect dens mu beta (fun y => (y - mean) ^ 4) c4 /\
    nig_mvsk mu beta gm dl = (mean, c2, c3 / sqrt c2 ^ 3, c4 / c2 ^ 2 - 3).
Proof. exact nig_mvsk_law. Qed.
Print Assumptions C40_nig_mvsk.
(** Fits: the moments read back are the ones asked for. *)
Theorem C40_lognormal_fit_two : forall lam0 vd mean vs rest lam, 0 < vs -> (rest = [] \/ lam <> None) ->
  let l := match lam with Some l => l | None => lam0 end in l <> 0 ->
  exists d sk ku, ln_fit lam0 vd (mean :: vs :: rest) lam = Some d /\ ln_lam d = l /\ ln_mvsk d = (mean, vs, sk, ku).
Proof. exact ln_fit_two. Qed.
Print Assumptions C40_lognormal_fit_two.
Theorem C40_lognormal_fit_three : forall lam0 vd mean vs s, 0 < vs -> 0 < s ->
  exists d ku, ln_fit lam0 vd [mean; vs; s] None = Some d /\ 0 < ln_lam d /\ ln_mvsk d = (mean, vs, s, ku).
Proof. exact ln_fit_three. Qed.
Print Assumptions C40_lognormal_fit_three.
(** A negative skewness is fitted with the opposite sign, and with validation the call raises. *)
Theorem C40_lognormal_fit_negative_skew_refuted : forall lam0 mean vs s, 0 < vs -> s < 0 ->
  (exists d ku, ln_fit lam0 false [mean; vs; s] None = Some d /\ ln_mvsk d = (mean, vs, - s, ku)) /\
  (s <= - / 10 ^ 3 -> ln_fit lam0 true [mean; vs; s] None = None).
Proof. intros lam0 mean vs s H1 H2. split; [exact (ln_fit_negative lam0 mean vs s H1 H2)|exact (ln_fit_negative_validate lam0 mean vs s H1)]. Qed.
Print Assumptions C40_lognormal_fit_negative_skew_refuted.
Theorem C40_gamma_fit : forall mean vs, 0 < mean -> 0 < vs ->
  exists sk ku, gm_mvsk (gm_fit mean vs) = (mean, vs, sk, ku) /\ 0 < gm_shape (gm_fit mean vs) /\ 0 < gm_rate (gm_fit mean vs).
Proof. exact gm_fit_ok. Qed.
Print Assumptions C40_gamma_fit.
Theorem C40_ig_fit : forall mean vs, 0 < mean -> 0 < vs -> exists sk ku, ig_mvsk (ig_fit mean vs) = (mean, vs, sk, ku).
Proof. exact ig_fit_ok. Qed.
Print Assumptions C40_ig_fit.
(** GIG: any root of the scaled-variance equation reproduces mean and scaled variance. *)
Theorem C40_gig_fit : forall kve p mean vs eta, 0 < eta -> 0 < mean -> 0 < kve p eta -> 0 < kve (p + 1) eta -> gig_cv2_err kve p vs eta = 0 ->
  exists sk ku, gig_mvsk kve (gig_fit_at kve p mean eta) = (mean, vs, sk, ku) /\ gg_p (gig_fit_at kve p mean eta) = p /\
   0 < gg_gamma (gig_fit_at kve p mean eta) /\ 0 < gg_delta (gig_fit_at kve p mean eta).
Proof. exact gig_fit_ok. Qed.
Print Assumptions C40_gig_fit.
Example C40_ex : exists d ku, ln_fit 1 true [2; / 2; 3] None = Some d /\ 0 < ln_lam d /\ ln_mvsk d = (2, / 2, 3, ku).
Proof. apply C40_lognormal_fit_three; lra. Qed.
Example C40_ex_gig : gig_cv2_err (fun p q => exp (q * p)) 0 0 1 = 0.
Proof. unfold gig_cv2_err. cbv zeta. replace (1 * 0) with 0 by ring. rewrite exp_0. replace (1 * (0 + 2)) with (1 * (0 + 1) + 1 * (0 + 1)) by ring. rewrite exp_plus. pose proof (exp_pos (1 * (0 + 1))). field. lra. Qed.
