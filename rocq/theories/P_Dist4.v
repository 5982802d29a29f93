(** Gamma, generalized inverse Gaussian and generalized hyperbolic distributions. *)
From Coq Require Import Reals Lra Lia List Psatz Bool.
From Coquelicot Require Import Coquelicot.
From Verif Require Import Base Gauss Sums M_Opt M_Sabr M_Dist Spec_Opt Spec_Expect Spec_Misc Spec_Dist P_Black P_Expect P_Gmom P_Gmom2 P_Dist P_Dist2 P_Dist3 P_Half.
Import ListNotations.
Open Scope R_scope.

(** *** gamma *)
Section Gm.
Variables (c a b : R).
Hypotheses (Ha : 0 < a) (Hb : 0 < b).
Let gd := gamma_density c a b.
Lemma gd_pow k x : 0 < x -> x ^ k * gd x = c * (Rpower x (a + INR k - 1) * exp (- b * x)).
Proof.
  intros Hx. unfold gd, gamma_density. rewrite <- (Rpower_pow k) by exact Hx. replace (a + INR k - 1) with (INR k + (a - 1)) by ring. rewrite Rpower_plus. ring.
Qed.
Lemma gamma_step k v : half_line (fun x => x ^ k * gd x) v -> half_line (fun x => x ^ S k * gd x) ((a + INR k) / b * v).
Proof.
  intros H. assert (Hk : 0 <= INR k) by apply pos_INR.
  set (G := fun x => - (c / b) * (Rpower x (a + INR k) * exp (- b * x))).
  set (g := fun x => x ^ S k * gd x - (a + INR k) / b * (x ^ k * gd x)).
  assert (D : forall x, 0 < x -> is_derive G x (g x)).
  { intros x Hx. unfold G. eapply is_derive_eq.
    - apply (is_derive_scal (fun x => Rpower x (a + INR k) * exp (- b * x)) x (- (c / b))).
      apply (is_derive_mult (fun x => Rpower x (a + INR k)) (fun x => exp (- b * x)) x ((a + INR k) * Rpower x (a + INR k - 1)) (- b * exp (- b * x))).
      + now apply is_derive_Rpower.
      + auto_derive; [trivial|]. Req. ring.
      + intros; apply Rmult_comm.
    - unfold plus, mult, scal; cbn. unfold g. rewrite !gd_pow by exact Hx. rewrite S_INR. replace (a + (INR k + 1) - 1) with (a + INR k) by ring. Req. field. lra. }
  assert (K : half_line g 0).
  { replace 0 with (- (c / b) * 0 - - (c / b) * 0) by ring. apply (half_line_anti G).
    - exact D.
    - intros x Hx. apply ex_derive_continuous_R. unfold g, gd, gamma_density, Rpower. auto_derive. repeat split; exact Hx.
    - unfold G. apply (filterlim_comp _ _ _ (fun x => Rpower x (a + INR k) * exp (- b * x)) (fun y => - (c / b) * y) _ (locally 0)).
      + apply powexp_lim_0; lra.
      + apply (filterlim_scal_r (K := R_AbsRing) (V := R_NormedModule) (- (c / b)) 0).
    - apply (is_lim_scal_l (fun x => Rpower x (a + INR k) * exp (- b * x)) (- (c / b)) p_infty 0). apply powexp_lim_p; lra. }
  replace ((a + INR k) / b * v) with (0 + (a + INR k) / b * v) by ring.
  eapply half_line_ext; [|exact (half_line_plus _ _ _ _ K (half_line_scal _ _ ((a + INR k) / b) H))]. intros x Hx. unfold g. ring.
Qed.
Lemma gamma_moment k : is_density gd -> pos_expect gd (fun x => x ^ k) (rising a k / b ^ k).
Proof.
  intros [_ D]. induction k as [|k IH].
  - cbn [rising pow]. replace (1 / 1) with 1 by field. eapply half_line_ext; [|exact D]. intros. cbv beta. ring.
  - replace (rising a (S k) / b ^ S k) with ((a + INR k) / b * (rising a k / b ^ k)). { now apply gamma_step. }
    cbn [rising pow]. assert (b ^ k <> 0) by (apply pow_nonzero; lra). field. lra.
Qed.
End Gm.
Lemma gm_mvsk_true c d : 0 < gm_shape d -> 0 < gm_rate d -> let dens := gamma_density c (gm_shape d) (gm_rate d) in is_density dens ->
  exists m1 m2 m3 m4, pos_expect dens (fun x => x) m1 /\ pos_expect dens (fun x => x ^ 2) m2 /\ pos_expect dens (fun x => x ^ 3) m3 /\ pos_expect dens (fun x => x ^ 4) m4 /\
  gm_mvsk d = (m1, var_of_raw m1 m2 / m1 ^ 2, skew_of_raw m1 m2 m3, exkurt_of_raw m1 m2 m3 m4) /\
  mc4_of (gm_mvsk d) = (m1, m2 - m1 ^ 2, m3 - 3 * m1 * m2 + 2 * m1 ^ 3, m4 - 4 * m1 * m3 + 6 * m1 ^ 2 * m2 - 3 * m1 ^ 4).
Proof.
  intros Ha Hb dens D. destruct d as [a b]. cbn [gm_shape gm_rate] in *.
  pose proof (gamma_moment c a b Ha Hb 1 D) as M1. pose proof (gamma_moment c a b Ha Hb 2 D) as M2.
  pose proof (gamma_moment c a b Ha Hb 3 D) as M3. pose proof (gamma_moment c a b Ha Hb 4 D) as M4.
  exists (rising a 1 / b ^ 1), (rising a 2 / b ^ 2), (rising a 3 / b ^ 3), (rising a 4 / b ^ 4).
  split. { eapply half_line_ext; [|exact M1]. intros. cbv beta. now rewrite pow_1. }
  split; [exact M2|]. split; [exact M3|]. split; [exact M4|]. clear M1 M2 M3 M4 D dens.
  unfold gm_mvsk, mc4_of, var_of_raw, skew_of_raw, exkurt_of_raw, var_of_raw. cbn [gm_shape gm_rate rising INR].
  set (q := sqrt a). assert (Q2 : q * q = a) by (apply sqrt_sqrt; lra). assert (Qp : 0 < q) by (apply sqrt_lt_R0; lra).
  assert (V : 1 * (a + 0) * (a + 1) / b ^ 2 - (1 * (a + 0) / b ^ 1) ^ 2 = (q / b) ^ 2).
  { replace ((q / b) ^ 2) with (q * q / b ^ 2) by (field; lra). rewrite Q2. field. lra. }
  assert (V' : 1 / a * (a / b) ^ 2 = (q / b) ^ 2). { replace ((q / b) ^ 2) with (q * q / b ^ 2) by (field; lra). rewrite Q2. field. lra. }
  rewrite V, V'. rewrite sqrt_pow2 by (left; apply Rdiv_lt_0_compat; lra). rewrite <- Q2. clear V V' Q2. clearbody q. assert (0 < q * q) by nra.
  split; (apply (f_equal2 pair); [apply (f_equal2 pair); [apply (f_equal2 pair)|]|]); try field; try lra.
Qed.
Lemma gm_fit_ok mean vs : 0 < mean -> 0 < vs -> exists sk ku, gm_mvsk (gm_fit mean vs) = (mean, vs, sk, ku) /\ 0 < gm_shape (gm_fit mean vs) /\ 0 < gm_rate (gm_fit mean vs).
Proof.
  intros H1 H2. unfold gm_fit, gm_mvsk. cbn [gm_shape gm_rate]. do 2 eexists. split; [|split; apply Rdiv_lt_0_compat; nra].
  apply (f_equal2 pair); [apply (f_equal2 pair); [apply (f_equal2 pair)|]|]; try reflexivity; field; lra.
Qed.
Lemma gm_quad_rule d xw f : rule_sum f (gm_quad d xw) = rule_sum (fun x => f (x / gm_rate d)) xw / rule_sum (fun _ => 1) xw.
Proof.
  unfold gm_quad. cbv zeta. rewrite rule_sum_one. set (W := rule_sum (fun _ => 1) xw).
  rewrite (rule_sum_map (fun x => x / gm_rate d) (fun _ => / W)). unfold Rdiv at 2. rewrite Rmult_comm, <- rule_sum_scal. reflexivity.
Qed.
Lemma gm_quad_moment n c d xw k : 0 < gm_shape d -> 0 < gm_rate d -> is_density (gamma_density c (gm_shape d) (gm_rate d)) ->
  laguerre_rule n (gm_shape d) xw -> (k <= 2 * n - 1)%nat ->
  pos_expect (gamma_density c (gm_shape d) (gm_rate d)) (fun x => x ^ k) (rule_sum (fun x => x ^ k) (gm_quad d xw)).
Proof.
  intros Ha Hb D [P H] Hk. rewrite gm_quad_rule. assert (W : 0 < rule_sum (fun _ => 1) xw) by (apply rule_sum_pos; [exact P|intros; lra]).
  rewrite (rule_sum_ext _ (fun x => / gm_rate d ^ k * x ^ k)) by (intros; unfold Rdiv; rewrite Rpow_mult_distr, pow_inv; ring).
  rewrite rule_sum_scal, H by exact Hk. assert (gm_rate d ^ k <> 0) by (apply pow_nonzero; lra).
  replace (/ gm_rate d ^ k * (rising (gm_shape d) k * rule_sum (fun _ => 1) xw) / rule_sum (fun _ => 1) xw) with (rising (gm_shape d) k / gm_rate d ^ k) by (field; lra).
  now apply gamma_moment.
Qed.

(** *** GIG *)
Section Gig.
Variables (gm dl p : R).
Hypotheses (Hg : 0 < gm) (Hd : 0 < dl).
Let q := gm * dl.
Lemma gig_integral s v : bessel_K s q v ->
  half_line (fun y => Rpower y (s - 1) * exp (- (gm ^ 2 * y + dl ^ 2 / y) / 2)) (2 * v / Rpower (gm / dl) s).
Proof.
  intros H. assert (Hc : 0 < gm / dl) by (apply Rdiv_lt_0_compat; assumption). pose proof (half_line_dilate _ _ (gm / dl) Hc H) as G.
  pose proof (half_line_scal _ _ (2 / Rpower (gm / dl) s) G) as G2. replace (2 / Rpower (gm / dl) s * v) with (2 * v / Rpower (gm / dl) s) in G2 by (unfold Rdiv; ring).
  eapply half_line_ext; [|exact G2]. intros y Hy. cbv beta.
  assert (E : - q * (gm / dl * y + / (gm / dl * y)) / 2 = - (gm ^ 2 * y + dl ^ 2 / y) / 2). { unfold q. field. lra. }
  rewrite E. unfold Rpower at 2. rewrite ln_mult by assumption. replace ((s - 1) * (ln (gm / dl) + ln y)) with (s * ln (gm / dl) + - ln (gm / dl) + (s - 1) * ln y) by ring.
  rewrite !exp_plus, exp_Ropp, exp_ln by exact Hc. unfold Rpower. pose proof (exp_pos (s * ln (gm / dl))). field. lra.
Qed.
Variable kve : R -> R -> R.
Let d := mkGig gm dl p.
Hypothesis Hk : 0 < kve p q.
Lemma gig_moment r : bessel_K p q (kve p q * exp (- q)) -> bessel_K (p + INR r) q (kve (p + INR r) q * exp (- q)) ->
  pos_expect (gig_density gm dl p (kve p q * exp (- q))) (fun x => x ^ r) (gig_mnc kve d r).
Proof.
  intros _ H. pose proof (gig_integral _ _ H) as G. assert (Hc : 0 < gm / dl) by (apply Rdiv_lt_0_compat; assumption). pose proof (exp_pos (- q)) as Ep.
  pose proof (half_line_scal _ _ (Rpower (gm / dl) p / (2 * (kve p q * exp (- q)))) G) as G2.
  replace (Rpower (gm / dl) p / (2 * (kve p q * exp (- q))) * (2 * (kve (p + INR r) q * exp (- q)) / Rpower (gm / dl) (p + INR r))) with (gig_mnc kve d r) in G2.
  - eapply half_line_ext; [|exact G2]. intros y Hy. cbv beta. unfold gig_density. rewrite <- (Rpower_pow r) by exact Hy.
    replace (p + INR r - 1) with (INR r + (p - 1)) by ring. rewrite Rpower_plus. ring.
  - unfold gig_mnc, d. cbn [gg_gamma gg_delta gg_p]. fold q. rewrite Rpower_plus, Rpower_pow by exact Hc.
    replace (dl / gm) with (/ (gm / dl)) by (field; lra). rewrite pow_inv. pose proof (Rpower_pos' (gm / dl) p). assert (0 < (gm / dl) ^ r) by (apply pow_lt; exact Hc).
    field. repeat split; lra.
Qed.
Lemma gig_is_density : bessel_K p q (kve p q * exp (- q)) -> is_density (gig_density gm dl p (kve p q * exp (- q))).
Proof.
  intros H. split.
  - intros x Hx. unfold gig_density. pose proof (exp_pos (- q)). pose proof (Rpower_pos' (gm / dl) p). pose proof (Rpower_pos' x (p - 1)). pose proof (exp_pos (- (gm ^ 2 * x + dl ^ 2 / x) / 2)).
    left. apply Rmult_lt_0_compat; [|assumption]. apply Rmult_lt_0_compat; [|assumption]. apply Rdiv_lt_0_compat; [assumption|]. nra.
  - pose proof (gig_moment 0) as M. cbn [INR] in M. rewrite Rplus_0_r in M. specialize (M H H). unfold gig_mnc, d in M. cbn [gg_gamma gg_delta gg_p pow INR] in M. fold q in M. rewrite Rplus_0_r in M.
    replace (1 * kve p q / kve p q) with 1 in M by (field; lra). eapply half_line_ext; [|exact M]. intros. cbv beta. ring.
Qed.
(** the density ratio used by the quadrature *)
Definition gig_ratio : R := Rpower (gm / dl) p / dl / sqrt (2 / PI) / kve p q.
Lemma gig_reweight x : 0 < x -> gig_density gm dl p (kve p q * exp (- q)) x = gig_ratio * Rpower x (p + / 2) * ig_density (dl / gm) (dl ^ 2) x.
Proof.
  intros Hx. unfold gig_density, gig_ratio, ig_density. pose proof PI_RGT_0 as HP. pose proof (exp_pos (- q)) as Ep.
  set (w := sqrt (2 * PI)). assert (W2 : w * w = 2 * PI) by (apply sqrt_sqrt; lra). assert (Wp : 0 < w) by (apply sqrt_lt_R0; lra).
  assert (S1 : sqrt (2 / PI) = 2 / w).
  { replace (2 / PI) with ((2 / w) ^ 2). { apply sqrt_pow2. left. apply Rdiv_lt_0_compat; lra. } replace ((2 / w) ^ 2) with (4 / (w * w)) by (field; lra). rewrite W2. field. lra. }
  assert (S2 : sqrt (dl ^ 2 / (2 * PI * x ^ 3)) = dl / w * Rpower x (- (3 / 2))).
  { assert (X3 : Rpower x (- (3 / 2)) ^ 2 = / x ^ 3).
    { rewrite <- Rpower_pow by apply Rpower_pos'. rewrite Rpower_mult. replace (- (3 / 2) * INR 2) with (- INR 3) by (cbn; field). rewrite Rpower_Ropp, Rpower_pow by exact Hx. reflexivity. }
    assert (0 < x ^ 3) by (apply pow_lt; exact Hx).
    replace (dl ^ 2 / (2 * PI * x ^ 3)) with ((dl / w * Rpower x (- (3 / 2))) ^ 2).
    { apply sqrt_pow2. left. apply Rmult_lt_0_compat; [apply Rdiv_lt_0_compat; lra|apply Rpower_pos']. }
    rewrite Rpow_mult_distr, X3. replace ((dl / w) ^ 2) with (dl ^ 2 / (w * w)) by (field; lra). rewrite W2. field. lra. }
  rewrite S1, S2.
  assert (E : - (dl ^ 2 * (x - dl / gm) ^ 2) / (2 * (dl / gm) ^ 2 * x) = - (gm ^ 2 * x + dl ^ 2 / x) / 2 + q). { unfold q. field. lra. }
  rewrite E. rewrite exp_plus. replace (exp q) with (/ exp (- q)) by (rewrite exp_Ropp, Rinv_inv; reflexivity).
  replace (Rpower x (p - 1)) with (Rpower x (p + / 2) * Rpower x (- (3 / 2))) by (rewrite <- Rpower_plus; f_equal; field). field. repeat split; lra.
Qed.
Lemma gig_quad_moment n zw m k : p = - / 2 + INR m -> hermite_rule n zw -> (k + m <= n)%nat -> (1 <= n)%nat -> bessel_K p q (kve p q * exp (- q)) ->
  pos_expect (gig_density gm dl p (kve p q * exp (- q))) (fun x => x ^ k) (rule_sum (fun x => x ^ k) (gig_quad kve d false zw)).
Proof.
  intros Hp HR Hkn Hn HB. assert (Hmu : 0 < dl / gm) by (apply Rdiv_lt_0_compat; lra). assert (Hl2 : 0 < dl ^ 2) by (apply pow_lt; lra).
  pose proof (ig_quad_moment (dl / gm) (dl ^ 2) Hmu Hl2 n zw (k + m) HR Hkn Hn) as M.
  pose proof (half_line_scal _ _ gig_ratio M) as M2. unfold pos_expect.
  replace (rule_sum (fun x => x ^ k) (gig_quad kve d false zw)) with (gig_ratio * rule_sum (fun x => x ^ (k + m)) (ig_quad (mkIg (dl / gm) (dl ^ 2)) zw)).
  - eapply half_line_ext; [|exact M2]. intros x Hx. cbv beta. rewrite gig_reweight by exact Hx. replace (p + / 2) with (INR m) by (rewrite Hp; ring). rewrite Rpower_pow by exact Hx.
    rewrite pow_add. ring.
  - unfold gig_quad, d. cbn [gg_gamma gg_delta gg_p]. cbv zeta. fold q. change (Rpower (gm / dl) p / dl / sqrt (2 / PI) / kve p q) with gig_ratio.
    rewrite map_map. cbn [fst snd]. pose proof (ig_quad_pos (dl / gm) (dl ^ 2) Hmu Hl2 zw (proj1 HR)) as PP. set (xw := ig_quad _ zw) in *.
    rewrite (map_ext _ (fun p0 => (fst p0, snd p0 * (Rpower (fst p0) (p + / 2) * gig_ratio)))) by (intros; f_equal; ring).
    rewrite (rule_sum_map (fun x => x) (fun x => Rpower x (p + / 2) * gig_ratio)). rewrite <- rule_sum_scal. apply rule_sum_ext_in. intros x w Hi.
    rewrite Forall_forall in PP. destruct (PP _ Hi) as [Hx _]. cbn in Hx. replace (p + / 2) with (INR m) by (rewrite Hp; ring). rewrite Rpower_pow by exact Hx. rewrite pow_add. ring.
Qed.
Lemma gig_quad_correct_mass zw : positive_rule zw -> rule_sum (fun _ => 1) (gig_quad kve d true zw) = 1.
Proof.
  intros P. assert (Hmu : 0 < dl / gm) by (apply Rdiv_lt_0_compat; lra). assert (Hl2 : 0 < dl ^ 2) by (apply pow_lt; lra).
  unfold gig_quad, d. cbn [gg_gamma gg_delta gg_p]. cbv zeta. pose proof (ig_quad_pos (dl / gm) (dl ^ 2) Hmu Hl2 zw P) as PP.
  assert (NE : ig_quad (mkIg (dl / gm) (dl ^ 2)) zw <> []). { unfold ig_quad. cbv zeta. destruct P as [N _]. destruct zw; [congruence|discriminate]. }
  set (xw := ig_quad _ zw) in *. set (tot := lsum (map snd (map _ xw))).
  assert (T : 0 < tot). { unfold tot. rewrite map_map. cbn [snd]. apply lsum_pos; [exact NE|]. intros [x w] Hi. cbn. rewrite Forall_forall in PP. destruct (PP _ Hi) as [_ Hw]. cbn in Hw. apply Rmult_lt_0_compat; [exact Hw|apply Rpower_pos']. }
  unfold rule_sum. rewrite map_map. cbn [fst snd]. rewrite (map_ext _ (fun x => / tot * snd x)) by (intros; unfold Rdiv; ring).
  rewrite (lsum_map_scal (/ tot) snd). fold tot. now apply Rinv_l, Rgt_not_eq.
Qed.
End Gig.
(** K_{-1/2} *)
Lemma bessel_half q : 0 < q -> bessel_K (- / 2) q (sqrt (PI / (2 * q)) * exp (- q)).
Proof.
  intros Hq. pose proof (proj2 (ig_is_density 1 q Rlt_0_1 Hq)) as H. pose proof PI_RGT_0 as HP. unfold bessel_K.
  pose proof (half_line_scal _ _ (sqrt (PI / (2 * q)) * exp (- q)) H) as G. rewrite Rmult_1_r in G. eapply half_line_ext; [|exact G].
  intros x Hx. cbv beta. unfold ig_density.
  assert (E : - (q * (x - 1) ^ 2) / (2 * 1 ^ 2 * x) = - q * (x + / x) / 2 + q) by (field; lra). rewrite E. rewrite exp_plus.
  assert (X3 : Rpower x (- / 2 - 1) ^ 2 = / x ^ 3).
  { rewrite <- Rpower_pow by apply Rpower_pos'. rewrite Rpower_mult. replace ((- / 2 - 1) * INR 2) with (- INR 3) by (cbn; field). rewrite Rpower_Ropp, Rpower_pow by exact Hx. reflexivity. }
  assert (0 < x ^ 3) by (apply pow_lt; exact Hx).
  assert (S : sqrt (PI / (2 * q)) * sqrt (q / (2 * PI * x ^ 3)) = / 2 * Rpower x (- / 2 - 1)).
  { rewrite <- sqrt_mult. 2:{ left; apply Rdiv_lt_0_compat; lra. } 2:{ left; apply Rdiv_lt_0_compat; [lra|]. apply Rmult_lt_0_compat; lra. }
    replace (PI / (2 * q) * (q / (2 * PI * x ^ 3))) with ((/ 2 * Rpower x (- / 2 - 1)) ^ 2).
    { apply sqrt_pow2. apply Rmult_le_pos; [lra|left; apply Rpower_pos']. } rewrite Rpow_mult_distr, X3. field. lra. }
  symmetry. transitivity ((sqrt (PI / (2 * q)) * sqrt (q / (2 * PI * x ^ 3))) * exp (- q * (x + / x) / 2)). { rewrite S. reflexivity. }
  rewrite (exp_Ropp q). pose proof (exp_pos q). field. lra.
Qed.
Lemma gig_fit_ok kve p mean vs eta : 0 < eta -> 0 < mean -> 0 < kve p eta -> 0 < kve (p + 1) eta -> gig_cv2_err kve p vs eta = 0 ->
  exists sk ku, gig_mvsk kve (gig_fit_at kve p mean eta) = (mean, vs, sk, ku) /\ gg_p (gig_fit_at kve p mean eta) = p /\
   0 < gg_gamma (gig_fit_at kve p mean eta) /\ 0 < gg_delta (gig_fit_at kve p mean eta).
Proof.
  intros He Hm K0 K1 HR. unfold gig_cv2_err in HR. cbv zeta in HR. unfold gig_fit_at. cbv zeta. set (r1 := kve (p + 1) eta / kve p eta) in *.
  assert (R1 : 0 < r1) by (apply Rdiv_lt_0_compat; assumption). set (rho := mean / r1). assert (Hrho : 0 < rho) by (apply Rdiv_lt_0_compat; assumption).
  assert (A : 0 < eta / rho) by (apply Rdiv_lt_0_compat; assumption). assert (B : 0 < eta * rho) by nra.
  assert (P1 : sqrt (eta / rho) * sqrt (eta * rho) = eta). { rewrite <- sqrt_mult by lra. replace (eta / rho * (eta * rho)) with (eta ^ 2) by (field; lra). apply sqrt_pow2. lra. }
  assert (SA : 0 < sqrt (eta / rho)) by (apply sqrt_lt_R0; lra). assert (SB : 0 < sqrt (eta * rho)) by (apply sqrt_lt_R0; lra).
  assert (P2 : sqrt (eta * rho) / sqrt (eta / rho) = rho).
  { apply (Rmult_eq_reg_r (sqrt (eta / rho) * sqrt (eta / rho))); [|nra]. replace (sqrt (eta * rho) / sqrt (eta / rho) * (sqrt (eta / rho) * sqrt (eta / rho))) with (sqrt (eta / rho) * sqrt (eta * rho)) by (field; lra).
    rewrite P1, sqrt_sqrt by lra. field. lra. }
  unfold gig_mvsk, gig_mnc. cbn [gg_gamma gg_delta gg_p]. rewrite P1, P2. cbn [INR]. replace (1 + 1) with 2 by ring.
  do 2 eexists. split; [|repeat split; assumption]. replace (p + (2 + 1)) with (p + 3) by ring.
  apply (f_equal2 pair); [apply (f_equal2 pair); [apply (f_equal2 pair)|reflexivity]|reflexivity].
  - unfold rho, r1. field. lra.
  - set (r2 := kve (p + 2) eta / kve p eta) in *. replace vs with ((r2 - r1 ^ 2) / r1 ^ 2) by lra.
    replace (rho ^ 2 * kve (p + 2) eta / kve p eta) with (rho ^ 2 * r2) by (unfold r2, Rdiv; ring). replace (rho ^ 1 * kve (p + 1) eta / kve p eta) with (rho * r1) by (unfold r1, Rdiv; ring).
    field. lra.
Qed.
