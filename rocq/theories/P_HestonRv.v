(** Realised variance by simulation: the Poisson-conditioned scheme estimates the analytic variance-swap strike without bias. *)
From Coq Require Import Reals Lra Lia List Arith Psatz FunctionalExtensionality.
From Coquelicot Require Import Coquelicot.
From Verif Require Import Base Sums M_Opt M_Mgf M_Heston M_Mc P_Mc P_Cir P_Cir2 P_KlSum M_HestonMc M_HestonMc2 Spec_Dist Spec_Cev Spec_CevMc Spec_HestonMc Spec_HestonMc2 P_HestonMc P_HestonMc2 P_HestonMc3 P_HestonMc5.
Import ListNotations.
Open Scope R_scope.

Lemma set_draw_eq w i y : set_draw w i y i = y.
Proof. unfold set_draw. now rewrite Nat.eqb_refl. Qed.
Lemma pg_ext Gam s al inten n : forall i v F G x, (forall w, F w = G w) -> pg_expect Gam s al inten n i v F x -> pg_expect Gam s al inten n i v G x.
Proof.
  intros i v F G x E H. replace G with F; [exact H|]. apply functional_extensionality. exact E.
Qed.
Lemma rv_loop_ext m p corr cond s1 s2 z : forall dts i v acc, (forall j d v, (i <= j)%nat -> s1 j d v = s2 j d v) -> hmc_rv_loop m p corr cond s1 z i dts v acc = hmc_rv_loop m p corr cond s2 z i dts v acc.
Proof.
  induction dts as [|d t IH]; intros i v acc H; [reflexivity|]. cbn [hmc_rv_loop]. rewrite (H i d v (Nat.le_refl i)). destruct (s2 i d v) as [[[a b] c] e]. apply IH. intros j d' v' L. apply H. lia.
Qed.

Section T.
Variable Gam : R -> R.
Hypothesis HG : gamma_function Gam.
Variables (ive : R -> R -> R) (m : opt) (p : svp) (dt : R).
Let c := heston_cir p.
Hypothesis (Hxi : 0 < v_vov p) (Hmr : 0 < v_mr p) (Hth : 0 < v_theta p) (Hdt : 0 < dt) (Ha10 : 1 / 10 <= v_mr p * dt / 2).
Let mx := fst (x1star c dt 0). Let vx := snd (x1star c dt 0) * mx ^ 2.
Let mz := fst (x2star c dt 0). Let vz := snd (x2star c dt 0) * mz ^ 2.
Let e := cir_exp_h c dt. Let phi := cir_phi c dt.
Let s := e / phi * 2. Let al := 4 * c_mr c * c_theta c / c_xi c ^ 2 / 2.
Let Hs : 0 < s.
Proof. unfold s. apply Rmult_lt_0_compat; [|lra]. apply Rdiv_lt_0_compat; [apply exp_pos|now apply phi_pos]. Qed.
Let Hal : 0 < al. Proof. unfold al. pose proof (chi_pos c Hxi Hmr Hth) as P. unfold chi_dim in P. replace (4 * c_mr c * c_theta c) with (4 * c_theta c * c_mr c) by ring. lra. Qed.
Section V0.
Variable v0 : R. Hypothesis Hv0 : 0 < v0.
Let mu := v0 * e * phi / 2.
Let M1 := s * (al + mu).
Let VV := s ^ 2 * (al + 2 * mu).
Let CV := mx * s ^ 2 * (al + 2 * mu) + 2 * mz * s * mu.
Let av := mx * (v0 + s * (al + mu)) + mz * (2 * mu + al).
Let a := c_mr c * dt / 2.
Let Ha : 0 < a. Proof. unfold a. assert (0 < c_mr c * dt) by now apply Rmult_lt_0_compat. lra. Qed.
Let He : 0 < e < 1. Proof. unfold e, cir_exp_h. split; [apply exp_pos|]. rewrite <- exp_0 at 1. apply exp_increasing. pose proof Ha as Ha'. unfold a in Ha'. lra. Qed.
Let sinh_e : sinh a = (/ e - e) / 2. Proof. unfold sinh, e, cir_exp_h. fold a. rewrite exp_Ropp. rewrite Rinv_inv. reflexivity. Qed.
Let cosh_e : cosh a = (/ e + e) / 2. Proof. unfold cosh, e, cir_exp_h. fold a. rewrite exp_Ropp. rewrite Rinv_inv. reflexivity. Qed.
Let e2 : exp (- (c_mr c * dt)) = e ^ 2. Proof. unfold e, cir_exp_h. replace (- (c_mr c * dt)) with (- (c_mr c * dt / 2) + - (c_mr c * dt / 2)) by field. rewrite exp_plus. ring. Qed.
Let phi_e : phi = 4 * c_mr c / c_xi c ^ 2 / (/ e - e). Proof. reflexivity. Qed.
Let dt_a : dt = 2 * a / c_mr c. Proof. unfold a. field. apply Rgt_not_eq. exact Hmr. Qed.
Let exr : exprel (- (c_mr c * dt)) = (1 - e ^ 2) / (2 * a).
Proof. rewrite exprel_eq. - rewrite e2. unfold a. field. split; apply Rgt_not_eq; [exact Hdt|exact Hmr]. - apply Rgt_not_eq. exact Hmr. - apply Rgt_not_eq. exact Hdt. Qed.
Let side : / e - e <> 0. Proof. pose proof He. intros E. assert (1 < / e) by (rewrite <- Rinv_1 at 1; apply Rinv_lt_contravar; lra). lra. Qed.
Let side2 : 1 - e ^ 2 <> 0. Proof. pose proof He. nra. Qed.
Lemma rv_M1 : M1 = cir_mean c dt v0.
Proof. pose proof (cir_mean_td c dt v0 Hxi Hmr Hdt) as H. fold e phi s al mu in H. fold M1 in H. lra. Qed.
Lemma rv_VV : VV = cir_var c dt v0.
Proof.
  unfold cir_var. cbv zeta. rewrite exr, e2. unfold VV, s, al, mu. rewrite phi_e. rewrite dt_a. pose proof He. pose proof Ha. pose proof side. pose proof side2.
  assert (K1 : 0 < c_xi c) by exact Hxi. assert (K2 : 0 < c_mr c) by exact Hmr. clearbody a e. clear - H H0 H1 H2 K1 K2. field. repeat split; try lra; nra.
Qed.
Lemma rv_mxz : mx = cx1m a /\ mz = ge_vov2dt c dt * cx2m a.
Proof.
  pose proof (x1m_err c dt Hmr Hdt) as B1. pose proof (x2m_err c dt Hmr Hdt) as B3. fold a in B1, B3. assert (Hb : 1 / 10 <= a) by exact Ha10. destruct (Rlt_dec a (1 / 10)) as [L|L]; [lra|].
  assert (E1 : x1_mean0 a = cx1m a) by lra. assert (E3 : x2_mf0 a = cx2m a) by lra. split.
  - unfold mx. rewrite (x1star_fst c dt 0). unfold x1M. cbn [rsum]. fold a. lra.
  - unfold mz. rewrite (x2star_fst c dt Hxi Hdt 0). unfold x2M. cbn [rsum]. fold a. rewrite E3. ring.
Qed.
Definition rv_cov : R := c_xi c ^ 2 / c_mr c * (c_theta c * (1 - exprel (- (c_mr c * dt))) + (v0 - c_theta c) * (exprel (- (c_mr c * dt)) - exp (- (c_mr c * dt)))).
Lemma rv_CV : CV + c_mr c * dt * cir_avg_var c dt v0 = rv_cov.
Proof.
  unfold rv_cov, cir_avg_var. cbv zeta. rewrite exr, e2. unfold CV. destruct rv_mxz as [-> ->]. unfold cx1m, cx2m. rewrite sinh_e, cosh_e. unfold s, al, mu, ge_vov2dt. rewrite phi_e, dt_a. pose proof He. pose proof Ha. pose proof side. pose proof side2.
  assert (K1 : 0 < c_xi c) by exact Hxi. assert (K2 : 0 < c_mr c) by exact Hmr. clearbody a e. clear - H H0 H1 H2 K1 K2. field. repeat split; try lra; nra.
Qed.
Lemma rv_isom : VV + 2 * (c_mr c * dt) * CV + (c_mr c * dt) ^ 2 * cir_avg_var c dt v0 = c_xi c ^ 2 * dt * cir_avg_mean c dt v0.
Proof.
  replace CV with (rv_cov - c_mr c * dt * cir_avg_var c dt v0) by (rewrite <- rv_CV; ring). rewrite rv_VV. unfold rv_cov, cir_var, cir_avg_var, cir_avg_mean. cbv zeta. rewrite exr, e2, dt_a. pose proof He. pose proof Ha.
  assert (K1 : 0 < c_xi c) by exact Hxi. assert (K2 : 0 < c_mr c) by exact Hmr. clearbody a e. clear - H H0 K1 K2. field. repeat split; lra.
Qed.
Lemma rv_drift : M1 - v0 + c_mr c * dt * (cir_avg_mean c dt v0 - c_theta c) = 0.
Proof.
  rewrite rv_M1. unfold cir_mean, cir_avg_mean. rewrite exr, e2, dt_a. pose proof Ha. assert (K2 : 0 < c_mr c) by exact Hmr. clearbody a e. clear - H K2. field. lra.
Qed.
Definition pv : svp := mkSv v0 (v_vov p) (v_rho p) (v_mr p) (v_theta p).
Definition rv_second : R := heston_logp_var pv dt + (heston_logp_mean pv dt + (intr m - divr m) * dt) ^ 2.
Let rx := v_rho p / v_vov p.
Lemma rv_algebra : (rx * (M1 - v0 + v_mr p * dt * (cir_avg_mean c dt v0 - v_theta p)) + (intr m - divr m - / 2 * cir_avg_mean c dt v0) * dt) ^ 2
  + rx ^ 2 * VV + 2 * rx * (hmc_tmp p * dt) * CV + (hmc_tmp p * dt) ^ 2 * cir_avg_var c dt v0 + (1 - v_rho p ^ 2) * dt * cir_avg_mean c dt v0 = rv_second.
Proof.
  pose proof rv_drift as D. pose proof rv_isom as I. pose proof rv_CV as C. change (c_mr c) with (v_mr p) in *. change (c_theta c) with (v_theta p) in *. change (c_xi c) with (v_vov p) in *. rewrite D.
  unfold rv_second, heston_logp_var, heston_logp_mean. cbv zeta. cbn [v_mr v_sigma v_theta v_vov v_rho pv]. change (heston_cir pv) with c.
  assert (Ec : v_vov p ^ 2 / v_mr p * (v_theta p * (1 - exprel (- (v_mr p * dt))) + (v0 - v_theta p) * (exprel (- (v_mr p * dt)) - exp (- (v_mr p * dt)))) = rv_cov) by reflexivity.
  rewrite Ec, <- C. set (m1 := cir_avg_mean c dt v0) in *. set (A := cir_avg_var c dt v0) in *. clearbody m1 A.
  replace (rx ^ 2 * VV) with (rx ^ 2 * (v_vov p ^ 2 * dt * m1 - 2 * (v_mr p * dt) * CV - (v_mr p * dt) ^ 2 * A)) by (rewrite <- I; ring).
  unfold hmc_tmp, rx. field. lra.
Qed.
(** one step: increment plus a quadratic continuation value *)
Variables A B D acc : R.
Let inn (k : nat) (g : R) : R := let '(vt, avg, ev) := poistd_step ive c dt v0 (INR k) g in
  acc + hmc_rv_inc m p true true dt v0 vt avg (Some ev) 0 0 + (A + B * vt + D * vt ^ 2).
Let rt := hmc_tmp p * dt.
Let q0 (N : R) := rx * (- v0 - v_mr p * dt * v_theta p) + (intr m - divr m) * dt + rt * (mx * v0 + mz * (2 * N + al)).
Let q1 := rx * s + rt * (mx * s).
Let g0 (N : R) := acc + A + q0 N ^ 2 + (1 - v_rho p ^ 2) * dt * (mx * v0 + mz * (2 * N + al)) + rt ^ 2 * (vx * v0 + vz * (2 * N + al)).
Let g1 (N : R) := 2 * q0 N * q1 + (1 - v_rho p ^ 2) * dt * (mx * s) + rt ^ 2 * (vx * s) + B * s.
Let g2 := q1 ^ 2 + D * s ^ 2.
Lemma inn_quad k g : 0 < g -> inn k g = g0 (INR k) + g1 (INR k) * g + g2 * g ^ 2.
Proof.
  intros Hg. unfold inn. rewrite (step_eq ive c dt v0 Hxi Hmr Hth Hdt Hv0) by (try apply pos_INR; lra). cbv beta iota zeta.
  unfold hmc_rv_inc, hmc_cond_log_return_var, hmc_ln_m, hmc_ln_var. cbv beta iota zeta. unfold g0, g1, g2, q0, q1, rt, hmc_tmp, rx, vx, vz, mx, mz, s, e, phi, al.
  assert (v_vov p <> 0) by lra. assert (cir_phi c dt <> 0) by (apply Rgt_not_eq; now apply phi_pos). assert (c_xi c <> 0) by exact (Rgt_not_eq _ _ Hxi). field. repeat split; assumption.
Qed.
Definition rv_outer (k : nat) : R := g0 (INR k) + g1 (INR k) * (al + INR k) + g2 * ((al + INR k) * (al + INR k + 1)).
Lemma rv_outer_ok k : gam_expect Gam (al + INR k) (inn k) (rv_outer k).
Proof. pose proof Hal. pose proof (pos_INR k). apply (gam_quad Gam HG); [lra|]. intros x Hx. now apply inn_quad. Qed.
Lemma rv_step_value : pois_expect mu rv_outer (acc + rv_second + (A + B * cir_mean c dt v0 + D * (cir_mean c dt v0 ^ 2 + cir_var c dt v0))).
Proof.
  set (b := 2 * mz).
  set (h0 := rv_outer 0).
  set (C2 := (rt * b) ^ 2 + 2 * (rt * b) * q1 + g2).
  set (C1 := rv_outer 1 - h0 - C2).
  assert (Q : forall n, rv_outer n = h0 + C1 * INR n + C2 * INR n ^ 2).
  { intros n. unfold C1, h0, C2, rv_outer, g0, g1, q0, b. cbn [INR]. ring. }
  pose proof (pois_quad mu h0 C1 C2 rv_outer Q) as P.
  replace (acc + rv_second + (A + B * cir_mean c dt v0 + D * (cir_mean c dt v0 ^ 2 + cir_var c dt v0))) with (h0 + C1 * mu + C2 * (mu ^ 2 + mu)); [exact P|].
  rewrite <- rv_M1, <- rv_VV, <- rv_algebra. destruct (td_exact c dt v0 Hxi Hmr Hdt Ha10) as [E1 E2]. rewrite <- E1, <- E2.
  unfold td_var. fold mx. fold mz. fold vx. fold vz. fold e. fold phi. fold s. fold al. fold mu.
  unfold C1, h0, C2, rv_outer, M1, VV, CV, g0, g1, g2, q0, q1, rt, b. change (hmc_tmp p) with (rx * v_mr p - / 2). clearbody rx s al mx mz vx vz mu. cbn [INR]. field.
Qed.
End V0.

(** expected sum of n increments: sum of q(v) propagated by the exact conditional moments *)
Variables a0 a1 a2 : R.
Hypothesis Hq : forall v, rv_second v = a0 + a1 * v + a2 * v ^ 2.
Definition rv_term (t v : R) : R := a0 + a1 * cir_mean c t v + a2 * (cir_mean c t v ^ 2 + cir_var c t v).
Definition rv_sum (n : nat) (v : R) : R := rsum n (fun i => rv_term (INR i * dt) v).
Lemma rv_term_quad t : 0 <= t -> exists A B D, (forall v, rv_term t v = A + B * v + D * v ^ 2) /\
  (forall v, A + B * cir_mean c dt v + D * (cir_mean c dt v ^ 2 + cir_var c dt v) = rv_term (t + dt) v).
Proof.
  intros Ht. set (E := exp (- (v_mr p * t))). set (E1 := exp (- (v_mr p * dt))). set (k := v_mr p) in *. set (th := v_theta p) in *. set (xi := v_vov p) in *.
  assert (CM : forall u v, cir_mean c u v = th + (v - th) * exp (- (k * u))) by reflexivity.
  assert (CW : forall u v, 0 <= u -> cir_var c u v = xi ^ 2 / k * (1 - exp (- (k * u))) * (v * exp (- (k * u)) + th * (1 - exp (- (k * u))) / 2)).
  { intros u v Hu. destruct Hu as [Hu|Hu].
    - unfold cir_var. cbv zeta. change (c_mr c) with k. change (c_theta c) with th. change (c_xi c) with xi. rewrite exprel_eq by lra. field. lra.
    - subst u. unfold cir_var. cbv zeta. rewrite !Rmult_0_r, Ropp_0, exp_0. field. lra. }
  exists (a0 + a1 * (th - th * E) + a2 * ((th - th * E) ^ 2 + xi ^ 2 / k * (1 - E) * (th * (1 - E) / 2))),
         (a1 * E + a2 * (2 * (th - th * E) * E + xi ^ 2 / k * (1 - E) * E)), (a2 * E ^ 2). split; intros v; unfold rv_term; rewrite !CM, !CW by lra.
  - fold E. field. lra.
  - replace (exp (- (k * (t + dt)))) with (E * E1) by (unfold E, E1; rewrite <- exp_plus; f_equal; ring). fold E1. field. lra.
Qed.
Lemma rv_sum_quad n : exists A B D, (forall v, rv_sum n v = A + B * v + D * v ^ 2) /\
  (forall v, a0 + a1 * v + a2 * v ^ 2 + (A + B * cir_mean c dt v + D * (cir_mean c dt v ^ 2 + cir_var c dt v)) = rv_sum (S n) v).
Proof.
  induction n as [|n [A [B [D [E1 E2]]]]].
  - exists 0, 0, 0. split; intros v; unfold rv_sum; cbn [rsum INR]; [ring|]. unfold rv_term. replace (0 * dt) with 0 by ring.
    replace (cir_mean c 0 v) with v by (unfold cir_mean; rewrite Rmult_0_r, Ropp_0, exp_0; ring). replace (cir_var c 0 v) with 0 by (unfold cir_var; cbv zeta; rewrite Rmult_0_r; ring). ring.
  - destruct (rv_term_quad (INR n * dt)) as [A' [B' [D' [F1 F2]]]]; [apply Rmult_le_pos; [apply pos_INR|lra]|].
    exists (A + A'), (B + B'), (D + D'). split; intros v.
    + unfold rv_sum in *. cbn [rsum]. rewrite E1, F1. ring.
    + specialize (E2 v). specialize (F2 v). replace (INR n * dt + dt) with (INR (S n) * dt) in F2 by (rewrite S_INR; ring).
      replace (rv_sum (S (S n)) v) with (rv_sum (S n) v + rv_term (INR (S n) * dt) v) by (unfold rv_sum; reflexivity). rewrite <- F2, <- E2. ring.
Qed.
Lemma rv_expect z : forall n i v acc, 0 < v ->
  pg_expect Gam s al (fun v => v * e * phi / 2) n i v (fun w => hmc_rv_loop m p true true (poistd_rv_step ive c w) z i (repeat dt n) v acc) (acc + rv_sum n v).
Proof.
  induction n as [|n IH]; intros i v acc Hv.
  - cbn [pg_expect repeat hmc_rv_loop]. intros _. unfold rv_sum. cbn [rsum]. ring.
  - cbn [pg_expect]. destruct (rv_sum_quad n) as [A [B [D [E1 E2]]]].
    exists (fun k g => let '(vt, avg, ev) := poistd_step ive c dt v (INR k) g in acc + hmc_rv_inc m p true true dt v vt avg (Some ev) 0 0 + (A + B * vt + D * vt ^ 2)), (rv_outer v A B D acc).
    split; [|split].
    + intros k g Hg. rewrite (step_eq ive c dt v Hxi Hmr Hth Hdt Hv) by (try apply pos_INR; lra). fold e phi s. cbv beta iota zeta. rewrite <- E1.
      eapply pg_ext; [|apply IH; apply Rmult_lt_0_compat; [exact Hs|exact Hg]]. intros w. cbv beta. cbn [repeat hmc_rv_loop]. unfold poistd_rv_step at 2. rewrite set_draw_eq. cbn [fst snd].
      rewrite (step_eq ive c dt v Hxi Hmr Hth Hdt Hv) by (try apply pos_INR; lra). fold e phi s. cbv beta iota zeta.
      assert (Ez : hmc_rv_inc m p true true dt v (s * g) = fun a b c d => hmc_rv_inc m p true true dt v (s * g) a b c 0) by reflexivity.
      rewrite Ez. cbv beta. apply rv_loop_ext. intros j d' v' L. unfold poistd_rv_step, set_draw. replace (j =? i)%nat with false; [reflexivity|]. symmetry. apply Nat.eqb_neq. lia.
    + intros k. exact (rv_outer_ok v Hv A B D acc k).
    + pose proof (rv_step_value v A B D acc) as P. fold e phi in P. replace (acc + rv_sum (S n) v) with (acc + rv_second v + (A + B * cir_mean c dt v + D * (cir_mean c dt v ^ 2 + cir_var c dt v))); [exact P|].
      rewrite <- E2, Hq. ring.
Qed.
End T.
