(** NSVh quadrature: the angular and radial integrals. *)
From Coq Require Import Reals Lra Lia List Psatz.
From Coquelicot Require Import Coquelicot.
From Verif Require Import Base Gauss Sums M_Opt M_Fd M_Sabr M_Dist M_NsvhQuad Spec_Expect Spec_Dist Spec_NsvhQuad P_Half P_Dist.
Import ListNotations.
Open Scope R_scope.

Definition pay (cp h g t : R) : R := Rmax (cp * (h * cos t + g)) 0.
Lemma Rmax0_abs x : Rmax x 0 = (x + Rabs x) / 2.
Proof. unfold Rmax, Rabs. destruct (Rle_dec x 0); destruct (Rcase_abs x); lra. Qed.
Lemma cont_pay cp h g t : continuous (pay cp h g) t.
Proof.
  unfold pay. apply (continuous_ext (fun t => (cp * (h * cos t + g) + Rabs (cp * (h * cos t + g))) * / 2)); [intros x; rewrite Rmax0_abs; reflexivity|].
  assert (C : continuous (fun t => cp * (h * cos t + g)) t).
  { apply (ex_derive_continuous (K := R_AbsRing) (V := R_NormedModule)). auto_derive. exact I. }
  apply (continuous_mult (fun t => cp * (h * cos t + g) + Rabs (cp * (h * cos t + g))) (fun _ => / 2)); [|apply continuous_const].
  apply (continuous_plus (fun t => cp * (h * cos t + g)) (fun t => Rabs (cp * (h * cos t + g)))); [exact C|]. apply (continuous_comp _ Rabs); [exact C|apply continuous_Rabs].
Qed.
Lemma ex_pay cp h g a b : ex_RInt (pay cp h g) a b.
Proof. apply (ex_RInt_continuous (V := R_CompleteNormedModule)). intros. apply cont_pay. Qed.
Definition Ag (cp h g : R) : R := RInt (pay cp h g) 0 PI.
Lemma Ag_ok cp h g : is_RInt (pay cp h g) 0 PI (Ag cp h g).
Proof. apply (RInt_correct (V := R_CompleteNormedModule)). apply ex_pay. Qed.
Lemma circle_Ag cp h g : circle_mean (pay cp h g) (Ag cp h g / PI).
Proof.
  pose proof PI_RGT_0. unfold circle_mean. replace (2 * PI * (Ag cp h g / PI)) with (plus (Ag cp h g) (Ag cp h g)) by (unfold plus; cbn; field; lra).
  apply (is_RInt_Chasles (pay cp h g) 0 PI (2 * PI)); [apply Ag_ok|].
  assert (H1 : is_RInt (fun y => scal (- (1)) (pay cp h g ((- (1)) * y + 2 * PI))) PI (2 * PI) (opp (Ag cp h g))).
  { apply (is_RInt_comp_lin (V := R_NormedModule) (pay cp h g) (- (1)) (2 * PI) PI (2 * PI)). replace (- (1) * PI + 2 * PI) with PI by ring. replace (- (1) * (2 * PI) + 2 * PI) with 0 by ring.
    apply (is_RInt_swap (V := R_NormedModule)). apply Ag_ok. }
  apply (is_RInt_opp (V := R_NormedModule)) in H1. rewrite opp_opp in H1. eapply is_RInt_ext; [|exact H1]. intros x _. cbv beta. Req. unfold opp, scal; cbn; unfold mult; cbn. unfold pay.
  replace (cos (- (1) * x + 2 * PI)) with (cos x); [ring|]. replace (- (1) * x + 2 * PI) with (- x + 2 * PI) by ring. replace (2 * PI) with (2 * INR 1 * PI) by (cbn; ring). rewrite cos_period. now rewrite cos_neg.
Qed.
Lemma pay_int_pos h g a b : a <= b -> (forall t, a < t < b -> 0 <= h * cos t + g) -> is_RInt (pay 1 h g) a b ((h * sin b + g * b) - (h * sin a + g * a)).
Proof.
  intros Hab H. apply (is_RInt_ext (fun t => h * cos t + g)).
  { intros t. rewrite Rmin_left, Rmax_right by exact Hab. intros Ht. Req. unfold pay. rewrite Rmult_1_l. symmetry. apply Rmax_left. now apply H. }
  apply (is_RInt_derive (fun t => h * sin t + g * t) (fun t => h * cos t + g)).
  - intros x _. auto_derive; [exact I|]. Req. ring.
  - intros x _. apply (ex_derive_continuous (K := R_AbsRing) (V := R_NormedModule)). auto_derive. exact I.
Qed.
Lemma pay_int_neg h g a b : a <= b -> (forall t, a < t < b -> h * cos t + g <= 0) -> is_RInt (pay 1 h g) a b 0.
Proof.
  intros Hab H. apply (is_RInt_ext (fun t => 0)).
  { intros t. rewrite Rmin_left, Rmax_right by exact Hab. intros Ht. Req. unfold pay. rewrite Rmult_1_l. symmetry. apply Rmax_right. now apply H. }
  assert (E : is_RInt (fun _ : R => 0) a b (scal (b - a) 0)) by apply (is_RInt_const (V := R_NormedModule)).
  unfold scal in E; cbn in E; unfold mult in E; cbn in E. rewrite Rmult_0_r in E. exact E.
Qed.
Lemma Ag_unique cp h g v : is_RInt (pay cp h g) 0 PI v -> Ag cp h g = v.
Proof. intros H. apply (is_RInt_unique (V := R_CompleteNormedModule)). exact H. Qed.
(** inside: |g| <= h *)
Lemma Ag1_in h g : 0 < h -> Rabs g <= h -> Ag 1 h g = sqrt (h ^ 2 - g ^ 2) + g * acos (- g / h).
Proof.
  intros Hh Hg. apply Rabs_le_between in Hg. assert (B : -1 <= - g / h <= 1).
  { split; apply (Rmult_le_reg_r h); try lra; unfold Rdiv; rewrite Rmult_assoc, Rinv_l by lra; lra. }
  pose proof (acos_bound (- g / h)) as Bt. set (ts := acos (- g / h)) in *. assert (Ct : cos ts = - g / h) by (apply cos_acos; exact B).
  apply Ag_unique. replace (sqrt (h ^ 2 - g ^ 2) + g * ts) with (plus (h * sin ts + g * ts - (h * sin 0 + g * 0)) 0).
  - apply (is_RInt_Chasles (pay 1 h g) 0 ts PI).
    + apply pay_int_pos; [lra|]. intros t Ht. assert (cos ts < cos t) by (apply cos_decreasing_1; lra). rewrite Ct in H.
      apply (Rmult_lt_compat_l h) in H; [|exact Hh]. replace (h * (- g / h)) with (- g) in H by (field; lra). lra.
    + apply pay_int_neg; [lra|]. intros t Ht. assert (cos t < cos ts) by (apply cos_decreasing_1; lra). rewrite Ct in H.
      apply (Rmult_lt_compat_l h) in H; [|exact Hh]. replace (h * (- g / h)) with (- g) in H by (field; lra). lra.
  - match goal with |- context [plus ?a ?b] => change (plus a b) with (a + b) end. rewrite sin_0. assert (Es : h * sin ts = sqrt (h ^ 2 - g ^ 2)).
    { symmetry. apply sqrt_lem_1; [nra| |].
      - apply Rmult_le_pos; [lra|]. apply sin_ge_0; lra.
      - pose proof (sin2_cos2 ts) as S. unfold Rsqr in S. rewrite Ct in S. assert (S2 : h * h * (sin ts * sin ts) = h * h - g * g).
        { replace (sin ts * sin ts) with (1 - - g / h * (- g / h)) by lra. field. lra. } nra. }
    rewrite Es. Req. ring.
Qed.
Lemma Ag1 h g : 0 < h -> Rabs g <= h -> Ag 1 h g = nq_zv g h + PI * Rmax g 0.
Proof.
  intros Hh Hg. rewrite Ag1_in by assumption. unfold nq_zv, nq_theta. replace (- g / h) with (- (g / h)) by (unfold Rdiv; ring). rewrite acos_opp.
  unfold Rabs. destruct (Rcase_abs g) as [N|N].
  - rewrite Rmax_right by lra. replace (- g / h) with (- (g / h)) by (unfold Rdiv; ring). rewrite acos_opp. ring.
  - rewrite Rmax_left by lra. ring.
Qed.
Lemma Ag1_out h g : 0 <= h -> h < Rabs g -> Ag 1 h g = PI * Rmax g 0.
Proof.
  intros Hh Hg. pose proof PI_RGT_0. apply Ag_unique. unfold Rabs in Hg. destruct (Rcase_abs g) as [N|N].
  - rewrite Rmax_right by lra. rewrite Rmult_0_r. apply pay_int_neg; [lra|]. intros t _. pose proof (COS_bound t). nra.
  - rewrite Rmax_left by lra. replace (PI * g) with (h * sin PI + g * PI - (h * sin 0 + g * 0)) by (rewrite sin_PI, sin_0; ring). apply pay_int_pos; [lra|]. intros t _. pose proof (COS_bound t). nra.
Qed.
(** puts by reflection *)
Lemma Ag_put h g : Ag (- (1)) h g = Ag 1 h (- g).
Proof.
  apply Ag_unique. pose proof (Ag_ok 1 h (- g)) as H1. apply (is_RInt_swap (V := R_NormedModule)) in H1.
  assert (H2 : is_RInt (fun y => scal (- (1)) (pay 1 h (- g) ((- (1)) * y + PI))) 0 PI (opp (Ag 1 h (- g)))).
  { apply (is_RInt_comp_lin (V := R_NormedModule) (pay 1 h (- g)) (- (1)) PI 0 PI). replace (- (1) * 0 + PI) with PI by ring. replace (- (1) * PI + PI) with 0 by ring. exact H1. }
  apply (is_RInt_opp (V := R_NormedModule)) in H2. rewrite opp_opp in H2. eapply is_RInt_ext; [|exact H2]. intros x _. cbv beta. Req. unfold opp, scal; cbn; unfold mult; cbn. unfold pay.
  replace (cos (- (1) * x + PI)) with (- cos x). 2:{ replace (- (1) * x + PI) with (PI - x) by ring. rewrite Rtrigo_facts.cos_pi_minus. reflexivity. }
  replace (1 * (h * - cos x + - g)) with (- (1) * (h * cos x + g)) by ring. ring.
Qed.
Lemma zv_opp g h : nq_zv (- g) h = nq_zv g h.
Proof. unfold nq_zv, nq_theta. rewrite Rabs_Ropp. replace ((- g) ^ 2) with (g ^ 2) by ring. reflexivity. Qed.
Lemma Ag_in cp h g : cp = 1 \/ cp = - (1) -> 0 < h -> Rabs g <= h -> Ag cp h g = nq_zv g h + PI * Rmax (cp * g) 0.
Proof.
  intros [->| ->] Hh Hg; [rewrite Rmult_1_l; now apply Ag1|]. rewrite Ag_put, Ag1; [|exact Hh|now rewrite Rabs_Ropp]. rewrite zv_opp. replace (- (1) * g) with (- g) by ring. reflexivity.
Qed.
Lemma Ag_out cp h g : cp = 1 \/ cp = - (1) -> 0 <= h -> h < Rabs g -> Ag cp h g = PI * Rmax (cp * g) 0.
Proof.
  intros [->| ->] Hh Hg; [rewrite Rmult_1_l; now apply Ag1_out|]. rewrite Ag_put, Ag1_out; [|exact Hh|now rewrite Rabs_Ropp]. replace (- (1) * g) with (- g) by ring. reflexivity.
Qed.
(** Lipschitz in h *)
Lemma pay_lip cp h h' g t : Rabs cp = 1 -> Rabs (pay cp h g t - pay cp h' g t) <= Rabs (h - h').
Proof.
  intros Hc. unfold pay. set (a := cp * (h * cos t + g)). set (b := cp * (h' * cos t + g)).
  assert (E : Rabs (Rmax a 0 - Rmax b 0) <= Rabs (a - b)). { unfold Rmax, Rabs. repeat destruct Rle_dec; repeat destruct Rcase_abs; lra. }
  eapply Rle_trans; [exact E|]. replace (a - b) with (cp * ((h - h') * cos t)) by (unfold a, b; ring). rewrite !Rabs_mult, Hc, Rmult_1_l.
  pose proof (Rabs_pos (h - h')). assert (Rabs (cos t) <= 1) by (apply Rabs_le; pose proof (COS_bound t); lra). nra.
Qed.
Lemma Ag_lip cp h h' g : Rabs cp = 1 -> Rabs (Ag cp h g - Ag cp h' g) <= PI * Rabs (h - h').
Proof.
  intros Hc. pose proof PI_RGT_0. pose proof (is_RInt_minus (V := R_NormedModule) _ _ _ _ _ _ (Ag_ok cp h g) (Ag_ok cp h' g)) as H1.
  pose proof (norm_RInt_le_const (V := R_NormedModule) (fun t => minus (pay cp h g t) (pay cp h' g t)) 0 PI _ (Rabs (h - h')) ltac:(lra) ltac:(intros t _; exact (pay_lip cp h h' g t Hc)) H1) as B.
  replace (PI * Rabs (h - h')) with ((PI - 0) * Rabs (h - h')) by ring. exact B.
Qed.
Lemma Ag_cont cp g h : Rabs cp = 1 -> continuous (fun h => Ag cp h g) h.
Proof.
  intros Hc. pose proof PI_RGT_0 as HP. intros P [e He]. assert (D : 0 < e / PI) by (apply Rdiv_lt_0_compat; [apply cond_pos|exact HP]). exists (mkposreal _ D). intros y Hy. apply He. change (Rabs (Ag cp y g - Ag cp h g) < e). change (Rabs (y - h) < e / PI) in Hy.
  eapply Rle_lt_trans; [apply Ag_lip; exact Hc|]. apply (Rmult_lt_compat_l PI) in Hy; [|exact HP]. replace (PI * (e / PI)) with (pos e) in Hy by (field; lra). exact Hy.
Qed.
(** the integral over (0, infinity) of a continuous function that vanishes up to c *)
Lemma half_line_shift F I c : 0 <= c -> (forall x, 0 <= x -> continuous F x) -> (forall x, 0 <= x -> x <= c -> F x = 0) ->
  half_line (fun v => F (c + v)) I -> half_line F I.
Proof.
  intros Hc HC HZ H. destruct (Req_dec c 0) as [->|Nc].
  { eapply half_line_ext; [|exact H]. intros x _. cbv beta. now rewrite Rplus_0_l. }
  assert (Pc : 0 < c) by lra. intros P [e He]. assert (E2 : 0 < e / 2) by (pose proof (cond_pos e); lra).
  pose proof (HC c ltac:(lra)) as Cc. assert (L1 : locally c (fun x => Rabs (F x) < 1)).
  { apply (Cc (fun y => Rabs y < 1)). rewrite (HZ c) by lra. exists (mkposreal 1 Rlt_0_1). intros y Hy. change (Rabs (y - 0) < 1) in Hy. now rewrite Rminus_0_r in Hy. }
  destruct L1 as [d Hd]. specialize (H (fun y => Rabs (y - I) < e / 2)). destruct H as [Q S HQ HS H]. { exists (mkposreal _ E2). intros y Hy. exact Hy. }
  destruct HQ as [d' Hd']. set (a0 := Rmin (Rmin d d') (e / 2) / 2).
  assert (Pa : 0 < Rmin (Rmin d d') (e / 2)) by (apply Rmin_pos; [apply Rmin_pos; apply cond_pos|exact E2]).
  assert (A1 : Rmin (Rmin d d') (e / 2) <= d) by (eapply Rle_trans; [apply Rmin_l|apply Rmin_l]). assert (A2 : Rmin (Rmin d d') (e / 2) <= d') by (eapply Rle_trans; [apply Rmin_l|apply Rmin_r]). assert (A3 := Rmin_r (Rmin d d') (e / 2)).
  assert (Ha0 : 0 < a0) by (unfold a0; lra). assert (QA : Q a0). { apply Hd'; [|exact Ha0]. change (Rabs (a0 - 0) < d'). rewrite Rminus_0_r, Rabs_right by lra. unfold a0; lra. }
  assert (Exc : forall a b, 0 <= a -> a <= b -> ex_RInt F a b). { intros a b K1 K2. apply (ex_RInt_continuous (V := R_CompleteNormedModule)). rewrite Rmin_left, Rmax_right by lra. intros z Hz. apply HC. lra. }
  destruct HS as [B HB]. apply (Filter_prod _ _ _ (fun a => 0 < a /\ a < c) (fun b => Rmax (c + B) (c + a0) < b)).
  - exists (mkposreal _ Pc). intros y Hy Hy0. split; [exact Hy0|]. change (Rabs (y - 0) < c) in Hy. rewrite Rminus_0_r, Rabs_right in Hy by lra. exact Hy.
  - exists (Rmax (c + B) (c + a0)). auto.
  - intros a b [K1 K2] K3. cbn [fst snd]. pose proof (Rmax_l (c + B) (c + a0)). pose proof (Rmax_r (c + B) (c + a0)).
    assert (SB : S (b - c)) by (apply HB; lra). destruct (H a0 (b - c) QA SB) as [y [Y1 Y2]]. cbn [fst snd] in Y1.
    destruct (Exc c (c + a0) ltac:(lra) ltac:(lra)) as [w Hw].
    assert (Z1 : is_RInt F a c 0).
    { apply (is_RInt_ext (fun _ => 0)). { intros x. rewrite Rmin_left, Rmax_right by lra. intros Hx. symmetry. apply HZ; lra. }
      assert (E : is_RInt (fun _ : R => 0) a c (scal (c - a) 0)) by apply (is_RInt_const (V := R_NormedModule)). unfold scal in E; cbn in E; unfold mult in E; cbn in E. rewrite Rmult_0_r in E. exact E. }
    assert (Z3 : is_RInt F (c + a0) b y).
    { destruct (Exc (c + a0) b ltac:(lra) ltac:(lra)) as [y' Hy']. replace y with y'; [exact Hy'|].
      assert (G : is_RInt (fun x => scal 1 (F (1 * x + c))) a0 (b - c) y'). { apply (is_RInt_comp_lin (V := R_NormedModule) F 1 c). replace (1 * a0 + c) with (c + a0) by ring. replace (1 * (b - c) + c) with b by ring. exact Hy'. }
      assert (G' : is_RInt (fun v => F (c + v)) a0 (b - c) y'). { eapply is_RInt_ext; [|exact G]. intros x _. cbv beta. Req. unfold scal; cbn; unfold mult; cbn. rewrite Rmult_1_l. f_equal. ring. }
      pose proof (is_RInt_unique (V := R_CompleteNormedModule) _ _ _ _ G') as U1. pose proof (is_RInt_unique (V := R_CompleteNormedModule) _ _ _ _ Y1) as U2. congruence. }
    exists (plus (plus 0 w) y). split.
    + apply (is_RInt_Chasles F a (c + a0) b); [apply (is_RInt_Chasles F a c (c + a0)); assumption|exact Z3].
    + apply He. change (Rabs (0 + w + y - I) < e).
      assert (W : Rabs w <= a0 * 1). { pose proof (norm_RInt_le_const (V := R_NormedModule) F c (c + a0) w 1 ltac:(lra)) as N. replace (c + a0 - c) with a0 in N by ring. apply N; [|exact Hw].
        intros x Hx. left. change (Rabs (F x) < 1). apply Hd. change (Rabs (x - c) < d). rewrite Rabs_right by lra. unfold a0 in Hx. lra. }
      replace (0 + w + y - I) with (w + (y - I)) by ring. eapply Rle_lt_trans; [apply Rabs_triang|]. unfold a0 in W. lra.
Qed.
