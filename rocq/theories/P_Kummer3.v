(** The 3/2 transform: what sv32_mgf converges to. *)
From Coq Require Import Reals Lra Lia List Arith Psatz.
From Coquelicot Require Import Coquelicot.
From Verif Require Import Base Sums Spec_Misc Spec_Cev P_Gamma P_Gamma2 M_Mgf Spec_Sv32 P_Kummer P_Kummer2.
Open Scope R_scope.
Section K.
Variables k th xi rho u : R.
Hypothesis (Hk : 0 < k) (Ht : 0 < th) (Hx : 0 < xi).
Let mu : R := / 2 + (k - u * rho * xi) / xi ^ 2.
Let ct : R := u * (1 - u) / xi ^ 2.
Hypothesis Hd : 0 <= mu ^ 2 + ct.
Let dl : R := sqrt (mu ^ 2 + ct).
Let al : R := - mu + dl.
Let be : R := 1 + 2 * dl.
Definition f32 (lg : R -> R) (t v : R) : R := exp (lg (be - al) - lg be) * (Rpower (XX32 k th xi t v) al * kum al be (- XX32 k th xi t v)).
Lemma f32_pde lg : pricing_eq32 k th xi rho u (f32 lg).
Proof. exact (pricing32 k th xi rho u Hk Ht Hx Hd (exp (lg (be - al) - lg be))). Qed.
Lemma f32_lim lg t v : 0 < t -> 0 < v -> exists cap0, forall cap, cap0 <= cap ->
  is_lim_seq (fun n => sv32_mgf lg n cap (mkSv v xi rho k th) u t) (f32 lg t v).
Proof.
  intros H1 H2. assert (PX : 0 < XX32 k th xi t v) by (apply XX_pos; assumption).
  set (X := XX32 k th xi t v) in *. set (e := lg (be - al) - lg be + al * ln X). exists (Rabs e). intros cap Hc.
  assert (Hcl : clip e (- cap) cap = e). { unfold clip. apply Rabs_le_between in Hc. rewrite Rmax_left by lra. rewrite Rmin_left by lra. reflexivity. }
  unfold f32. fold X. replace (exp (lg (be - al) - lg be) * (Rpower X al * kum al be (- X))) with (exp e * kum al be (- X)).
  2: { unfold e. rewrite exp_plus. unfold Rpower. ring. }
  apply (is_lim_seq_ext (fun n => exp e * hyp1f1 n al be (- X))).
  - intros n. unfold sv32_mgf. cbv zeta. change (v_vov (mkSv v xi rho k th)) with xi. change (v_mr (mkSv v xi rho k th)) with k. change (v_theta (mkSv v xi rho k th)) with th. change (v_sigma (mkSv v xi rho k th)) with v.
    change (sv32_mu (mkSv v xi rho k th) u) with mu. change (2 * (k * th) / (xi ^ 2 * v) / (exp (k * th * t) - 1)) with X.
    change (u * (1 - u) / xi ^ 2) with ct. change (sqrt (mu ^ 2 + ct)) with dl. change (- mu + dl) with al. change (1 + 2 * dl) with be. fold e. rewrite Hcl. reflexivity.
  - apply (is_lim_seq_scal_l _ (exp e) (kum al be (- X))). apply hyp1f1_lim. unfold be. pose proof (sqrt_pos (mu ^ 2 + ct)). unfold dl. lra.
Qed.
Hypothesis Hu : 0 <= u <= 1.
Lemma f32_one Gam : gamma_function Gam -> expiry_one (f32 (fun y => ln (Gam y))).
Proof.
  intros HG v Hv. assert (C0 : 0 <= ct). { unfold ct. apply Rmult_le_pos; [nra|]. left. apply Rinv_0_lt_compat, pow_lt, Hx. }
  assert (D : Rabs mu <= dl). { unfold dl. rewrite <- sqrt_Rsqr_abs. apply sqrt_le_1_alt. unfold Rsqr. nra. }
  apply Rabs_le_between in D. assert (Ha : 0 <= al) by (unfold al; lra). assert (Hg : 1 <= be - al) by (unfold be, al; lra).
  assert (Pd : 0 <= dl) by apply sqrt_pos.
  assert (Hb0 : 0 <= be) by (unfold be; lra).
  pose proof (Gam_pos Gam HG (be - al) ltac:(lra)) as G1. pose proof (Gam_pos Gam HG be ltac:(unfold be; lra)) as G2.
  assert (EC : exp (ln (Gam (be - al)) - ln (Gam be)) = Gam (be - al) / Gam be).
  { unfold Rminus. rewrite exp_plus, exp_Ropp, !exp_ln by assumption. reflexivity. }
  assert (LB : forall X, 0 < X -> 1 - al * be * / X <= exp (ln (Gam (be - al)) - ln (Gam be)) * (Rpower X al * kum al be (- X)) <= 1 + be * / X).
  { intros X HX. rewrite EC. pose proof (lower_bound Gam HG al (be - al) Ha Hg X HX) as L. pose proof (upper_bound Gam HG al (be - al) Ha Hg X HX) as U.
    replace (be - al + al) with be in L, U by ring. split; [exact L|exact U]. }
  assert (IV : forall t, 0 < t -> / XX32 k th xi t v = xi ^ 2 * v / (2 * (k * th)) * (exp (k * th * t) - 1)).
  { intros t H. assert (P := em1_pos k th Hk Ht t H). cbv beta zeta in P. unfold XX32. field. repeat split; lra. }
  assert (L0 : filterlim (fun t => xi ^ 2 * v / (2 * (k * th)) * (exp (k * th * t) - 1)) (at_right 0) (locally 0)).
  { assert (CC : continuous (fun t => xi ^ 2 * v / (2 * (k * th)) * (exp (k * th * t) - 1)) 0) by (apply (ex_derive_continuous (K := R_AbsRing) (V := R_NormedModule)); auto_derive; trivial).
    unfold continuous in CC. rewrite Rmult_0_r, exp_0 in CC. replace (xi ^ 2 * v / (2 * (k * th)) * (1 - 1)) with 0 in CC by ring. intros P HP. destruct (CC P HP) as [d H]. exists d. intros y Hy _. now apply H. }
  apply (filterlim_le_le (fun t => 1 - al * be * (xi ^ 2 * v / (2 * (k * th)) * (exp (k * th * t) - 1))) _ (fun t => 1 + be * (xi ^ 2 * v / (2 * (k * th)) * (exp (k * th * t) - 1))) 1).
  - exists (mkposreal 1 Rlt_0_1). intros t _ H. rewrite <- (IV t H). unfold f32. apply LB. now apply XX_pos.
  - apply (filterlim_comp _ _ _ _ (fun y => 1 - al * be * y) _ (locally 0)); [exact L0|].
    assert (CC : continuous (fun y => 1 - al * be * y) 0) by (apply (ex_derive_continuous (K := R_AbsRing) (V := R_NormedModule)); auto_derive; trivial). unfold continuous in CC. rewrite Rmult_0_r, Rminus_0_r in CC. exact CC.
  - apply (filterlim_comp _ _ _ _ (fun y => 1 + be * y) _ (locally 0)); [exact L0|].
    assert (CC : continuous (fun y => 1 + be * y) 0) by (apply (ex_derive_continuous (K := R_AbsRing) (V := R_NormedModule)); auto_derive; trivial). unfold continuous in CC. rewrite Rmult_0_r, Rplus_0_r in CC. exact CC.
Qed.
End K.
Lemma transform_pde : forall loggam k th xi rho u, 0 < k -> 0 < th -> 0 < xi -> 0 <= (/ 2 + (k - u * rho * xi) / xi ^ 2) ^ 2 + u * (1 - u) / xi ^ 2 ->
  exists f, pricing_eq32 k th xi rho u f /\ forall v t, 0 < v -> 0 < t ->
    exists cap0, forall cap, cap0 <= cap -> is_lim_seq (fun n => sv32_mgf loggam n cap (mkSv v xi rho k th) u t) (f t v).
Proof. intros lg k th xi rho u H1 H2 H3 Hd. exists (f32 k th xi rho u lg). split; [now apply f32_pde|]. intros v t Hv Hp. now apply f32_lim. Qed.
Lemma transform_unit : forall Gam k th xi rho u, gamma_function Gam -> 0 < k -> 0 < th -> 0 < xi -> 0 <= u <= 1 ->
  exists f, pricing_eq32 k th xi rho u f /\ expiry_one f /\ forall v t, 0 < v -> 0 < t ->
    exists cap0, forall cap, cap0 <= cap -> is_lim_seq (fun n => sv32_mgf (fun y => ln (Gam y)) n cap (mkSv v xi rho k th) u t) (f t v).
Proof.
  intros Gam k th xi rho u HG H1 H2 H3 Hu. assert (Hd : 0 <= (/ 2 + (k - u * rho * xi) / xi ^ 2) ^ 2 + u * (1 - u) / xi ^ 2).
  { apply Rplus_le_le_0_compat; [apply pow2_ge_0|]. apply Rmult_le_pos; [nra|]. left. apply Rinv_0_lt_compat, pow_lt, H3. }
  exists (f32 k th xi rho u (fun y => ln (Gam y))). split; [now apply f32_pde|]. split; [now apply f32_one|]. intros v t Hv Hp. now apply f32_lim.
Qed.
