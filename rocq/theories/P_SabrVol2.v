(** The G function of SabrChoiWu2021P as an integral, and its behaviour at the money. *)
From Coq Require Import Reals Lra Lia List Psatz.
From Coquelicot Require Import Coquelicot.
From Verif Require Import Base Gauss Sums M_Opt M_Mgf M_Heston M_Fd M_Sabr M_Cev M_SabrVol Spec_Opt P_Bsm P_Norm P_Sabr3 P_Sabr4 P_Small P_SabrVol.
Open Scope R_scope.
Section G.
Variables (rho : R).
Hypothesis Hr : -1 < rho < 1.
Let rc := sqrt (1 - rho ^ 2).
Definition gQ (eta t : R) : R := (eta + rc) + 2 * rho * t + (eta - rc) * t ^ 2.
Lemma rc_pos : 0 < rc. Proof. apply sqrt_lt_R0. cbn [pow]. nra. Qed.
Lemma rc_sq : rc ^ 2 = 1 - rho ^ 2. Proof. assert (0 <= 1 - rho ^ 2) by (cbn [pow]; nra). pose proof (sqrt_sqrt (1 - rho ^ 2) H) as E. fold rc in E. rewrite <- E. ring. Qed.
Lemma rc_le1 : rc <= 1. Proof. pose proof rc_sq. pose proof rc_pos. nra. Qed.
Lemma num_id eta t : (rho + (eta - rc) * t) ^ 2 + (eta * eta - 1) = (eta - rc) * gQ eta t.
Proof. unfold gQ. pose proof rc_sq. replace 1 with (rc ^ 2 + rho ^ 2) by lra. ring. Qed.
Lemma s_sq e : 0 < e -> sqrt (Rabs e) * sqrt (Rabs e) = e. Proof. intros H. rewrite sqrt_sqrt by apply Rabs_pos. apply Rabs_pos_eq. lra. Qed.
Lemma n6 : 0 < / 10 ^ 6. Proof. apply Rinv_0_lt_compat, pow_lt. lra. Qed.

Lemma gg_d1 eta t sk : 0 < eta -> / 10 ^ 6 < eta * eta - 1 -> gQ eta t <> 0 /\ is_derive (fun u => p_gg rho rc eta u sk) t (/ (1 + t ^ 2) - eta / gQ eta t).
Proof.
  intros He H. pose proof n6. pose proof rc_pos. pose proof rc_le1. assert (E1 : 1 < eta) by nra.
  pose proof (num_id eta t) as N. set (e := eta * eta - 1) in *. assert (0 < e) by lra.
  assert (NQ : gQ eta t <> 0). { intros Z. rewrite Z, Rmult_0_r in N. pose proof (pow2_ge_0 (rho + (eta - rc) * t)). lra. }
  split; [exact NQ|]. pose proof (s_sq e ltac:(lra)) as S2. assert (S0 : 0 < sqrt (Rabs e)) by (apply sqrt_lt_R0; rewrite Rabs_pos_eq; lra).
  apply (is_derive_ext (fun u => atan u + eta / sqrt (Rabs e) * (PI / 2 - atan ((rho + (eta - rc) * u) / sqrt (Rabs e))))).
  { intros u. unfold p_gg. cbv zeta. fold e. destruct (Rlt_dec (/ 10 ^ 6) e); [reflexivity|lra]. }
  set (s := sqrt (Rabs e)) in *. clearbody s. auto_derive; [exact I|]. Req.
  assert (SQ : 0 < 1 + ((rho + (eta - rc) * t) / s) ^ 2) by (pose proof (pow2_ge_0 ((rho + (eta - rc) * t) / s)); lra).
  assert (K : s ^ 2 * (1 + ((rho + (eta - rc) * t) / s) ^ 2) = (eta - rc) * gQ eta t). { rewrite <- N. rewrite <- S2. field. lra. }
  replace (gQ eta t) with (s ^ 2 * (1 + ((rho + (eta - rc) * t) / s) ^ 2) / (eta - rc)) by (rewrite K; field; lra).
  assert (0 < 1 + t ^ 2) by (pose proof (pow2_ge_0 t); lra). assert (0 < s ^ 2 + (rho + (eta - rc) * t) ^ 2) by (pose proof (pow2_ge_0 (rho + (eta - rc) * t)); nra).
  clear K SQ. field. repeat split; try lra; try nra.
Qed.
Lemma gg_d2 eta t : eta * eta - 1 < - / 10 ^ 6 -> eta <> rc -> gQ eta t <> 0 -> is_derive (fun u => p_gg rho rc eta u false) t (/ (1 + t ^ 2) - eta / gQ eta t).
Proof.
  intros H Ne NQ. pose proof n6. pose proof (num_id eta t) as N. set (e := eta * eta - 1) in *.
  assert (S2 : sqrt (Rabs e) * sqrt (Rabs e) = - e) by (rewrite sqrt_sqrt by apply Rabs_pos; apply Rabs_left; lra).
  assert (S0 : 0 < sqrt (Rabs e)) by (apply sqrt_lt_R0; rewrite Rabs_left; lra).
  assert (K : (rho + (eta - rc) * t + sqrt (Rabs e)) * (rho + (eta - rc) * t - sqrt (Rabs e)) = (eta - rc) * gQ eta t) by (rewrite <- N; nra).
  assert (K0 : (eta - rc) * gQ eta t <> 0) by (apply Rmult_integral_contrapositive_currified; [lra|exact NQ]).
  set (s := sqrt (Rabs e)) in *. set (num := fun u => rho + (eta - rc) * u). change (rho + (eta - rc) * t) with (num t) in *.
  assert (P1 : num t + s <> 0) by (intros Z; rewrite Z, Rmult_0_l in K; lra). assert (P2 : num t - s <> 0) by (intros Z; rewrite Z, Rmult_0_r in K; lra).
  apply (is_derive_ext (fun u => atan u + eta / s * / 2 * ln (Rabs ((num u + s) / (num u - s))))).
  { intros u. unfold p_gg. cbv zeta. fold e. destruct (Rlt_dec (/ 10 ^ 6) e); [lra|]. destruct (Rlt_dec e (- / 10 ^ 6)); [reflexivity|lra]. }
  assert (D : is_derive (fun u => ln (Rabs ((num u + s) / (num u - s)))) t (- 2 * s * (eta - rc) / ((num t + s) * (num t - s)))).
  { assert (C : forall a, 0 < a * ((num t + s) / (num t - s)) -> is_derive (fun u => ln (a * ((num u + s) / (num u - s)))) t (- 2 * s * (eta - rc) / ((num t + s) * (num t - s)))).
    { intros a Ha. unfold num in *. auto_derive; [|Req; field; repeat split; try lra; intros ->; lra].
      split; [lra|]. split; [|exact I]. unfold Rdiv in Ha. replace (rho + (eta - rc) * t - s) with (rho + (eta - rc) * t + - s) in Ha by ring. exact Ha. }
    assert (Cont : continuous (fun u => (num u + s) / (num u - s)) t).
    { unfold num in *. apply (ex_derive_continuous (K := R_AbsRing) (V := R_NormedModule)). auto_derive. lra. }
    assert (Nz : (num t + s) / (num t - s) <> 0) by (unfold Rdiv; apply Rmult_integral_contrapositive_currified; [lra|apply Rinv_neq_0_compat; lra]).
    destruct (Rlt_dec 0 ((num t + s) / (num t - s))) as [P|P].
    - apply (is_derive_ext_loc (fun u => ln (1 * ((num u + s) / (num u - s))))); [|apply C; lra].
      apply (filter_imp (fun u => 0 < (num u + s) / (num u - s))); [intros u Hu; rewrite Rabs_pos_eq by lra; rewrite Rmult_1_l; reflexivity|].
      apply (Cont (fun y => 0 < y)). apply (locally_gt (fun y => y)); [apply continuous_id|exact P].
    - apply (is_derive_ext_loc (fun u => ln (- (1) * ((num u + s) / (num u - s))))); [|apply C; lra].
      apply (filter_imp (fun u => (num u + s) / (num u - s) < 0)); [intros u Hu; rewrite Rabs_left by exact Hu; f_equal; ring|].
      apply (Cont (fun y => y < 0)). apply (locally_lt (fun y => y)); [apply continuous_id|lra]. }
  apply (is_derive_eq _ _ (/ (1 + t ^ 2) + eta / s * / 2 * (- 2 * s * (eta - rc) / ((num t + s) * (num t - s))))).
  - apply is_derive_plus_R; [|apply is_derive_scal_R, D]. apply is_derive_Reals. pose proof (derivable_pt_lim_atan t) as A. exact A.
  - rewrite K. field. repeat split; try lra; pose proof (pow2_ge_0 t); lra.
Qed.
Lemma gg_d3 t sk : rho <> 0 -> gQ 1 t <> 0 -> is_derive (fun u => p_gg rho rc 1 u sk) t (/ (1 + t ^ 2) - 1 / gQ 1 t).
Proof.
  intros Nr NQ. pose proof n6. pose proof rc_pos. pose proof rc_sq. assert (R1 : rc < 1) by (pose proof (Rsqr_pos_lt rho Nr); unfold Rsqr in *; nra).
  pose proof (num_id 1 t) as N. replace (1 * 1 - 1) with 0 in N by ring. rewrite Rplus_0_r in N.
  assert (NN : rho + (1 - rc) * t <> 0). { intros Z. rewrite Z in N. assert (0 = (1 - rc) * gQ 1 t) by (rewrite <- N; ring). symmetry in H2. apply Rmult_integral in H2. lra. }
  apply (is_derive_ext (fun u => atan u + 1 / (rho + (1 - rc) * u))).
  { intros u. unfold p_gg. cbv zeta. replace (1 * 1 - 1) with 0 by ring. destruct (Rlt_dec (/ 10 ^ 6) 0); [lra|]. destruct (Rlt_dec 0 (- / 10 ^ 6)); [lra|]. Req. unfold Rdiv. ring. }
  auto_derive; [exact NN|]. Req. replace (gQ 1 t) with ((rho + (1 - rc) * t) ^ 2 / (1 - rc)) by (rewrite N; field; lra). field. repeat split; try lra. pose proof (pow2_ge_0 t). lra.
Qed.
(** one statement for the three exact cases *)
Definition gg_ok (eta : R) : Prop := 0 < eta /\ (/ 10 ^ 6 < eta * eta - 1 \/ (eta * eta - 1 < - / 10 ^ 6 /\ eta <> rc /\ / 10 ^ 6 < eta) \/ (eta = 1 /\ rho <> 0)).
Definition gskip (eta : R) : bool := if Rlt_dec (/ 10 ^ 6) eta then false else true.
Lemma gg_ok_skip eta u : gg_ok eta -> p_gg rho rc eta u (gskip eta) = p_gg rho rc eta u false.
Proof.
  intros (He & [H|[(H & _ & H')|(-> & _)]]); unfold gskip; pose proof n6; [|destruct (Rlt_dec _ _); [reflexivity|lra]|].
  - unfold p_gg. destruct (Rlt_dec (/ 10 ^ 6) (eta * eta - 1)); [reflexivity|lra].
  - assert (/ 10 ^ 6 < 1) by (apply (Rmult_lt_reg_l (10 ^ 6)); [lra|]; rewrite Rinv_r; lra). destruct (Rlt_dec _ _); [reflexivity|lra].
Qed.
Lemma gg_d eta t : gg_ok eta -> gQ eta t <> 0 -> is_derive (fun u => p_gg rho rc eta u false) t (/ (1 + t ^ 2) - eta / gQ eta t).
Proof. intros (He & [H|[(H & N & _)|(-> & N)]]) Q; [apply gg_d1; assumption|apply gg_d2; assumption|apply gg_d3; assumption]. Qed.
Lemma gg_integral eta t1 t2 : gg_ok eta -> (forall t, Rmin t2 t1 <= t <= Rmax t2 t1 -> gQ eta t <> 0) ->
  is_RInt (fun t => eta / gQ eta t - / (1 + t ^ 2)) t2 t1 (p_gg rho rc eta t2 (gskip eta) - p_gg rho rc eta t1 false).
Proof.
  intros H Q. rewrite gg_ok_skip by exact H.
  apply (is_RInt_ext (fun t => opp (/ (1 + t ^ 2) - eta / gQ eta t))). { intros t _. Req. change (- (/ (1 + t ^ 2) - eta / gQ eta t) = eta / gQ eta t - / (1 + t ^ 2)). ring. }
  replace (p_gg rho rc eta t2 false - p_gg rho rc eta t1 false) with (opp (minus (p_gg rho rc eta t1 false) (p_gg rho rc eta t2 false))) by (unfold opp, minus, plus; cbn; unfold opp; cbn; ring).
  apply @is_RInt_opp. apply (is_RInt_derive (V := R_CompleteNormedModule) (fun t => p_gg rho rc eta t false) (fun t => / (1 + t ^ 2) - eta / gQ eta t)).
  - intros t Ht. apply gg_d; [exact H|apply Q, Ht].
  - intros t Ht. apply (ex_derive_continuous (K := R_AbsRing) (V := R_NormedModule)). specialize (Q t Ht). unfold gQ in *. auto_derive. pose proof (pow2_ge_0 t). split; [cbn [pow] in *; lra|]. split; [|exact I]. cbn [pow] in *. lra.
Qed.
(** second-order mean value *)
Let t2 := (1 + rho) / rc.
Let t3 := (rho - 1) / rc.
Definition gJ (eta t : R) : R := rc * (t - t3) / (gQ eta t * (1 + t ^ 2)).
Lemma gg_factor eta t : gQ eta t <> 0 -> / (1 + t ^ 2) - eta / gQ eta t = - ((t - t2) * gJ eta t).
Proof.
  intros Q. unfold gJ. pose proof rc_pos. assert (P : 0 < 1 + t ^ 2) by (pose proof (pow2_ge_0 t); lra).
  assert (E : (t - t2) * (rc * (t - t3)) = rc * t ^ 2 - 2 * rho * t - rc).
  { unfold t2, t3. transitivity (rc * t ^ 2 - 2 * rho * t - (1 - rho ^ 2) / rc); [field; lra|]. rewrite <- rc_sq. field. lra. }
  transitivity (- ((t - t2) * (rc * (t - t3))) / (gQ eta t * (1 + t ^ 2))); [|field; split; lra]. rewrite E.
  apply (Rmult_eq_reg_r (gQ eta t * (1 + t ^ 2))); [|apply Rmult_integral_contrapositive_currified; lra]. field_simplify; [|lra|lra]. unfold gQ. ring.
Qed.
Lemma gg_mv eta t1 : gg_ok eta -> (forall t, Rmin t2 t1 <= t <= Rmax t2 t1 -> gQ eta t <> 0) -> t1 <> t2 ->
  exists xi, Rmin t2 t1 <= xi <= Rmax t2 t1 /\ p_gg rho rc eta t2 (gskip eta) - p_gg rho rc eta t1 false = gJ eta xi / 2 * (t1 - t2) ^ 2.
Proof.
  intros H Q Ne. rewrite gg_ok_skip by exact H. set (f := fun u => p_gg rho rc eta u false). set (lam := (f t2 - f t1) * 2 / (t1 - t2) ^ 2).
  assert (P2 : (t1 - t2) ^ 2 <> 0) by (apply pow_nonzero; lra).
  set (g := fun u => f u + lam / 2 * (u - t2) ^ 2).
  assert (D : forall u, Rmin t2 t1 <= u <= Rmax t2 t1 -> derivable_pt_lim g u ((u - t2) * (lam - gJ eta u))).
  { intros u Hu. apply is_derive_Reals. apply (is_derive_eq _ _ ((/ (1 + u ^ 2) - eta / gQ eta u) + lam / 2 * (2 * (u - t2)))).
    - apply is_derive_plus_R; [apply gg_d; [exact H|apply Q, Hu]|]. apply is_derive_scal_R. auto_derive; [exact I|]. Req. ring.
    - rewrite gg_factor by (apply Q, Hu). field. }
  assert (G : g t2 = g t1). { unfold g. unfold lam. field. lra. }
  destruct (Rlt_dec t2 t1) as [L|L].
  - rewrite Rmin_left, Rmax_right in * by lra. destruct (MVT_cor2 g _ t2 t1 L D) as (c & E & Hc). exists c. split; [lra|]. rewrite G in E. replace (g t1 - g t1) with 0 in E by ring.
    assert (lam = gJ eta c). { symmetry in E. apply Rmult_integral in E. destruct E as [E|E]; [|lra]. apply Rmult_integral in E. lra. }
    rewrite <- H0. unfold lam, f. field. lra.
  - assert (L' : t1 < t2) by lra. rewrite Rmin_right, Rmax_left in * by lra. destruct (MVT_cor2 g _ t1 t2 L' D) as (c & E & Hc). exists c. split; [lra|]. rewrite G in E. replace (g t1 - g t1) with 0 in E by ring.
    assert (lam = gJ eta c). { symmetry in E. apply Rmult_integral in E. destruct E as [E|E]; [|lra]. apply Rmult_integral in E. lra. }
    rewrite <- H0. unfold lam, f. field. lra.
Qed.
Lemma gQ_t2 eta : gQ eta t2 = eta * (1 + t2 ^ 2).
Proof.
  unfold gQ, t2. pose proof rc_pos. pose proof rc_sq as E. apply (Rmult_eq_reg_r (rc ^ 2)); [|apply pow_nonzero; lra].
  transitivity (eta * rc ^ 2 + rc * rc ^ 2 + 2 * rho * (1 + rho) * rc + (eta - rc) * (1 + rho) ^ 2); [field; lra|].
  transitivity (eta * (rc ^ 2 + (1 + rho) ^ 2)); [|field; lra]. rewrite E. ring.
Qed.
Lemma t2_1p : 1 + t2 ^ 2 = 2 * (1 + rho) / rc ^ 2.
Proof. unfold t2. pose proof rc_pos. pose proof rc_sq as E. transitivity ((rc ^ 2 + (1 + rho) ^ 2) / rc ^ 2); [field; lra|]. rewrite E. field. rewrite <- E. apply pow_nonzero. lra. Qed.
Lemma gJ_t2 eta : eta <> 0 -> gJ eta t2 * t2 ^ 2 / 2 = rc ^ 2 / (4 * eta).
Proof.
  intros Ne. unfold gJ. rewrite gQ_t2, t2_1p. unfold t2, t3. pose proof rc_pos. field. lra.
Qed.
Lemma gJ_cont eta : eta <> 0 -> continuity_2d_pt gJ eta t2.
Proof.
  intros Ne. unfold gJ. assert (NZ : gQ eta t2 * (1 + t2 ^ 2) <> 0).
  { rewrite gQ_t2, t2_1p. pose proof rc_pos. assert (E2 : 2 * (1 + rho) / rc ^ 2 <> 0) by (apply Rgt_not_eq, Rdiv_lt_0_compat; [lra|apply pow_lt; lra]). apply Rmult_integral_contrapositive_currified; [apply Rmult_integral_contrapositive_currified; [exact Ne|exact E2]|exact E2]. }
  apply (continuity_2d_pt_ext (fun x y => (rc * (y - t3)) * / ((((x + rc) + (2 * rho) * y) + (x - rc) * (y * y)) * (1 + y * y)))).
  { intros x y. unfold Rdiv, gQ. f_equal. f_equal. ring. }
  apply continuity_2d_pt_mult.
  - apply continuity_2d_pt_mult; [apply continuity_2d_pt_const|]. apply continuity_2d_pt_minus; [apply continuity_2d_pt_id2|apply continuity_2d_pt_const].
  - apply continuity_2d_pt_inv; [|unfold gQ in NZ; cbn [pow] in NZ; rewrite Rmult_1_r in NZ; exact NZ].
    repeat first [apply continuity_2d_pt_mult|apply continuity_2d_pt_plus|apply continuity_2d_pt_minus|apply continuity_2d_pt_id1|apply continuity_2d_pt_id2|apply continuity_2d_pt_const].
Qed.
End G.
