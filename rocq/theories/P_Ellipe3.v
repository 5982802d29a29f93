(** Normal SABR through elliptic integrals: guards, Taylor bound, parity. *)
From Coq Require Import Reals Lra Lia Psatz List.
From Coquelicot Require Import Coquelicot.
From Verif Require Import Base Gauss Sums Spec_Opt M_Opt M_Fd M_Sabr M_Ellipe Spec_Ellipe P_Bsm P_Asian5 P_Nsvh P_Ellipe P_Ellipe2.
Open Scope R_scope.

Section H.
Variables (rho k xi : R).
Hypothesis (Hr : rho ^ 2 < 1) (Hxi : 0 < xi).
Let rc := 1 - rho ^ 2.
Let V := sqrt (k ^ 2 + rc).
Let u0 := nsi_u0 rho k xi.
Let C0 := (V - rho * k) / rc.
Let S0 := Rabs (rho * V - k) / rc.
Lemma e_rc : 0 < rc. Proof using Hr. unfold rc. lra. Qed.
Lemma e_V2 : V * V = k ^ 2 + rc.
Proof using Hr. pose proof e_rc. apply sqrt_sqrt. nra. Qed.
Lemma e_V : 0 < V.
Proof using Hr. pose proof e_rc. apply sqrt_lt_R0. nra. Qed.
Lemma e_Vk : - V < rho * k < V.
Proof using Hr.
  pose proof e_V as HV. pose proof e_V2 as E. pose proof e_rc as Hc. assert (L : (rho * k) * (rho * k) < V * V). { rewrite E. unfold rc in *. nra. }
  split; nra.
Qed.
Lemma e_C0 : 0 < C0.
Proof using Hr. pose proof e_Vk. unfold C0. apply Rdiv_lt_0_compat; [lra|apply e_rc]. Qed.
Lemma e_S0 : 0 <= S0.
Proof using Hr. unfold S0. apply Rmult_le_pos; [apply Rabs_pos|left; apply Rinv_0_lt_compat, e_rc]. Qed.
Lemma e_arg : Rabs ((rho * V - k) / rc) = S0.
Proof using Hr. unfold Rdiv. rewrite Rabs_mult, (Rabs_right (/ rc)) by (apply Rle_ge; left; apply Rinv_0_lt_compat, e_rc). reflexivity. Qed.
Lemma e_u0 : 2 * xi * u0 = arcsinh_np S0.
Proof using Hr Hxi. unfold u0, nsi_u0. fold rc. fold V. rewrite e_arg. field. lra. Qed.
Lemma e_sinh : sinh (2 * xi * u0) = S0.
Proof using Hr Hxi. rewrite e_u0. apply sinh_ash. Qed.
Lemma e_cosh : cosh (2 * xi * u0) = C0.
Proof using Hr Hxi.
  pose proof (cosh_sq (2 * xi * u0)) as E. rewrite e_sinh in E. pose proof (cosh_gt0 (2 * xi * u0)) as P. pose proof e_C0 as Q. set (c := cosh _) in *. clearbody c.
  assert (F : 1 + S0 * S0 = C0 * C0).
  { unfold S0, C0. pose proof e_rc as R0. apply (Rmult_eq_reg_l (rc * rc)); [|nra]. replace (rc * rc * (1 + Rabs (rho * V - k) / rc * (Rabs (rho * V - k) / rc))) with (rc * rc + Rabs (rho * V - k) * Rabs (rho * V - k)) by (field; lra).
    replace (rc * rc * ((V - rho * k) / rc * ((V - rho * k) / rc))) with ((V - rho * k) * (V - rho * k)) by (field; lra).
    assert (AA : Rabs (rho * V - k) * Rabs (rho * V - k) = (rho * V - k) * (rho * V - k)) by (rewrite <- Rabs_mult; apply Rabs_right, Rle_ge; apply Rle_0_sqr). rewrite AA.
    pose proof e_V2 as E2. replace ((rho * V - k) * (rho * V - k)) with (rho * rho * (V * V) - 2 * rho * V * k + k * k) by ring. replace ((V - rho * k) * (V - rho * k)) with (V * V - 2 * rho * V * k + rho * rho * (k * k)) by ring. rewrite E2. unfold rc. ring. }
  clearbody S0 C0. nra.
Qed.
Lemma e_u0_nonneg : 0 <= u0.
Proof using Hr Hxi. pose proof e_u0 as E. pose proof (ash_nonneg S0 e_S0) as A. rewrite <- E in A. nra. Qed.
(** for u >= u0 the quantities under the roots are what they should be and the guards never act *)
Let ch u := cosh (2 * xi * u).
Let x u := rc * (ch u - C0).
Lemma e_x u : u0 <= u -> 0 <= x u.
Proof using Hr Hxi.
  intros H. unfold x. apply Rmult_le_pos; [left; apply e_rc|]. rewrite <- e_cosh. unfold ch. pose proof e_u0_nonneg. pose proof (cosh_incr (2 * xi * u0) (2 * xi * u) ltac:(nra) ltac:(nra)). lra.
Qed.
Lemma e_disc u : rc * (ch u ^ 2 - 1 - (k - rho * ch u) ^ 2) = x u * (x u + 2 * V).
Proof using Hr.
  unfold x, C0. pose proof e_rc as R0. pose proof e_V2 as E. set (c := ch u). clearbody c. clearbody V.
  replace (rc * (c - (V - rho * k) / rc)) with (rc * c - V + rho * k) by (field; lra). replace ((rc * c - V + rho * k) * (rc * c - V + rho * k + 2 * V)) with ((rc * c + rho * k) ^ 2 - V * V) by ring. rewrite E. unfold rc. ring.
Qed.
Lemma e_mid u : rho * k + rc * ch u = V + x u.
Proof using Hr. unfold x, C0. pose proof e_rc. field. lra. Qed.
Let d u := sqrt (x u * (x u + 2 * V)).
Lemma e_d u : u0 <= u -> 0 <= d u /\ d u * d u = (V + x u) ^ 2 - V ^ 2 /\ d u < V + x u.
Proof using Hr Hxi.
  intros H. pose proof (e_x u H) as X. pose proof e_V as HV. unfold d. pose proof (sqrt_pos (x u * (x u + 2 * V))) as P. assert (E : sqrt (x u * (x u + 2 * V)) * sqrt (x u * (x u + 2 * V)) = x u * (x u + 2 * V)) by (apply sqrt_sqrt; nra).
  set (s := sqrt _) in *. clearbody s. set (xx := x u) in *. clearbody xx. clearbody V. split; [exact P|]. split; [rewrite E; ring|]. nra.
Qed.
Lemma guards u : u0 <= u -> 0 <= rc * (ch u ^ 2 - 1 - (k - rho * ch u) ^ 2) /\
  0 < rho * k + rc * ch u + sqrt (rc * (ch u ^ 2 - 1 - (k - rho * ch u) ^ 2)) /\
  2 * sqrt (rc * (ch u ^ 2 - 1 - (k - rho * ch u) ^ 2)) / (rho * k + rc * ch u + sqrt (rc * (ch u ^ 2 - 1 - (k - rho * ch u) ^ 2))) < 1.
Proof using Hr Hxi.
  intros H. rewrite e_mid, e_disc. fold (d u). destruct (e_d u H) as (D1 & D2 & D3). pose proof (e_x u H) as X. pose proof e_V as HV.
  split; [nra|]. split; [lra|]. apply (Rmult_lt_reg_r (V + x u + d u)); [lra|]. unfold Rdiv. rewrite Rmult_assoc, Rinv_l, Rmult_1_r by lra. lra.
Qed.
Variable ellipe : R -> R.
Hypothesis HE : elliptic_E ellipe.
Lemma hh_eq u : u0 <= u -> hh_xi ellipe u k xi rho = sqrt (V + x u + d u) * ellipe (2 * d u / (V + x u + d u)).
Proof using Hr Hxi.
  intros H. unfold hh_xi. fold rc. fold (ch u). cbv zeta. destruct (guards u H) as (G1 & G2 & G3). rewrite (Rmax_left (rc * _)) by exact G1.
  rewrite Rmax_left by lra. rewrite Rmin_left by lra. rewrite e_mid, e_disc. reflexivity.
Qed.
Lemma hh_int u : u0 <= u -> is_RInt (fun t => sqrt (V + x u + d u * cos (2 * t))) 0 (PI / 2) (hh_xi ellipe u k xi rho).
Proof using Hr Hxi HE.
  intros H. rewrite (hh_eq u H). destruct (e_d u H) as (D1 & D2 & D3). pose proof (e_x u H) as X. pose proof e_V as HV.
  set (vp := V + x u + d u). assert (Hvp : 0 < vp) by (unfold vp; lra). assert (M1 : 2 * d u / vp <= 1).
  { apply (Rmult_le_reg_r vp); [exact Hvp|]. unfold Rdiv. rewrite Rmult_assoc, Rinv_l, Rmult_1_r by lra. unfold vp. lra. }
  pose proof (is_RInt_scal (V := R_NormedModule) _ _ _ (sqrt vp) _ (HE _ M1)) as I.
  eapply is_RInt_ext; [|exact I]. intros t _. unfold scal; cbn -[pow]. unfold mult; cbn -[pow]. Req. rewrite <- sqrt_mult_alt by lra. f_equal. replace (2 * t) with (t + t) by ring. rewrite cos_plus. pose proof (sin2_cos2 t) as T. unfold Rsqr in T.
  replace (vp * (1 - 2 * d u / vp * sin t ^ 2)) with (vp - 2 * d u * (sin t * sin t)) by (field; lra). unfold vp. replace (cos t * cos t) with (1 - sin t * sin t) by lra. ring.
Qed.
Let w u := x u / V.
Lemma hh_norm u : u0 <= u -> is_RInt (fun t => sqrt (1 + w u + sqrt (w u * (w u + 2)) * cos (2 * t))) 0 (PI / 2) (hh_xi ellipe u k xi rho / sqrt V).
Proof using Hr Hxi HE.
  intros H. pose proof (e_x u H) as X. pose proof e_V as HV. pose proof (hh_int u H) as I. apply (is_RInt_scal (V := R_NormedModule) _ _ _ (/ sqrt V)) in I. assert (SV : 0 < sqrt V) by now apply sqrt_lt_R0.
  replace (hh_xi ellipe u k xi rho / sqrt V) with (scal (V := R_NormedModule) (/ sqrt V) (hh_xi ellipe u k xi rho)) by (unfold scal; cbn; unfold mult; cbn; unfold Rdiv; ring).
  eapply is_RInt_ext; [|exact I]. intros t _. unfold scal; cbn -[pow]. unfold mult; cbn -[pow]. Req. rewrite <- sqrt_inv, <- sqrt_mult_alt by (left; now apply Rinv_0_lt_compat). f_equal.
  assert (Ed : d u = V * sqrt (w u * (w u + 2))).
  { unfold d, w. replace (x u * (x u + 2 * V)) with (V * V * (x u / V * (x u / V + 2))) by (field; lra). rewrite sqrt_mult_alt by nra. rewrite sqrt_square by lra. reflexivity. }
  rewrite Ed. unfold w. field. lra.
Qed.
Lemma hh_at_u0 : hh_xi ellipe u0 k xi rho = sqrt V * (PI / 2).
Proof using Hr Hxi HE.
  pose proof (hh_norm u0 ltac:(lra)) as I. assert (Z : w u0 = 0) by (unfold w, x, ch; rewrite e_cosh; unfold Rdiv; ring). rewrite Z in I.
  apply (legendre_half 0) in I; [|lra|lra]. rewrite sqrt_0 in I. replace (PI / 2 * (500 * (0 ^ 2 * 0))) with 0 in I by ring. pose proof (Rabs_pos (hh_xi ellipe u0 k xi rho / sqrt V - PI / 2 * (1 + 3 / 8 * 0 - 15 / 256 * 0 ^ 2))) as P.
  assert (E : hh_xi ellipe u0 k xi rho / sqrt V - PI / 2 * (1 + 3 / 8 * 0 - 15 / 256 * 0 ^ 2) = 0). { (destruct (Req_dec (hh_xi ellipe u0 k xi rho / sqrt V - PI / 2 * (1 + 3 / 8 * 0 - 15 / 256 * 0 ^ 2)) 0) as [Q|Q]; [exact Q|apply Rabs_pos_lt in Q; lra]). }
  assert (SV : 0 < sqrt V) by (apply sqrt_lt_R0, e_V). apply (Rmult_eq_reg_r (/ sqrt V)); [|apply Rinv_neq_0_compat; lra]. replace (sqrt V * (PI / 2) * / sqrt V) with (PI / 2) by (field; lra). unfold Rdiv in *. lra.
Qed.
(** hh_xi agrees with hh_xi_approx to second order at u0 *)
Let r := rc / V.
Lemma approx_eq u : let dl := 2 * xi * (u - u0) in hh_xi_approx u k xi rho = sqrt V * (PI / 2 * (1 + 3 / 8 * (r * S0) * dl + (3 / 16 * (r * C0) - 15 / 256 * (r * S0) ^ 2) * dl ^ 2)).
Proof using Hr.
  intros dl. unfold hh_xi_approx. fold rc. cbv zeta. fold V. change (arcsinh_np (Rabs ((rho * V - k) / rc)) / (2 * xi)) with u0. pose proof e_V as HV. pose proof e_rc as Hc.
  assert (E1 : Rabs (rho - k / V) = r * S0). { unfold r, S0. replace (rc / V * (Rabs (rho * V - k) / rc)) with (Rabs (rho * V - k) * / V) by (field; split; lra). rewrite <- (Rabs_right (/ V)) by (apply Rle_ge; left; now apply Rinv_0_lt_compat). rewrite <- Rabs_mult. f_equal. field. lra. }
  assert (E2 : 1 - rho * k / V = r * C0) by (unfold r, C0; field; split; lra). rewrite E1, E2. unfold dl. field.
Qed.
Lemma hh_taylor : exists M e, 0 < M /\ 0 < e /\ forall u, u0 <= u -> u <= u0 + e ->
  Rabs (hh_xi ellipe u k xi rho - hh_xi_approx u k xi rho) <= M * ((u - u0) ^ 2 * sqrt (u - u0)).
Proof using Hr Hxi HE.
  pose proof e_V as HV. pose proof e_rc as Hc. pose proof e_S0 as HS. pose proof e_C0 as HC. assert (Hr0 : 0 < r) by (apply Rdiv_lt_0_compat; assumption).
  set (N := r * (S0 + C0)). assert (HN : 0 < N) by (apply Rmult_lt_0_compat; lra). set (Q := 5 * N). assert (HQ : 0 < Q) by (unfold Q; lra).
  assert (SV : 0 < sqrt V) by now apply sqrt_lt_R0. pose proof PI_RGT_0 as HPI.
  set (b := Rmin 1 (/ (36 * Q))). assert (Hb : 0 < b) by (apply Rmin_pos; [lra|apply Rinv_0_lt_compat; lra]).
  assert (E2x : 0 < sqrt (2 * xi)) by (apply sqrt_lt_R0; lra). assert (SQ : 0 < sqrt Q) by now apply sqrt_lt_R0.
  set (K := sqrt V * (PI / 2) * (500 * (Q ^ 2 * sqrt Q) + Q + 2 * Q ^ 2)). assert (HK : 0 < K).
  { unfold K. apply Rmult_lt_0_compat; [apply Rmult_lt_0_compat; lra|]. assert (0 < Q ^ 2) by (apply pow_lt; lra). assert (0 < Q ^ 2 * sqrt Q) by (apply Rmult_lt_0_compat; lra). lra. }
  exists (K * ((2 * xi) ^ 2 * sqrt (2 * xi))), (b / (2 * xi)). split; [|split].
  - apply Rmult_lt_0_compat; [exact HK|]. apply Rmult_lt_0_compat; [apply pow_lt; lra|exact E2x].
  - apply Rdiv_lt_0_compat; lra.
  - intros u Hu Hu1. set (dl := 2 * xi * (u - u0)). assert (D0 : 0 <= dl) by (apply Rmult_le_pos; lra).
    assert (Db : dl <= b). { unfold dl. apply (Rmult_le_compat_l (2 * xi)) in Hu1; [|lra]. replace (2 * xi * (u0 + b / (2 * xi))) with (2 * xi * u0 + b) in Hu1 by (field; lra). lra. }
    pose proof (Rmin_l 1 (/ (36 * Q))) as B1. pose proof (Rmin_r 1 (/ (36 * Q))) as B2. fold b in B1, B2.
    assert (D1 : dl <= 1) by lra.
    assert (Ew : w u = r * (C0 * (cosh dl - 1) + S0 * sinh dl)).
    { unfold w, x, ch. replace (2 * xi * u) with (2 * xi * u0 + dl) by (unfold dl; ring). rewrite cosh_add, e_cosh, e_sinh. unfold r. field. lra. }
    destruct (cosh_sinh_small dl (conj D0 D1)) as [T1 T2]. apply Rabs_le_between in T1. apply Rabs_le_between in T2.
    assert (W0 : 0 <= w u) by (apply Rmult_le_pos; [now apply e_x|left; now apply Rinv_0_lt_compat]).
    set (e1 := cosh dl - 1 - dl ^ 2 / 2) in *. set (e2 := sinh dl - dl) in *.
    assert (Ew2 : w u = r * S0 * dl + r * C0 * (dl ^ 2 / 2) + (r * C0 * e1 + r * S0 * e2)) by (rewrite Ew; unfold e1, e2; field). clear Ew. clearbody e1 e2.
    assert (HrS : 0 <= r * S0 <= N) by (unfold N; split; nra). assert (HrC : 0 <= r * C0 <= N) by (unfold N; split; nra). assert (ENN : r * S0 + r * C0 = N) by (unfold N; ring).
    assert (D2 : 0 <= dl ^ 2 <= dl) by nra. assert (D3 : 0 <= dl ^ 3 <= dl ^ 2) by (replace (dl ^ 3) with (dl * dl ^ 2) by ring; nra).
    assert (R3 : Rabs (r * C0 * e1 + r * S0 * e2) <= 3 * N * dl ^ 3). { apply Rabs_le. rewrite <- ENN. set (cc := r * C0) in *. set (ss := r * S0) in *. clearbody cc ss. split; nra. }
    pose proof (hh_norm u Hu) as I. pose proof (approx_eq u) as EA. cbv zeta in EA. fold dl in EA.
    set (ss := r * S0) in *. set (cc := r * C0) in *. clearbody ss cc N.
    set (e3 := cc * e1 + ss * e2) in *. clearbody e3. assert (R3' := R3). apply Rabs_le_between in R3'.
    set (wu := w u) in *. clearbody wu.
    assert (WQ : wu <= Q * dl). { unfold Q. rewrite Ew2. assert (ss * dl <= N * dl) by nra. assert (cc * (dl ^ 2 / 2) <= N * dl) by nra. assert (3 * N * dl ^ 3 <= 3 * N * dl) by nra. lra. }
    assert (WS : 0 <= Rabs (wu - ss * dl) <= Q * dl ^ 2). { split; [apply Rabs_pos|]. apply Rabs_le. unfold Q. rewrite Ew2. assert (0 <= cc * (dl ^ 2 / 2) <= N * dl ^ 2) by (split; nra). assert (3 * N * dl ^ 3 <= 3 * N * dl ^ 2) by nra. split; lra. }
    assert (W36 : wu <= / 36). { eapply Rle_trans; [exact WQ|]. apply Rle_trans with (Q * / (36 * Q)); [apply Rmult_le_compat_l; lra|]. right. field. lra. }
    apply (legendre_half wu) in I; [|exact W0|exact W36].
    rewrite EA. clear EA.
    set (H := hh_xi ellipe u k xi rho) in *. clearbody H.
    set (P2 := 1 + 3 / 8 * ss * dl + (3 / 16 * cc - 15 / 256 * ss ^ 2) * dl ^ 2).
    assert (EH : H - sqrt V * (PI / 2 * P2) = sqrt V * ((H / sqrt V - PI / 2 * (1 + 3 / 8 * wu - 15 / 256 * wu ^ 2)) + PI / 2 * (1 + 3 / 8 * wu - 15 / 256 * wu ^ 2 - P2))) by (field; lra).
    rewrite EH. rewrite Rabs_mult, (Rabs_right (sqrt V)) by lra.
    assert (X1 : Rabs (1 + 3 / 8 * wu - 15 / 256 * wu ^ 2 - P2) <= (Q + 2 * Q ^ 2) * dl ^ 3).
    { replace (1 + 3 / 8 * wu - 15 / 256 * wu ^ 2 - P2) with (3 / 8 * e3 - 15 / 256 * ((wu - ss * dl) * (wu + ss * dl))) by (unfold P2; rewrite Ew2; field).
      assert (Y : Rabs ((wu - ss * dl) * (wu + ss * dl)) <= Q * dl ^ 2 * (2 * Q * dl)).
      { rewrite Rabs_mult. apply Rmult_le_compat; [apply Rabs_pos|apply Rabs_pos|lra|]. assert (0 <= ss * dl <= Q * dl) by (unfold Q; split; nra). rewrite Rabs_right by lra. lra. }
      replace (Q * dl ^ 2 * (2 * Q * dl)) with (2 * Q ^ 2 * dl ^ 3) in Y by ring. apply Rabs_le_between in Y. set (yy := (wu - ss * dl) * (wu + ss * dl)) in *. clearbody yy.
      assert (0 <= Q ^ 2 * dl ^ 3) by (apply Rmult_le_pos; [apply pow_le; lra|lra]). assert (0 <= N * dl ^ 3) by (apply Rmult_le_pos; lra).
      replace ((Q + 2 * Q ^ 2) * dl ^ 3) with (5 * (N * dl ^ 3) + 2 * (Q ^ 2 * dl ^ 3)) by (unfold Q; ring). apply Rabs_le. lra. }
    set (sd := sqrt dl). assert (Hsd : sd * sd = dl) by (apply sqrt_sqrt; lra). assert (Hsd0 : 0 <= sd) by apply sqrt_pos. assert (Hsd1 : sd <= 1) by nra.
    assert (Wh : wu ^ 2 * sqrt wu <= Q ^ 2 * sqrt Q * (dl ^ 2 * sd)).
    { replace (Q ^ 2 * sqrt Q * (dl ^ 2 * sd)) with ((Q * dl) ^ 2 * (sqrt Q * sd)) by ring. apply Rmult_le_compat; [apply pow_le; lra|apply sqrt_pos|apply pow_incr; lra|]. unfold sd. rewrite <- sqrt_mult_alt by lra. apply sqrt_le_1_alt. exact WQ. }
    assert (D3s : dl ^ 3 <= dl ^ 2 * sd). { replace (dl ^ 3) with (dl ^ 2 * (sd * sd)) by (rewrite Hsd; ring). apply Rmult_le_compat_l; [lra|]. nra. }
    assert (Es : dl ^ 2 * sd = (2 * xi) ^ 2 * sqrt (2 * xi) * ((u - u0) ^ 2 * sqrt (u - u0))). { unfold sd, dl. rewrite sqrt_mult_alt by lra. ring. }
    rewrite (Rmult_assoc K), <- Es. unfold K. rewrite !(Rmult_assoc (sqrt V)). apply Rmult_le_compat_l; [lra|].
    eapply Rle_trans; [apply Rabs_triang|]. rewrite (Rabs_mult (PI / 2)), (Rabs_right (PI / 2)) by lra.
    set (Z := dl ^ 2 * sd) in *. assert (HZ : 0 <= Z) by (apply Rmult_le_pos; lra). clearbody Z sd.
    assert (0 < Q + 2 * Q ^ 2) by (assert (0 < Q ^ 2) by (apply pow_lt; lra); lra).
    apply Rle_trans with (PI / 2 * (500 * (Q ^ 2 * sqrt Q * Z)) + PI / 2 * ((Q + 2 * Q ^ 2) * Z)).
    + apply Rplus_le_compat.
      * eapply Rle_trans; [exact I|]. apply Rmult_le_compat_l; lra.
      * apply Rmult_le_compat_l; [lra|]. eapply Rle_trans; [exact X1|]. apply Rmult_le_compat_l; lra.
    + right. ring.
Qed.
End H.
