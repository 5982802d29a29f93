(** Kummer's function, its differential equation, and the 3/2 model's transform. *)
From Coq Require Import Reals Lra Lia List Arith Psatz.
From Coquelicot Require Import Coquelicot.
From Verif Require Import Base Sums Spec_Misc P_Tight Spec_Cev P_Gamma P_Gamma2 P_KlSum M_Mgf Spec_Sv32.
Open Scope R_scope.

Section K.
Variables a b : R.
Hypothesis Hb : 0 < b.
Definition kc (n : nat) : R := rising a n / rising b n / INR (fact n).
Lemma rising_pos n : 0 < rising b n.
Proof. induction n; cbn [rising]; [lra|]. pose proof (pos_INR n). apply Rmult_lt_0_compat; lra. Qed.
Lemma kc_S n : kc (S n) = kc n * ((a + INR n) / ((b + INR n) * (INR n + 1))).
Proof. unfold kc. rewrite fact_simpl, mult_INR, S_INR. cbn [rising]. pose proof (rising_pos n). pose proof (fact_pos n). pose proof (pos_INR n). field. repeat split; lra. Qed.
Lemma kc_bd n : Rabs (kc n) <= (1 + Rabs (a - b) / b) ^ n / INR (fact n).
Proof.
  set (q := 1 + Rabs (a - b) / b). assert (Hq : 0 <= Rabs (a - b) / b) by (apply Rmult_le_pos; [apply Rabs_pos|left; now apply Rinv_0_lt_compat]).
  induction n.
  - unfold kc. cbn. rewrite Rabs_right; [lra|]. lra.
  - rewrite kc_S, Rabs_mult. pose proof (pos_INR n). pose proof (fact_pos n).
    assert (B : Rabs ((a + INR n) / ((b + INR n) * (INR n + 1))) <= q / (INR n + 1)).
    { replace ((a + INR n) / ((b + INR n) * (INR n + 1))) with ((1 + (a - b) / (b + INR n)) / (INR n + 1)) by (field; lra).
      unfold Rdiv at 1 3. rewrite Rabs_mult, (Rabs_right (/ (INR n + 1))) by (left; apply Rinv_0_lt_compat; lra). apply Rmult_le_compat_r; [left; apply Rinv_0_lt_compat; lra|].
      apply Rle_trans with (1 := Rabs_triang _ _). rewrite Rabs_R1. unfold q. apply Rplus_le_compat_l. unfold Rdiv. rewrite Rabs_mult. apply Rmult_le_compat_l; [apply Rabs_pos|].
      rewrite Rabs_right by (left; apply Rinv_0_lt_compat; lra). apply Rinv_le_contravar; lra. }
    replace (q ^ S n / INR (fact (S n))) with (q ^ n / INR (fact n) * (q / (INR n + 1))). 2: { rewrite fact_simpl, mult_INR, S_INR. cbn [pow]. field. split; lra. }
    apply Rmult_le_compat; try apply Rabs_pos; assumption.
Qed.
Lemma kc_cv : CV_radius kc = p_infty.
Proof.
  apply CV_all. intros x Hx. set (q := 1 + Rabs (a - b) / b).
  apply (ex_series_le (V := R_CompleteNormedModule) (fun n => Rabs (kc n) * x ^ n) (fun n => / INR (fact n) * (q * x) ^ n)); [|eexists; apply exp_series].
  intros n. change (Rabs (Rabs (kc n) * x ^ n) <= / INR (fact n) * (q * x) ^ n). assert (0 <= x ^ n) by (apply pow_le; lra).
  rewrite Rabs_mult, Rabs_Rabsolu, (Rabs_right (x ^ n)) by lra. rewrite Rpow_mult_distr.
  replace (/ INR (fact n) * (q ^ n * x ^ n)) with (q ^ n / INR (fact n) * x ^ n) by (unfold Rdiv; ring). apply Rmult_le_compat_r; [assumption|apply kc_bd].
Qed.
Definition kum (x : R) : R := PSeries kc x.
Definition kum1 (x : R) : R := PSeries (PS_derive kc) x.
Definition kum2 (x : R) : R := PSeries (PS_derive (PS_derive kc)) x.
Lemma kum_d x : is_derive kum x (kum1 x). Proof. exact (ps_derive kc x kc_cv). Qed.
Lemma kum1_d x : is_derive kum1 x (kum2 x). Proof. apply (ps_derive (PS_derive kc) x). rewrite CV_radius_derive. apply kc_cv. Qed.
Lemma kum_ode x : x * kum2 x + (b - x) * kum1 x - a * kum x = 0.
Proof.
  assert (C1 : CV_radius (PS_derive kc) = p_infty) by (rewrite CV_radius_derive; apply kc_cv).
  assert (C2 : CV_radius (PS_derive (PS_derive kc)) = p_infty) by (rewrite CV_radius_derive; apply C1).
  assert (S0 : is_series (fun n => kc n * x ^ n) (kum x)) by (apply Series_correct; apply ps_ex, kc_cv).
  assert (S1 : is_series (fun n => PS_derive kc n * x ^ n) (kum1 x)) by (apply Series_correct; apply ps_ex, C1).
  assert (S2 : is_series (fun n => PS_derive (PS_derive kc) n * x ^ n) (kum2 x)) by (apply Series_correct; apply ps_ex, C2).
  assert (X2 : is_series (fun n => INR n * (INR n + 1) * kc (S n) * x ^ n) (x * kum2 x)).
  { assert (T : is_series (fun n => INR (S n) * (INR (S n) + 1) * kc (S (S n)) * x ^ S n) (x * kum2 x)).
    { eapply series_ext; [apply (series_scal x), S2|]. intros n. cbv beta. unfold PS_derive. rewrite !S_INR. cbn [pow]. ring. }
    rewrite series_rsum in T |- *. apply is_lim_seq_incr_1. eapply is_lim_seq_ext; [|exact T]. intros n. cbv beta. rewrite (rsum_shift n (fun n => INR n * (INR n + 1) * kc (S n) * x ^ n)). cbn [INR]. ring. }
  assert (X1 : is_series (fun n => INR n * kc n * x ^ n) (x * kum1 x)).
  { assert (T : is_series (fun n => INR (S n) * kc (S n) * x ^ S n) (x * kum1 x)).
    { eapply series_ext; [apply (series_scal x), S1|]. intros n. cbv beta. unfold PS_derive. cbn [pow]. ring. }
    rewrite series_rsum in T |- *. apply is_lim_seq_incr_1. eapply is_lim_seq_ext; [|exact T]. intros n. cbv beta. rewrite (rsum_shift n (fun n => INR n * kc n * x ^ n)). cbn [INR]. ring. }
  pose proof (series_minus _ _ _ _ (series_minus _ _ _ _ (series_minus _ _ _ _ X2 X1) (series_scal a _ _ S0)) (series_scal (- b) _ _ S1)) as Z. cbv beta in Z.
  assert (Z0 : is_series (fun _ : nat => 0) (x * kum2 x - x * kum1 x - a * kum x - - b * kum1 x)).
  { eapply series_ext; [exact Z|]. intros n. cbv beta. unfold PS_derive. rewrite kc_S, S_INR. pose proof (pos_INR n). field. split; lra. }
  apply is_series_unique in Z0. rewrite Series_zero in Z0. lra.
Qed.
Lemma hyp1f1_lim x : is_lim_seq (fun n => hyp1f1 n a b x) (kum x).
Proof.
  assert (L : is_lim_seq (fun n => rsum n (hyp_term a b x)) (kum x)).
  { apply series_rsum. eapply series_ext; [apply Series_correct; apply (ps_ex kc x), kc_cv|]. intros n. unfold hyp_term, kc. pose proof (rising_pos n). pose proof (fact_pos n). field. split; lra. }
  apply (is_lim_seq_ext (fun n => rsum (n + 2) (hyp_term a b x))).
  - intros n. symmetry. apply hyp1f1_series. intros j _. pose proof (pos_INR j). lra.
  - exact (proj1 (is_lim_seq_incr_n (fun n => rsum n (hyp_term a b x)) 2 (kum x)) L).
Qed.
End K.
Section P.
Variables (k th xi rho u : R).
Hypothesis (Hk : 0 < k) (Ht : 0 < th) (Hx : 0 < xi).
Let mu : R := / 2 + (k - u * rho * xi) / xi ^ 2.
Let ct : R := u * (1 - u) / xi ^ 2.
Hypothesis Hd : 0 <= mu ^ 2 + ct.
Let dl : R := sqrt (mu ^ 2 + ct).
Let al : R := - mu + dl.
Let be : R := 1 + 2 * dl.
Let m : R := k * th.
Lemma dl_nonneg : 0 <= dl. Proof. apply sqrt_pos. Qed.
Lemma be_pos : 0 < be. Proof. unfold be. pose proof dl_nonneg. lra. Qed.
Lemma al_eq : al ^ 2 + 2 * mu * al = ct.
Proof. unfold al. assert (E : dl ^ 2 = mu ^ 2 + ct) by (apply pow2_sqrt; exact Hd). replace ((- mu + dl) ^ 2 + 2 * mu * (- mu + dl)) with (dl ^ 2 - mu ^ 2) by ring. rewrite E. ring. Qed.
Definition XX32 (t v : R) : R := 2 * (k * th) / (xi ^ 2 * v) / (exp (k * th * t) - 1).
Lemma m_pos : 0 < m. Proof. now apply Rmult_lt_0_compat. Qed.
Lemma em1_pos t : 0 < t -> 0 < exp (m * t) - 1.
Proof. intros H. pose proof m_pos. assert (0 < m * t) by now apply Rmult_lt_0_compat. pose proof (exp_ineq1 (m * t) ltac:(lra)). lra. Qed.
Lemma XX_pos t v : 0 < t -> 0 < v -> 0 < XX32 t v.
Proof. intros H1 H2. unfold XX32. fold m. pose proof m_pos. apply Rdiv_lt_0_compat; [|now apply em1_pos]. apply Rdiv_lt_0_compat; [lra|]. apply Rmult_lt_0_compat; [now apply pow_lt|exact H2]. Qed.
Lemma XX_t t v : 0 < t -> 0 < v -> is_derive (fun y => XX32 y v) t (- m * XX32 t v - / 2 * xi ^ 2 * v * XX32 t v ^ 2).
Proof.
  intros H1 H2. pose proof (em1_pos t H1). pose proof m_pos. unfold XX32. fold m. auto_derive; [fold m; lra|]. Req. fold m. set (E := exp (m * t)) in *. field. repeat split; lra.
Qed.
Lemma XX_v t v : 0 < t -> 0 < v -> is_derive (fun y => XX32 t y) v (- XX32 t v / v).
Proof.
  intros H1 H2. pose proof (em1_pos t H1). pose proof m_pos. unfold XX32. fold m. auto_derive.
  - assert (0 < xi * (xi * 1) * v) by (apply Rmult_lt_0_compat; [nra|exact H2]). lra.
  - Req. set (E := exp (m * t)) in *. field. repeat split; lra.
Qed.
Variable C : R.
Definition g32 (x : R) : R := C * (Rpower x al * kum al be (- x)).
Definition g32_1 (x : R) : R := C * (Rpower x al * (al / x * kum al be (- x) - kum1 al be (- x))).
Definition g32_2 (x : R) : R := C * (Rpower x al * (al * (al - 1) / x ^ 2 * kum al be (- x) - 2 * al / x * kum1 al be (- x) + kum2 al be (- x))).
Lemma dneg (f : R -> R) (d x : R) : is_derive f (- x) d -> is_derive (fun y => f (- y)) x (- d).
Proof.
  intros H. assert (DI : is_derive (fun y : R => - y) x (-1)) by (auto_derive; [exact I|ring]). pose proof (is_derive_comp f (fun y => - y) x _ _ H DI) as D. unfold scal in D; cbn in D. unfold mult in D; cbn in D.
  eapply is_derive_eq; [exact D|]. ring.
Qed.
Lemma pow_d x : 0 < x -> is_derive (fun y => Rpower y al) x (Rpower x al * (al / x)).
Proof. intros H. eapply is_derive_eq; [now apply rpow_derive|]. replace (Rpower x al) with (Rpower x ((al - 1) + 1)) by (f_equal; ring). rewrite Rpower_plus, Rpower_1 by exact H. field. lra. Qed.
Lemma g32_d x : 0 < x -> is_derive g32 x (g32_1 x).
Proof.
  intros H. unfold g32, g32_1. eapply is_derive_eq; [apply is_derive_scal_R; apply is_derive_mult_R; [now apply pow_d|apply dneg, (kum_d al be be_pos)]|]. cbv beta. ring.
Qed.
Lemma g32_dd x : 0 < x -> is_derive g32_1 x (g32_2 x).
Proof.
  intros H. unfold g32_1, g32_2. eapply is_derive_eq.
  - apply is_derive_scal_R; apply is_derive_mult_R; [now apply pow_d|]. apply is_derive_minus_R; [|apply dneg, (kum1_d al be be_pos)].
    apply is_derive_mult_R; [|apply dneg, (kum_d al be be_pos)]. instantiate (1 := - (al / x ^ 2)). auto_derive; [lra|]. Req. field. lra.
  - cbv beta. field. lra.
Qed.
Lemma g32_ode x : 0 < x -> x ^ 2 * g32_2 x + x ^ 2 * g32_1 x + (1 + 2 * mu) * x * g32_1 x - ct * g32 x = 0.
Proof.
  intros H. pose proof (kum_ode al be be_pos (- x)) as O. pose proof al_eq as A. unfold g32, g32_1, g32_2. set (K0 := kum al be (- x)) in *. set (K1 := kum1 al be (- x)) in *. set (K2 := kum2 al be (- x)) in *.
  assert (B : be = 1 + 2 * mu + 2 * al) by (unfold be, al; ring).
  match goal with |- ?l = 0 => replace l with (C * Rpower x al * ((al ^ 2 + 2 * mu * al - ct) * K0 - x * (- x * K2 + (1 + 2 * mu + 2 * al - - x) * K1 - al * K0))) end.
  2: { field. lra. }
  rewrite A, <- B, O. ring.
Qed.
Lemma pricing32 : pricing_eq32 k th xi rho u (fun t v => g32 (XX32 t v)).
Proof.
  exists (fun t v => g32_1 (XX32 t v) * (- m * XX32 t v - / 2 * xi ^ 2 * v * XX32 t v ^ 2)), (fun t v => g32_1 (XX32 t v) * (- XX32 t v / v)),
    (fun t v => (XX32 t v ^ 2 * g32_2 (XX32 t v) + 2 * XX32 t v * g32_1 (XX32 t v)) / v ^ 2).
  intros t v H1 H2. pose proof (XX_pos t v H1 H2) as PX. pose proof (XX_v t v H1 H2) as DV. split; [|split; [|split]].
  - pose proof (is_derive_comp g32 (fun y => XX32 y v) t _ _ (g32_d _ PX) (XX_t t v H1 H2)) as D. unfold scal in D; cbn -[XX32 g32 g32_1 pow] in D. unfold mult in D; cbn -[XX32 g32 g32_1 pow] in D. eapply is_derive_eq; [exact D|]. ring.
  - pose proof (is_derive_comp g32 (fun y => XX32 t y) v _ _ (g32_d _ PX) DV) as D. unfold scal in D; cbn -[XX32 g32 g32_1 pow] in D. unfold mult in D; cbn -[XX32 g32 g32_1 pow] in D. eapply is_derive_eq; [exact D|]. ring.
  - pose proof (is_derive_comp g32_1 (fun y => XX32 t y) v _ _ (g32_dd _ PX) DV) as D. unfold scal in D; cbn -[XX32 g32_2 g32_1 pow] in D. unfold mult in D; cbn -[XX32 g32_2 g32_1 pow] in D.
    assert (DQ : is_derive (fun y => - XX32 t y / y) v (2 * XX32 t v / v ^ 2)).
    { eapply is_derive_eq; [apply (is_derive_div (fun y => - XX32 t y) (fun y => y)); [apply (is_derive_opp (K := R_AbsRing) (V := R_NormedModule)); exact DV|apply is_derive_id|lra]|]. unfold opp; cbn -[XX32 pow]. unfold one; cbn -[XX32 pow]. Req. field. lra. }
    eapply is_derive_eq; [apply is_derive_mult_R; [exact D|exact DQ]|]. cbv beta. field. lra.
  - pose proof (g32_ode (XX32 t v) PX) as O. unfold gen32. set (X := XX32 t v) in *. set (G0 := g32 X) in *. set (G1 := g32_1 X) in *. set (G2 := g32_2 X) in *.
    apply Rminus_diag_uniq. replace (g32 X) with G0 by reflexivity. 
    match goal with |- ?l = 0 => replace l with (- (/ 2 * xi ^ 2 * v) * (X ^ 2 * G2 + X ^ 2 * G1 + (1 + 2 * mu) * X * G1 - ct * G0)) end.
    + rewrite O. ring.
    + unfold mu, ct, m. field. split; lra.
Qed.
End P.
