(** Kummer's transformation and the behaviour of the 3/2 transform at expiry. *)
From Coq Require Import Reals Lra Lia List Arith Psatz.
From Coquelicot Require Import Coquelicot.
From Verif Require Import Base Sums Spec_Misc P_Tight Spec_Cev P_Gamma P_Gamma2 P_KlSum M_Mgf Spec_Sv32 P_Digamma P_Kummer Spec_CevMc P_CevMc Spec_HestonMc P_HestonMc5.
Open Scope R_scope.

Definition ec (n : nat) : R := / INR (fact n).
Lemma ec_cv : CV_radius ec = p_infty.
Proof. apply (CV_fact ec 1). intros n. unfold ec. pose proof (fact_pos n). rewrite Rabs_right; [lra|]. left. now apply Rinv_0_lt_compat. Qed.
Lemma ec_exp x : PSeries ec x = exp x. Proof. apply is_series_unique. apply exp_series. Qed.
Lemma rising_pos' b n : 0 < b -> 0 < rising b n.
Proof. intros Hb. induction n; cbn [rising]; [lra|]. pose proof (pos_INR n). apply Rmult_lt_0_compat; lra. Qed.
Lemma rising_head b n : b * rising (b + 1) n = rising b n * (b + INR n).
Proof. induction n; [cbn; ring|]. cbn [rising]. rewrite <- Rmult_assoc, IHn, S_INR. ring. Qed.
(** binomial coefficients as reals, by Pascal's rule *)
Fixpoint bin (n k : nat) : R := match n, k with O, O => 1 | O, S _ => 0 | S n', O => 1 | S n', S k' => bin n' k' + bin n' (S k') end.
Lemma bin_0 n : bin n 0 = 1. Proof. destruct n; reflexivity. Qed.
Lemma bin_gt n : forall k, (n < k)%nat -> bin n k = 0.
Proof. induction n; intros [|k] H; try lia; cbn; [reflexivity|]. rewrite !IHn by lia. ring. Qed.
Lemma bin_fact n : forall k, (k <= n)%nat -> bin n k * (INR (fact k) * INR (fact (n - k))) = INR (fact n).
Proof.
  induction n; intros [|k] H; try lia.
  - cbn. ring.
  - rewrite bin_0, Nat.sub_0_r. cbn [fact INR]. change (INR (fact 0)) with 1. ring.
  - cbn [bin]. destruct (Nat.eq_dec k n) as [->|N].
    + rewrite (bin_gt n (S n)) by lia. pose proof (IHn n ltac:(lia)) as I. rewrite Nat.sub_diag in I |- *. rewrite (fact_simpl n), mult_INR. transitivity (INR (S n) * (bin n n * (INR (fact n) * INR (fact 0)))); [ring|]. rewrite I. reflexivity.
    + pose proof (IHn k ltac:(lia)) as I1. pose proof (IHn (S k) ltac:(lia)) as I2. replace (S n - S k)%nat with (n - k)%nat by lia.
      replace (n - k)%nat with (S (n - S k)) in I1 |- * by lia. rewrite (fact_simpl n), (fact_simpl (n - S k)), (fact_simpl k) in *. rewrite !mult_INR in *. rewrite !S_INR in *.
      assert (E : INR (n - S k) = INR n - INR k - 1) by (rewrite minus_INR, S_INR by lia; ring). rewrite E in *.
      transitivity ((INR k + 1) * (bin n k * (INR (fact k) * ((INR n - INR k - 1 + 1) * INR (fact (n - S k))))) + (INR n - INR k) * (bin n (S k) * ((INR k + 1) * INR (fact k) * INR (fact (n - S k))))); [ring|].
      rewrite I1, I2. ring.
Qed.
(** Chu-Vandermonde *)
Lemma vandermonde a n : forall b, 0 < b -> rsum (S n) (fun k => bin n k * ((-1) ^ k * (rising a k / rising b k))) = rising (b - a) n / rising b n.
Proof.
  induction n; intros b Hb; [cbn; field|]. set (q := fun k => (-1) ^ k * (rising a k / rising b k)).
  assert (P : rsum (S (S n)) (fun k => bin (S n) k * q k) = rsum (S n) (fun k => bin n k * (q k + q (S k)))).
  { rewrite (rsum_ext (S n) (fun k => bin n k * (q k + q (S k))) (fun k => bin n k * q k + bin n k * q (S k))) by (intros; ring). rewrite rsum_plus.
    rewrite (rsum_shift (S n)). cbn [bin]. rewrite (rsum_ext (S n) (fun k => (bin n k + bin n (S k)) * q (S k)) (fun k => bin n k * q (S k) + bin n (S k) * q (S k))) by (intros; ring). rewrite rsum_plus.
    assert (E : rsum (S n) (fun k => bin n (S k) * q (S k)) = rsum (S n) (fun k => bin n k * q k) - q 0%nat).
    { rewrite (rsum_shift n (fun k => bin n k * q k)). cbn [rsum]. rewrite (bin_gt n (S n)) by lia. rewrite bin_0. ring. }
    rewrite E. ring. }
  change (rsum (S (S n)) (fun k => bin (S n) k * q k) = rising (b - a) (S n) / rising b (S n)). rewrite P. rewrite (rsum_ext (S n) _ (fun k => (b - a) / b * (bin n k * ((-1) ^ k * (rising a k / rising (b + 1) k))))).
  - rewrite rsum_scal, IHn by lra. replace (b + 1 - a) with ((b - a) + 1) by ring. pose proof (rising_pos' b (S n) Hb) as P1. pose proof (rising_pos' (b + 1) n ltac:(lra)) as P2.
    cbn [rising] in *. pose proof (rising_head b n) as R1. pose proof (rising_head (b - a) n) as R2. rewrite <- R1, <- R2. field. lra.
  - intros k _. unfold q. pose proof (rising_pos' b k Hb). pose proof (rising_pos' (b + 1) k ltac:(lra)). pose proof (pos_INR k). cbn [rising pow].
    assert (R1 : rising (b + 1) k = rising b k * (b + INR k) / b) by (rewrite <- rising_head; field; lra). rewrite R1. field. repeat split; lra.
Qed.
Section T.
Variables a b : R.
Hypothesis Hb : 0 < b.
Definition nkc (n : nat) : R := (-1) ^ n * kc a b n.
Lemma nkc_abs n : Rabs (nkc n) = Rabs (kc a b n).
Proof. unfold nkc. rewrite Rabs_mult, <- RPow_abs. replace (Rabs (-1)) with 1 by (rewrite Rabs_left; lra). rewrite pow1. ring. Qed.
Lemma nkc_cv : CV_radius nkc = p_infty.
Proof.
  apply CV_all. intros x Hx. set (q := 1 + Rabs (a - b) / b).
  apply (ex_series_le (V := R_CompleteNormedModule) (fun n => Rabs (nkc n) * x ^ n) (fun n => / INR (fact n) * (q * x) ^ n)); [|eexists; apply exp_series].
  intros n. change (Rabs (Rabs (nkc n) * x ^ n) <= / INR (fact n) * (q * x) ^ n). assert (0 <= x ^ n) by (apply pow_le; lra).
  rewrite nkc_abs, Rabs_mult, Rabs_Rabsolu, (Rabs_right (x ^ n)) by lra. rewrite Rpow_mult_distr.
  replace (/ INR (fact n) * (q ^ n * x ^ n)) with (q ^ n / INR (fact n) * x ^ n) by (unfold Rdiv; ring). apply Rmult_le_compat_r; [assumption|apply (kc_bd a b Hb)].
Qed.
Lemma nkc_eq x : PSeries nkc x = kum a b (- x).
Proof. unfold kum, PSeries. apply Series_ext. intros n. unfold nkc. replace (- x) with (-1 * x) by ring. rewrite Rpow_mult_distr. ring. Qed.
Lemma kummer_transform x : exp x * kum a b (- x) = kum (b - a) b x.
Proof.
  rewrite <- nkc_eq, <- ec_exp, Rmult_comm. rewrite <- PSeries_mult by (rewrite ?nkc_cv, ?ec_cv; exact I). unfold kum. apply PSeries_ext. intros n.
  unfold PS_mult. rewrite <- sum_n_Reals, sum_n_rsum. unfold kc at 1. rewrite <- (vandermonde a n b Hb). unfold Rdiv at 1. rewrite <- rsum_scal_r. apply rsum_ext. intros k Hk.
  unfold nkc, ec, kc. pose proof (bin_fact n k ltac:(lia)) as B. pose proof (fact_pos k). pose proof (fact_pos (n - k)). pose proof (fact_pos n). pose proof (rising_pos' b k Hb).
  assert (EB : bin n k = INR (fact n) / (INR (fact k) * INR (fact (n - k)))) by (rewrite <- B; field; lra). rewrite EB. field. repeat split; lra.
Qed.
End T.
Section L.
Variable Gam : R -> R.
Hypothesis HG : gamma_function Gam.
Variables al ga : R.
Hypothesis (Ha : 0 <= al) (Hg : 1 <= ga).
Let be : R := ga + al.
Definition gr (n : nat) : R := Gam (ga + INR n) / Gam (be + INR n).
Lemma Gam_rising y n : 0 < y -> Gam (y + INR n) = Gam y * rising y n.
Proof. intros Hy. induction n; [cbn; rewrite Rplus_0_r; ring|]. cbn [rising]. rewrite S_INR, <- Rplus_assoc, (Gam_succ Gam HG), IHn by (pose proof (pos_INR n); lra). ring. Qed.
Lemma mix_series X : is_series (fun n => pois X n * (Rpower X al * gr n)) (Gam ga / Gam be * (Rpower X al * kum al be (- X))).
Proof.
  assert (Hbe : 0 < be) by (unfold be; lra). pose proof (Gam_pos Gam HG ga ltac:(lra)) as P1. pose proof (Gam_pos Gam HG be Hbe) as P2.
  assert (E : kum al be (- X) = exp (- X) * kum ga be X).
  { replace ga with (be - al) by (unfold be; ring). rewrite <- (kummer_transform al be Hbe X), <- Rmult_assoc, <- exp_plus. replace (- X + X) with 0 by ring. rewrite exp_0. ring. }
  rewrite E. replace (Gam ga / Gam be * (Rpower X al * (exp (- X) * kum ga be X))) with (Gam ga / Gam be * Rpower X al * exp (- X) * kum ga be X) by ring.
  eapply series_ext; [apply series_scal; apply Series_correct; apply (ps_ex (kc ga be) X), (kc_cv ga be Hbe)|]. intros n. cbv beta. unfold pois, gr, kc.
  rewrite !Gam_rising by lra. pose proof (rising_pos' be n Hbe). pose proof (fact_pos n). field. repeat split; lra.
Qed.
(** bounds on the ratio *)
Lemma gr_lower n : Rpower (be + INR n) (- al) <= gr n.
Proof.
  pose proof (pos_INR n) as Pn. set (y := ga + INR n). assert (Hy : 0 < y) by (unfold y; lra).
  assert (B : Gam (y + al) <= Rpower (y + al) al * Gam y).
  { destruct (nfloor_ex al Ha) as [j [J1 J2]]. set (th := al - INR j). assert (Hth : 0 <= th <= 1) by (unfold th; lra). pose proof (pos_INR j).
    assert (I : forall i, (i <= j)%nat -> Gam (y + th + INR i) <= Rpower (y + al) (th + INR i) * Gam y).
    { induction i; intros Hi.
      - cbn [INR]. rewrite !Rplus_0_r. apply Rle_trans with (1 := gautschi Gam HG y th Hy Hth). apply Rmult_le_compat_r; [left; now apply (Gam_pos Gam HG)|].
        unfold Rpower. apply exp_le. apply Rmult_le_compat_l; [lra|]. apply ln_le; lra.
      - pose proof (pos_INR i). rewrite S_INR. replace (y + th + (INR i + 1)) with (y + th + INR i + 1) by ring. rewrite (Gam_succ Gam HG) by lra.
        replace (th + (INR i + 1)) with (1 + (th + INR i)) by ring. rewrite Rpower_plus, Rpower_1 by lra.
        rewrite Rmult_assoc. assert (INR i + 1 <= INR j) by (rewrite <- S_INR; apply le_INR; lia). apply Rmult_le_compat; [lra|left; apply (Gam_pos Gam HG); lra|unfold th; lra|apply IHi; lia]. }
    specialize (I j ltac:(lia)). replace (y + th + INR j) with (y + al) in I by (unfold th; ring). replace (th + INR j) with al in I by (unfold th; ring). exact I. }
  unfold gr, be in *. fold y. replace (ga + al + INR n) with (y + al) by (unfold y; ring). rewrite Rpower_Ropp.
  pose proof (Gam_pos Gam HG y Hy). pose proof (Gam_pos Gam HG (y + al) ltac:(lra)). assert (0 < Rpower (y + al) al) by apply exp_pos.
  apply Rmult_le_reg_r with (Rpower (y + al) al * Gam (y + al)); [now apply Rmult_lt_0_compat|]. replace (/ Rpower (y + al) al * (Rpower (y + al) al * Gam (y + al))) with (Gam (y + al)) by (field; lra).
  replace (Gam y / Gam (y + al) * (Rpower (y + al) al * Gam (y + al))) with (Rpower (y + al) al * Gam y) by (field; lra). exact B.
Qed.
Lemma lower_bound X : 0 < X -> 1 - al * be / X <= Gam ga / Gam be * (Rpower X al * kum al be (- X)).
Proof.
  intros HX. pose proof (mix_series X) as S. assert (Q : is_series (fun n => pois X n * (1 - al * ((be + INR n) / X - 1))) (1 - al * be / X)).
  { pose proof (pois_quad X (1 - al * (be / X - 1)) (- (al / X)) 0 (fun n => 1 - al * ((be + INR n) / X - 1))) as P. unfold pois_expect in P.
    replace (1 - al * (be / X - 1) + - (al / X) * X + 0 * (X ^ 2 + X)) with (1 - al * be / X) in P by (field; lra). apply P. intros n. field. lra. }
  apply (is_lim_seq_le (sum_n (fun n => pois X n * (1 - al * ((be + INR n) / X - 1)))) (sum_n (fun n => pois X n * (Rpower X al * gr n))) (1 - al * be / X) (Gam ga / Gam be * (Rpower X al * kum al be (- X)))); [|exact Q|exact S].
  intros N. rewrite !sum_n_rsum. apply rsum_le. intros n _. apply Rmult_le_compat_l; [apply pois_pos; lra|]. pose proof (pos_INR n) as Pn. assert (Hbe : 1 <= be) by (unfold be; lra).
  apply Rle_trans with (Rpower X al * Rpower (be + INR n) (- al)); [|apply Rmult_le_compat_l; [left; apply exp_pos|apply gr_lower]].
  unfold Rpower. rewrite <- exp_plus. set (t := (be + INR n) / X). assert (Pt : 0 < t) by (apply Rdiv_lt_0_compat; lra).
  replace (al * ln X + - al * ln (be + INR n)) with (- al * ln t). 2: { unfold t, Rdiv. rewrite ln_mult, ln_Rinv by (try apply Rinv_0_lt_compat; lra). ring. }
  pose proof (exp_ineq1_le (- al * ln t)). pose proof (ln_le_sub t Pt). nra.
Qed.
Lemma upper_bound X : 0 < X -> Gam ga / Gam be * (Rpower X al * kum al be (- X)) <= 1 + be / X.
Proof.
  intros HX. pose proof (mix_series X) as S. destruct (nfloor_ex al Ha) as [j [J1 J2]]. set (m := Datatypes.S j). set (p := INR m - al). assert (Hp : 0 <= p <= 1) by (unfold p, m; rewrite S_INR; lra).
  assert (Hbe : 1 <= be) by (unfold be; lra).
  assert (TB : forall n, pois X n * (Rpower X al * gr n) <= pois X (n + m) * (1 - p + p * ((be + INR (n + m)) / X))).
  { intros n. pose proof (pos_INR n) as Pn. set (w := be + INR n). assert (Pw : 1 <= w) by (unfold w; lra).
    assert (G1 : Gam (w + p) <= Rpower w p * Gam w) by (apply (gautschi Gam HG); lra).
    assert (Ew : w + p = ga + INR n + INR m) by (unfold w, p, be; ring). rewrite Ew, Gam_rising in G1 by lra.
    assert (RI : INR (fact (n + m)) / INR (fact n) <= rising (ga + INR n) m).
    { clear -Hg Pn. induction m as [|m IH]; [rewrite Nat.add_0_r; cbn [rising]; right; field; apply Rgt_not_eq, fact_pos|]. cbn [rising]. replace (n + Datatypes.S m)%nat with (Datatypes.S (n + m)) by lia. rewrite fact_simpl, mult_INR.
      pose proof (fact_pos n). pose proof (fact_pos (n + m)). pose proof (pos_INR m). replace (INR (Datatypes.S (n + m)) * INR (fact (n + m)) / INR (fact n)) with (INR (fact (n + m)) / INR (fact n) * INR (Datatypes.S (n + m))) by (field; lra).
      rewrite S_INR, plus_INR. apply Rmult_le_compat; [left; now apply Rdiv_lt_0_compat|lra|exact IH|lra]. }
    pose proof (Gam_pos Gam HG (ga + INR n) ltac:(lra)) as Pg. pose proof (Gam_pos Gam HG w ltac:(lra)) as Pgw. pose proof (fact_pos n) as F1. pose proof (fact_pos (n + m)) as F2.
    assert (GR : gr n * INR (fact (n + m)) / INR (fact n) <= Rpower w p).
    { unfold gr. fold w. apply Rmult_le_reg_r with (Gam w); [exact Pgw|].
      replace (Gam (ga + INR n) / Gam w * INR (fact (n + m)) / INR (fact n) * Gam w) with (Gam (ga + INR n) * (INR (fact (n + m)) / INR (fact n))) by (field; lra).
      apply Rle_trans with (2 := G1). apply Rmult_le_compat_l; lra. }
    assert (PT : Rpower w p <= Rpower X p * (1 - p + p * ((be + INR (n + m)) / X))).
    { pose proof (pow_tangent p (w / X) Hp ltac:(apply Rdiv_lt_0_compat; lra)) as T.
      replace (Rpower w p) with (Rpower X p * Rpower (w / X) p) by (rewrite Rpower_mult_distr; [f_equal; field; lra|exact HX|apply Rdiv_lt_0_compat; lra]).
      apply Rmult_le_compat_l; [left; apply exp_pos|]. apply Rle_trans with (1 := T). assert (w / X <= (be + INR (n + m)) / X); [|nra]. apply Rmult_le_compat_r; [left; now apply Rinv_0_lt_compat|]. unfold w. rewrite plus_INR. pose proof (pos_INR m). lra. }
    assert (EP : pois X n * Rpower X al * Rpower X p * (INR (fact n) / INR (fact (n + m))) = pois X (n + m)).
    { unfold pois. replace (exp (- X) * X ^ n / INR (fact n) * Rpower X al * Rpower X p) with (exp (- X) * X ^ n / INR (fact n) * (Rpower X al * Rpower X p)) by ring.
      rewrite <- Rpower_plus. replace (al + p) with (INR m) by (unfold p; ring). rewrite Rpower_pow by exact HX. rewrite pow_add. field. lra. }
    rewrite <- EP. pose proof (pois_pos X n ltac:(lra)) as PP.
    assert (C : 0 <= pois X n * Rpower X al * (INR (fact n) / INR (fact (n + m)))) by (apply Rmult_le_pos; [apply Rmult_le_pos; [exact PP|left; apply exp_pos]|left; now apply Rdiv_lt_0_compat]).
    pose proof (Rmult_le_compat_l _ _ _ C (Rle_trans _ _ _ GR PT)) as Z.
    replace (pois X n * Rpower X al * (INR (fact n) / INR (fact (n + m))) * (gr n * INR (fact (n + m)) / INR (fact n))) with (pois X n * (Rpower X al * gr n)) in Z by (field; lra). lra. }
  assert (Q : is_series (fun n => pois X n * (1 - p + p * ((be + INR n) / X))) (1 + p * be / X)).
  { pose proof (pois_quad X (1 - p + p * (be / X)) (p / X) 0 (fun n => 1 - p + p * ((be + INR n) / X))) as P. unfold pois_expect in P.
    replace (1 - p + p * (be / X) + p / X * X + 0 * (X ^ 2 + X)) with (1 + p * be / X) in P by (field; lra). apply P. intros n. field. lra. }
  assert (P0 : forall n, 0 <= pois X n * (1 - p + p * ((be + INR n) / X))).
  { intros n. pose proof (pos_INR n). apply Rmult_le_pos; [apply pois_pos; lra|]. assert (0 <= (be + INR n) / X) by (apply Rmult_le_pos; [lra|left; now apply Rinv_0_lt_compat]). nra. }
  apply Rle_trans with (1 + p * be / X).
  - apply (is_lim_seq_le (fun N => rsum N (fun n => pois X n * (Rpower X al * gr n))) (fun N => rsum (N + m) (fun n => pois X n * (1 - p + p * ((be + INR n) / X)))) (Gam ga / Gam be * (Rpower X al * kum al be (- X))) (1 + p * be / X)).
    + intros N. rewrite (Nat.add_comm N m), rsum_split. pose proof (rsum_nonneg m _ (fun k _ => P0 k)).
      assert (rsum N (fun n => pois X n * (Rpower X al * gr n)) <= rsum N (fun k => pois X (m + k) * (1 - p + p * ((be + INR (m + k)) / X)))); [|lra].
      apply rsum_le. intros n _. rewrite (Nat.add_comm m n). apply TB.
    + now apply series_rsum.
    + exact (proj1 (is_lim_seq_incr_n (fun N => rsum N (fun n => pois X n * (1 - p + p * ((be + INR n) / X)))) m (1 + p * be / X)) (proj1 (series_rsum _ _) Q)).
  - unfold Rdiv. rewrite Rmult_assoc. assert (0 <= be * / X) by (apply Rmult_le_pos; [lra|left; now apply Rinv_0_lt_compat]). nra.
Qed.
End L.
