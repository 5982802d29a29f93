(** Shifted lognormal distribution: moments, fit, quadrature. *)
From Coq Require Import Reals Lra Lia List Psatz Bool.
From Coquelicot Require Import Coquelicot.
From Verif Require Import Base Gauss Sums M_Opt M_Sabr M_Dist Spec_Opt Spec_Expect Spec_Dist P_Expect P_Gmom2.
Import ListNotations.
Open Scope R_scope.

Lemma sinh_arg0 : sinh 0 = 0.
Proof. unfold sinh. rewrite Ropp_0. field. Qed.
(** *** moments *)
Definition lnc2 (s : R) : R := exp (s * s) - 1.
Definition lnc3 (s : R) : R := exp (s * s) ^ 3 - 3 * exp (s * s) + 2.
Definition lnc4 (s : R) : R := exp (s * s) ^ 6 - 4 * exp (s * s) ^ 3 + 6 * exp (s * s) - 3.
Lemma lnX_central s : gauss_expect (fun z => lnX s z - 1) 0 /\ gauss_expect (fun z => (lnX s z - 1) ^ 2) (lnc2 s) /\
  gauss_expect (fun z => (lnX s z - 1) ^ 3) (lnc3 s) /\ gauss_expect (fun z => (lnX s z - 1) ^ 4) (lnc4 s).
Proof.
  destruct (lnX_moments s) as (I1 & I2 & I3 & I4). cbv zeta in *. unfold lnc2, lnc3, lnc4. set (w := exp (s * s)) in *. clearbody w.
  assert (J1 : forall k, gauss_expect (fun z => k * lnX s z) (k * 1)) by (intros; now apply gauss_expect_scal).
  assert (J2 : forall k, gauss_expect (fun z => k * lnX s z ^ 2) (k * w)) by (intros; now apply gauss_expect_scal).
  assert (J3 : forall k, gauss_expect (fun z => k * lnX s z ^ 3) (k * w ^ 3)) by (intros; now apply gauss_expect_scal).
  pose proof gauss_expect_const as J0.
  split; [|split; [|split]].
  - replace 0 with (1 * 1 + -1) by ring. eapply gauss_expect_ext; [|exact (gauss_expect_plus _ _ _ _ (J1 1) (J0 (-1)))]. intros; cbv beta; ring.
  - replace (w - 1) with (1 * w + (-2 * 1 + 1)) by ring.
    eapply gauss_expect_ext; [|exact (gauss_expect_plus _ _ _ _ (J2 1) (gauss_expect_plus _ _ _ _ (J1 (-2)) (J0 1)))]. intros; cbv beta; ring.
  - replace (w ^ 3 - 3 * w + 2) with (1 * w ^ 3 + (-3 * w + (3 * 1 + -1))) by ring.
    eapply gauss_expect_ext; [|exact (gauss_expect_plus _ _ _ _ (J3 1) (gauss_expect_plus _ _ _ _ (J2 (-3)) (gauss_expect_plus _ _ _ _ (J1 3) (J0 (-1)))))]. intros; cbv beta; ring.
  - replace (w ^ 6 - 4 * w ^ 3 + 6 * w - 3) with (w ^ 6 + (-4 * w ^ 3 + (6 * w + (-4 * 1 + 1)))) by ring.
    eapply gauss_expect_ext; [|exact (gauss_expect_plus _ _ _ _ I4 (gauss_expect_plus _ _ _ _ (J3 (-4)) (gauss_expect_plus _ _ _ _ (J2 6) (gauss_expect_plus _ _ _ _ (J1 (-4)) (J0 1)))))].
    intros; cbv beta; ring.
Qed.
Lemma ln_draw_lnX d z : ln_draw d z - ln_mu d = ln_mu d * ln_lam d * (lnX (ln_sig d) z - 1).
Proof. unfold ln_draw, lnX. replace (/ 2 * ln_sig d ^ 2) with (ln_sig d * ln_sig d / 2) by field. ring. Qed.
Lemma ln_draw_mom d n m : gauss_expect (fun z => (lnX (ln_sig d) z - 1) ^ n) m ->
  gauss_expect (fun z => (ln_draw d z - ln_mu d) ^ n) ((ln_mu d * ln_lam d) ^ n * m).
Proof.
  intros H. apply (gauss_expect_ext (fun z => (ln_mu d * ln_lam d) ^ n * (lnX (ln_sig d) z - 1) ^ n)).
  - intros z. rewrite ln_draw_lnX. symmetry. apply Rpow_mult_distr.
  - now apply gauss_expect_scal.
Qed.
Lemma ln_mean d : gauss_expect (ln_draw d) (ln_mu d).
Proof.
  destruct (lnX_central (ln_sig d)) as (H & _).
  pose proof (gauss_expect_plus _ _ _ _ (gauss_expect_scal _ _ (ln_mu d * ln_lam d) H) (gauss_expect_const (ln_mu d))) as G.
  replace (ln_mu d * ln_lam d * 0 + ln_mu d) with (ln_mu d) in G by ring.
  eapply gauss_expect_ext; [|exact G]. intros z. cbv beta. pose proof (ln_draw_lnX d z). lra.
Qed.
Lemma ln_mvsk_true d : 0 < ln_mu d -> 0 < ln_lam d -> ln_sig d <> 0 -> exists m2 m3 m4,
  gauss_expect (ln_draw d) (ln_mu d) /\ gauss_expect (fun z => (ln_draw d z - ln_mu d) ^ 2) m2 /\
  gauss_expect (fun z => (ln_draw d z - ln_mu d) ^ 3) m3 /\ gauss_expect (fun z => (ln_draw d z - ln_mu d) ^ 4) m4 /\
  ln_mvsk d = (ln_mu d, m2 / ln_mu d ^ 2, m3 / (m2 * sqrt m2), m4 / m2 ^ 2 - 3) /\ mc4_of (ln_mvsk d) = (ln_mu d, m2, m3, m4).
Proof.
  intros Hm Hl Hs. destruct (lnX_central (ln_sig d)) as (_ & H2 & H3 & H4).
  exists ((ln_mu d * ln_lam d) ^ 2 * lnc2 (ln_sig d)), ((ln_mu d * ln_lam d) ^ 3 * lnc3 (ln_sig d)), ((ln_mu d * ln_lam d) ^ 4 * lnc4 (ln_sig d)).
  split; [apply ln_mean|]. split; [now apply ln_draw_mom|]. split; [now apply ln_draw_mom|]. split; [now apply ln_draw_mom|].
  unfold ln_mvsk, mc4_of, lnc2, lnc3, lnc4. cbv zeta.
  replace (ln_sig d ^ 2) with (ln_sig d * ln_sig d) by ring.
  assert (Hw : 1 < exp (ln_sig d * ln_sig d)). { rewrite <- exp_0 at 1. apply exp_increasing. nra. }
  set (w := exp (ln_sig d * ln_sig d)) in *. clearbody w. set (m := ln_mu d) in *. set (l := ln_lam d) in *. clearbody m l. clear H2 H3 H4.
  set (q := sqrt (w - 1)). assert (Hq : q * q = w - 1) by (apply sqrt_sqrt; lra). assert (Hqp : 0 < q) by (apply sqrt_lt_R0; lra).
  assert (Ew : w = q * q + 1) by lra.
  assert (R1 : sqrt ((m * l) ^ 2 * (w - 1)) = m * l * q).
  { replace ((m * l) ^ 2 * (w - 1)) with ((m * l * q) ^ 2) by (rewrite <- Hq; ring). apply sqrt_pow2. assert (0 < m * l) by nra. nra. }
  assert (R2 : sqrt (l ^ 2 * (w - 1) * m ^ 2) = m * l * q). { rewrite <- R1. f_equal. ring. }
  rewrite R1, R2. fold q. clearbody q. clear R1 R2 Hq. subst w.
  split; (apply (f_equal2 pair); [apply (f_equal2 pair); [apply (f_equal2 pair)|]|]); try ring; try (field; lra).
Qed.
(** negative lam: the reported skewness has the wrong sign *)
Lemma ln_neg_skew : exists d m2 m3, 0 < ln_mu d /\ ln_lam d < 0 /\ gauss_expect (ln_draw d) (ln_mu d) /\
  gauss_expect (fun z => (ln_draw d z - ln_mu d) ^ 2) m2 /\ gauss_expect (fun z => (ln_draw d z - ln_mu d) ^ 3) m3 /\ 0 < m2 /\ m3 < 0 /\
  0 < snd (fst (ln_mvsk d)).
Proof.
  destruct (lnX_central 1) as (_ & H2 & H3 & H4).
  exists (mkLn 1 (-1) 1), ((1 * -1) ^ 2 * lnc2 1), ((1 * -1) ^ 3 * lnc3 1).
  split; [cbn; lra|]. split; [cbn; lra|]. split; [apply ln_mean|].
  split; [apply (ln_draw_mom (mkLn 1 (-1) 1)); exact H2|]. split; [apply (ln_draw_mom (mkLn 1 (-1) 1)); exact H3|].
  unfold lnc2, lnc3, ln_mvsk. cbn [ln_mu ln_lam ln_sig fst snd]. replace (1 ^ 2) with (1 * 1) by ring.
  assert (Hw : 1 < exp (1 * 1)). { rewrite <- exp_0 at 1. apply exp_increasing. nra. }
  set (w := exp (1 * 1)) in *. clearbody w.
  split; [nra|]. split. { replace ((1 * -1) ^ 3 * (w ^ 3 - 3 * w + 2)) with (- ((w - 1) ^ 2 * (w + 2))) by ring. assert (0 < (w - 1) ^ 2) by (apply pow_lt; lra). nra. }
  apply Rmult_lt_0_compat; [apply sqrt_lt_R0|]; lra.
Qed.

(** *** fit *)
Lemma ln_fit2_ok mean vs lam : 0 < vs -> lam <> 0 -> exists sk ku, ln_mvsk (ln_fit2 mean vs lam) = (mean, vs, sk, ku).
Proof.
  intros Hv Hl. unfold ln_fit2, ln_mvsk. cbn [ln_mu ln_lam ln_sig].
  assert (H2 : 0 < lam ^ 2) by (replace (lam ^ 2) with (lam * lam) by ring; nra).
  assert (Hq : 0 < vs / lam ^ 2) by (apply Rdiv_lt_0_compat; assumption).
  assert (Hl2 : 0 <= ln (1 + vs / lam ^ 2)). { rewrite <- ln_1. apply ln_le; lra. }
  rewrite pow2_sqrt by exact Hl2. rewrite exp_ln by lra. do 2 eexists.
  apply (f_equal2 pair); [apply (f_equal2 pair); [apply (f_equal2 pair)|]|]; try reflexivity. field. lra.
Qed.
Lemma cosh_arccosh x : 1 <= x -> cosh (arccosh x) = x.
Proof.
  intros Hx. unfold arccosh, cosh. set (r := sqrt (x ^ 2 - 1)). assert (Hr : r * r = x ^ 2 - 1) by (apply sqrt_sqrt; nra).
  assert (0 <= r) by apply sqrt_pos. rewrite exp_Ropp, exp_ln by lra. replace (/ (x + r)) with (x - r). { field. }
  apply (Rmult_eq_reg_r (x + r)); [|lra]. rewrite Rinv_l by lra. transitivity (x ^ 2 - r * r); [ring|rewrite Hr; ring].
Qed.
Lemma arccosh_pos x : 1 < x -> 0 < arccosh x.
Proof. intros Hx. unfold arccosh. rewrite <- ln_1. apply ln_increasing; [lra|]. pose proof (sqrt_pos (x ^ 2 - 1)). lra. Qed.
(** 2 sinh(3 t) as the cubic in 2 sinh t *)
Lemma sinh3 t : let x := 2 * sinh t in x * (x ^ 2 + 3) = 2 * sinh (3 * t).
Proof.
  cbv zeta. unfold sinh. assert (E3 : exp (3 * t) = exp t ^ 3) by (rewrite <- exp_n; f_equal; simpl; ring).
  rewrite !exp_Ropp, E3. pose proof (exp_pos t). set (e := exp t) in *. clearbody e. field. lra.
Qed.
Lemma cosh2 t : 4 * sinh t ^ 2 = 2 * (cosh (2 * t) - 1).
Proof.
  unfold sinh, cosh. assert (E : exp (2 * t) = exp t ^ 2) by (rewrite <- exp_n; f_equal; simpl; ring).
  rewrite !exp_Ropp, E. pose proof (exp_pos t). set (e := exp t) in *. clearbody e. field. lra.
Qed.
Lemma sinh_pos t : 0 < t -> 0 < sinh t.
Proof. intros H. unfold sinh. assert (exp (- t) < exp t) by (apply exp_increasing; lra). lra. Qed.
Lemma ln_fit3_ok mean vs s : 0 < vs -> s <> 0 -> exists ku, ln_mvsk (ln_fit3 mean vs s) = (mean, vs, Rabs s, ku).
Proof.
  intros Hv Hs. unfold ln_fit3, ln_mvsk. cbv zeta. cbn [ln_mu ln_lam ln_sig].
  assert (S2 : 0 < s ^ 2) by (replace (s ^ 2) with (s * s) by ring; nra).
  set (t := arccosh (1 + / 2 * s ^ 2) / 6). assert (Ht : 0 < t). { unfold t. pose proof (arccosh_pos (1 + / 2 * s ^ 2)). lra. }
  pose proof (sinh_pos t Ht) as Sp. set (x := 2 * sinh t) in *. assert (Hx : 0 < x) by (unfold x; lra).
  assert (Hl2 : 0 <= ln (1 + x ^ 2)). { rewrite <- ln_1. apply ln_le; nra. }
  rewrite pow2_sqrt by exact Hl2. rewrite exp_ln by nra. replace (1 + x ^ 2 - 1) with (x ^ 2) by ring.
  rewrite sqrt_pow2 by lra. eexists.
  apply (f_equal2 pair); [apply (f_equal2 pair); [apply (f_equal2 pair)|]|]; try reflexivity.
  - unfold Rdiv. rewrite Rpow_mult_distr, pow2_sqrt by lra. field. lra.
  - pose proof (sinh3 t) as E. cbv zeta in E. fold x in E. rewrite E.
    pose proof (cosh2 (3 * t)) as E2. replace (2 * (3 * t)) with (arccosh (1 + / 2 * s ^ 2)) in E2 by (unfold t; field).
    rewrite cosh_arccosh in E2 by lra. assert (P : 0 < sinh (3 * t)) by (apply sinh_pos; lra).
    apply Rsqr_inj; [lra|apply Rabs_pos|]. rewrite <- Rsqr_abs. unfold Rsqr. replace (2 * sinh (3 * t) * (2 * sinh (3 * t))) with (4 * sinh (3 * t) ^ 2) by ring.
    rewrite E2. field.
Qed.
Lemma isclose_refl x : isclose x x = true.
Proof. unfold isclose. destruct Rle_dec as [|H]; [reflexivity|]. exfalso. apply H. rewrite Rminus_diag_eq by reflexivity. rewrite Rabs_R0. pose proof (Rabs_pos x). lra. Qed.
(** two moments, or lam given: never fails, reproduces mean and scaled variance *)
Lemma ln_fit_two lam0 vd mean vs rest lam : 0 < vs -> (rest = [] \/ lam <> None) ->
  let l := match lam with Some l => l | None => lam0 end in l <> 0 ->
  exists d sk ku, ln_fit lam0 vd (mean :: vs :: rest) lam = Some d /\ ln_lam d = l /\ ln_mvsk d = (mean, vs, sk, ku).
Proof.
  intros Hv Hc l Hl. destruct (ln_fit2_ok mean vs l Hv Hl) as (sk & ku & E). exists (ln_fit2 mean vs l), sk, ku.
  unfold ln_fit. replace (match rest with [] => true | _ :: _ => match lam with Some _ => true | None => false end end) with true
    by (destruct rest, lam; auto; destruct Hc; congruence).
  fold l. rewrite E. split; [|split; reflexivity]. rewrite !isclose_refl. cbn. now destruct vd.
Qed.
Lemma ln_fit_three lam0 vd mean vs s : 0 < vs -> 0 < s ->
  exists d ku, ln_fit lam0 vd [mean; vs; s] None = Some d /\ 0 < ln_lam d /\ ln_mvsk d = (mean, vs, s, ku).
Proof.
  intros Hv Hs. destruct (ln_fit3_ok mean vs s Hv ltac:(lra)) as (ku & E). rewrite Rabs_right in E by lra. exists (ln_fit3 mean vs s), ku.
  unfold ln_fit. cbn [hd]. rewrite E. split; [|split; [|reflexivity]].
  - rewrite !isclose_refl. cbn. now destruct vd.
  - unfold ln_fit3. cbn [ln_lam]. apply Rdiv_lt_0_compat; [now apply sqrt_lt_R0|].
    assert (0 < s ^ 2) by (apply pow_lt; lra). pose proof (arccosh_pos (1 + / 2 * s ^ 2)). pose proof (sinh_pos (arccosh (1 + / 2 * s ^ 2) / 6)). lra.
Qed.
(** negative skewness: without validation the fit silently has the opposite skewness; with validation it raises for |s| > 1e-3 *)
Lemma ln_fit_negative lam0 mean vs s : 0 < vs -> s < 0 -> exists d ku, ln_fit lam0 false [mean; vs; s] None = Some d /\ ln_mvsk d = (mean, vs, - s, ku).
Proof.
  intros Hv Hs. destruct (ln_fit3_ok mean vs s Hv ltac:(lra)) as (ku & E). rewrite Rabs_left in E by lra. exists (ln_fit3 mean vs s), ku.
  unfold ln_fit. cbn [hd]. rewrite E. now split.
Qed.
Lemma ln_fit_negative_validate lam0 mean vs s : 0 < vs -> s <= - / 10 ^ 3 -> ln_fit lam0 true [mean; vs; s] None = None.
Proof.
  intros Hv Hs. destruct (ln_fit3_ok mean vs s Hv ltac:(lra)) as (ku & E). rewrite Rabs_left in E by lra.
  unfold ln_fit. cbn [hd]. rewrite E. rewrite !isclose_refl. cbn [andb orb]. unfold isclose. destruct Rle_dec as [C|C]; [|reflexivity]. exfalso.
  rewrite Rabs_left in C by lra. rewrite Rabs_right in C by lra. lra.
Qed.

(** *** quadrature *)
Lemma rule_sum_scal k f zw : rule_sum (fun z => k * f z) zw = k * rule_sum f zw.
Proof. unfold rule_sum. rewrite <- lsum_map_scal. apply lsum_map_ext. intros. ring. Qed.
Lemma rule_sum_plus f g zw : rule_sum (fun z => f z + g z) zw = rule_sum f zw + rule_sum g zw.
Proof. unfold rule_sum. rewrite <- lsum_map_plus. apply lsum_map_ext. intros. ring. Qed.
Lemma rule_sum_ext f g zw : (forall z, f z = g z) -> rule_sum f zw = rule_sum g zw.
Proof. intros H. unfold rule_sum. apply lsum_map_ext. intros. now rewrite H. Qed.
Lemma rule_sum_ext_in f g zw : (forall z w, In (z, w) zw -> f z = g z) -> rule_sum f zw = rule_sum g zw.
Proof. intros H. unfold rule_sum. apply lsum_map_ext. intros [z w] Hi. cbn. now rewrite (H z w Hi). Qed.
Lemma lsum_pos {A} (f : A -> R) l : l <> [] -> (forall a, In a l -> 0 < f a) -> 0 < lsum (map f l).
Proof.
  destruct l as [|a l]; [congruence|]. intros _ H. cbn. pose proof (H a (or_introl eq_refl)).
  pose proof (lsum_map_nonneg f l). assert (0 <= lsum (map f l)). { apply H1. intros b Hb. left. apply H. now right. } unfold lsum in *. lra.
Qed.
Lemma rule_sum_pos f zw : positive_rule zw -> (forall z w, In (z, w) zw -> 0 < f z) -> 0 < rule_sum f zw.
Proof.
  intros [N P] H. unfold rule_sum. apply lsum_pos; [exact N|]. intros [z w] Hi. cbn. rewrite Forall_forall in P.
  pose proof (P (z, w) Hi) as Pw. cbn in Pw. apply Rmult_lt_0_compat; [exact Pw|now apply (H z w)].
Qed.
Lemma rule_sum_map (g h f : R -> R) zw : rule_sum f (map (fun p => (g (fst p), snd p * h (fst p))) zw) = rule_sum (fun z => h z * f (g z)) zw.
Proof. unfold rule_sum. rewrite map_map. apply lsum_map_ext. intros. cbn. ring. Qed.
Lemma rule_sum_one zw : lsum (map snd zw) = rule_sum (fun _ => 1) zw.
Proof. unfold rule_sum. apply lsum_map_ext. intros. ring. Qed.
Lemma ln_quad_rule d zw f : let C := rule_sum (fun z => exp (- ln_sig d ^ 2 / 8) / exp (/ 2 * ln_sig d * z)) zw in
  rule_sum f (ln_quad d zw) = rule_sum (fun z => exp (- ln_sig d ^ 2 / 8) / exp (/ 2 * ln_sig d * z) * f (ln_mu d * (1 - ln_lam d + ln_lam d * exp (/ 2 * ln_sig d * z) ^ 2))) zw / C.
Proof.
  intros C. assert (E : ln_quad d zw = map (fun p => (ln_mu d * (1 - ln_lam d + ln_lam d * exp (/ 2 * ln_sig d * fst p) ^ 2),
    snd p * (exp (- ln_sig d ^ 2 / 8) / exp (/ 2 * ln_sig d * fst p) / C))) zw).
  { unfold ln_quad. rewrite map_map. cbn [fst snd]. rewrite map_map. cbn [fst snd]. apply map_ext. intros p. f_equal.
    change (lsum (map (fun x => snd x * (exp (- ln_sig d ^ 2 / 8) / exp (/ 2 * ln_sig d * fst x))) zw)) with C. unfold Rdiv. ring. }
  rewrite E. rewrite (rule_sum_map (fun z => ln_mu d * (1 - ln_lam d + ln_lam d * exp (/ 2 * ln_sig d * z) ^ 2)) (fun z => exp (- ln_sig d ^ 2 / 8) / exp (/ 2 * ln_sig d * z) / C)).
  set (A := rule_sum (fun z => _ * f _) zw). set (B := rule_sum (fun z => exp (- ln_sig d ^ 2 / 8) / exp (/ 2 * ln_sig d * z) * f _) zw).
  transitivity (/ C * B); [|unfold Rdiv; ring]. unfold A, B. rewrite <- rule_sum_scal. apply rule_sum_ext. intros z. unfold Rdiv. ring.
Qed.
Lemma ln_quad_mass d zw : positive_rule zw -> rule_sum (fun _ => 1) (ln_quad d zw) = 1.
Proof.
  intros P. rewrite ln_quad_rule. cbv zeta. rewrite (rule_sum_ext _ (fun z => exp (- ln_sig d ^ 2 / 8) / exp (/ 2 * ln_sig d * z))) by (intros; ring).
  apply Rinv_r. apply Rgt_not_eq. apply rule_sum_pos; [exact P|]. intros. apply Rdiv_lt_0_compat; apply exp_pos.
Qed.
Lemma ln_quad_mean d zw : positive_rule zw -> symmetric_rule zw -> rule_sum (fun x => x) (ln_quad d zw) = ln_mu d.
Proof.
  intros P Sy. rewrite ln_quad_rule. cbv zeta. set (C := rule_sum _ zw) at 2.
  assert (HC : 0 < C) by (unfold C; apply rule_sum_pos; [exact P|]; intros; apply Rdiv_lt_0_compat; apply exp_pos).
  set (g := fun z => exp (- ln_sig d ^ 2 / 8) / exp (/ 2 * ln_sig d * z)) in *.
  rewrite (rule_sum_ext _ (fun z => ln_mu d * (1 - ln_lam d) * g z + ln_mu d * ln_lam d * g (- z))).
  2:{ intros z. unfold g. replace (/ 2 * ln_sig d * - z) with (- (/ 2 * ln_sig d * z)) by ring. rewrite exp_Ropp. pose proof (exp_pos (/ 2 * ln_sig d * z)). field. lra. }
  rewrite rule_sum_plus, !rule_sum_scal. rewrite (Sy g). change (rule_sum g zw) with C. field. lra.
Qed.
Lemma ln_quad_pos d zw : positive_rule zw -> 0 < ln_mu d -> 0 <= ln_lam d <= 1 ->
  List.Forall (fun p => 0 < fst p /\ 0 < snd p) (ln_quad d zw).
Proof.
  intros P Hm Hl. unfold ln_quad. rewrite map_map. cbn [fst snd]. rewrite map_map. cbn [fst snd]. apply Forall_forall. intros q Hq.
  apply in_map_iff in Hq. destruct Hq as ([z w] & <- & Hi). cbn [fst snd]. pose proof (exp_pos (/ 2 * ln_sig d * z)) as E.
  assert (Pw : 0 < w). { destruct P as [_ P]. rewrite Forall_forall in P. exact (P _ Hi). }
  split.
  - apply Rmult_lt_0_compat; [exact Hm|]. set (e := exp _) in *. assert (0 < e ^ 2) by (apply pow_lt; exact E). destruct (Req_dec (ln_lam d) 0) as [->|]; nra.
  - apply Rdiv_lt_0_compat. { apply Rmult_lt_0_compat; [exact Pw|]. apply Rdiv_lt_0_compat; apply exp_pos. }
    apply (rule_sum_pos (fun z => exp (- ln_sig d ^ 2 / 8) / exp (/ 2 * ln_sig d * z)) zw P). intros. apply Rdiv_lt_0_compat; apply exp_pos.
Qed.
