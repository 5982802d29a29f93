(** Inverse Gaussian: expectations under the density, moments, exactness of the quadrature. *)
From Coq Require Import Reals Lra Lia List Psatz Bool.
From Coquelicot Require Import Coquelicot.
From Verif Require Import Base Gauss Sums M_Opt M_Sabr M_Dist Spec_Opt Spec_Expect Spec_Dist P_Black P_Expect P_Gmom P_Gmom2 P_Dist P_Dist2.
Import ListNotations.
Open Scope R_scope.

Section IGD.
Variables (mu lam : R).
Hypotheses (Hm : 0 < mu) (Hl : 0 < lam).
Let fac := / 2 * mu / lam.
Lemma fac_pos : 0 < fac.
Proof. unfold fac. apply Rdiv_lt_0_compat; lra. Qed.
Let Hf := fac_pos.
Definition igx (z : R) : R := mu * igh fac z.
Lemma igx_pos z : 0 < igx z.
Proof. unfold igx. apply Rmult_lt_0_compat; [exact Hm|apply igh_pos]. Qed.
Definition igdx (z : R) : R := mu * (2 * sqrt (fac / 2) * igh fac z / igr fac z).
Lemma is_derive_igx (z : R) : is_derive igx z (igdx z).
Proof.
  pose proof (igr_pos fac z) as P. unfold igx, igdx, igh, igr, igs.
  auto_derive.
  - pose proof (pow2_ge_0 (z * sqrt (fac / 2))) as Q. cbn [pow] in Q |- *. fold (Rminus fac 0) || idtac. unfold Rdiv in *. lra.
  - unfold igr, igs in P. replace (fac * / 2) with (fac / 2) by reflexivity. set (k := sqrt (fac / 2)) in *. Req.
    replace (z * k * (z * k * 1)) with ((z * k) ^ 2) by ring. set (r := sqrt (1 + (z * k) ^ 2)) in *. clearbody r. field. lra.
Qed.
Lemma igdx_cont (z : R) : continuous igdx z.
Proof.
  apply (continuous_ext (fun y => mu * (2 * sqrt (fac / 2)) * (igh fac y / igr fac y))). { intros y. unfold igdx. Req. unfold Rdiv. ring. }
  apply ex_derive_continuous_R. unfold igh, igr, igs. auto_derive. pose proof (pow2_ge_0 (z * sqrt (fac / 2))) as Q. pose proof (igr_pos fac z) as P. unfold igr, igs in P.
  cbn [pow] in Q, P. unfold Rdiv in *. repeat split; lra.
Qed.
Lemma ig_change z : igdx z * ig_density mu lam (igx z) = 2 / (1 + igh fac z) * npdf z.
Proof.
  pose proof (igr_pos fac z) as Rp. pose proof (ig_sum_pos fac z) as Up. pose proof (igr2 fac z) as R2. pose proof (igs2 fac Hf z) as S2.
  unfold igdx, igx, igh, ig_density, npdf. set (r := igr fac z) in *. set (s := igs fac z) in *. set (u := s + r) in *.
  assert (IU : / u = r - s). { apply (Rmult_eq_reg_r u); [|lra]. rewrite Rinv_l by lra. unfold u. replace ((r - s) * (s + r)) with (r * r - s ^ 2) by ring. rewrite R2. ring. }
  assert (Es : s = (u - / u) / 2). { rewrite IU. unfold u. field. }
  assert (Er : r = (u + / u) / 2). { rewrite IU. unfold u. field. }
  assert (E : - (lam * (mu * u ^ 2 - mu) ^ 2) / (2 * mu ^ 2 * (mu * u ^ 2)) = - (z * z) / 2).
  { transitivity (- (lam / (2 * mu) * (u - / u) ^ 2)). { field. lra. }
    replace (u - / u) with (2 * s) by (rewrite Es; field; lra). replace ((2 * s) ^ 2) with (4 * s ^ 2) by ring. rewrite S2. unfold fac. field. lra. }
  rewrite E. clear E. set (q := sqrt (mu / lam)). assert (Hml : 0 < mu / lam) by (apply Rdiv_lt_0_compat; lra).
  assert (Q2 : q * q = mu / lam) by (apply sqrt_sqrt; lra). assert (Qp : 0 < q) by (apply sqrt_lt_R0; lra).
  assert (K : sqrt (fac / 2) = q / 2).
  { replace (fac / 2) with ((q / 2) ^ 2). { apply sqrt_pow2; lra. } replace ((q / 2) ^ 2) with (q * q / 4) by field. rewrite Q2. unfold fac. field. lra. }
  assert (HP := PI_RGT_0). set (w := sqrt (2 * PI)). assert (W2 : w * w = 2 * PI) by (apply sqrt_sqrt; lra). assert (Wp : 0 < w) by (apply sqrt_lt_R0; lra).
  assert (D : sqrt (lam / (2 * PI * (mu * u ^ 2) ^ 3)) = / (q * w * mu * u ^ 3)).
  { assert (0 < q * w * mu * u ^ 3). { assert (0 < u ^ 3) by (apply pow_lt; exact Up). assert (0 < q * w) by nra. assert (0 < q * w * mu) by nra. nra. }
    replace (lam / (2 * PI * (mu * u ^ 2) ^ 3)) with ((/ (q * w * mu * u ^ 3)) ^ 2).
    { apply sqrt_pow2. left. now apply Rinv_0_lt_compat. }
    rewrite pow_inv. replace ((q * w * mu * u ^ 3) ^ 2) with ((q * q) * (w * w) * mu ^ 2 * u ^ 6) by ring. rewrite Q2, W2. field. repeat split; lra. }
  rewrite K, D. rewrite Er. set (e := exp _). clearbody e. fold w. assert (0 < u ^ 2) by (apply pow_lt; lra). field. repeat split; nra.
Qed.
Lemma igh_ge1 z : 0 <= z -> 1 + z ^ 2 * fac <= igh fac z.
Proof. intros Hz. rewrite igh_big by (try exact Hf; exact Hz). pose proof (sqrt_pos (fac * (2 + z ^ 2 * fac))). nra. Qed.
Lemma ig_density_cont (t : R) : 0 < t -> continuous (ig_density mu lam) t.
Proof.
  intros Ht. apply ex_derive_continuous_R. unfold ig_density. auto_derive. pose proof PI_RGT_0.
  assert (0 < t * (t * (t * 1))) by (apply Rmult_lt_0_compat; [|apply Rmult_lt_0_compat]; lra).
  assert (0 < 2 * PI * (t * (t * (t * 1)))) by (apply Rmult_lt_0_compat; lra).
  assert (0 < 2 * (mu * (mu * 1)) * t) by (apply Rmult_lt_0_compat; [nra|lra]).
  repeat match goal with |- _ /\ _ => split end; try lra; trivial.
  apply Rmult_lt_0_compat; [lra|]. now apply Rinv_0_lt_compat.
Qed.
Lemma ig_density_nonneg t : 0 <= ig_density mu lam t.
Proof. unfold ig_density. apply Rmult_le_pos; [apply sqrt_pos|left; apply exp_pos]. Qed.
Lemma ig_expect (f : R -> R) (v : R) : (forall t, 0 < t -> 0 <= f t) -> (forall t, 0 < t -> continuous f t) ->
  gauss_expect (fun z => 2 / (1 + igh fac z) * f (igx z)) v -> pos_expect (ig_density mu lam) f v.
Proof.
  intros Hp Hc [_ L]. unfold pos_expect.
  assert (C : forall t, 0 < t -> continuous (fun x => f x * ig_density mu lam x) t).
  { intros t Ht. apply (continuous_mult f (ig_density mu lam)); [now apply Hc|now apply ig_density_cont]. }
  apply (half_line_of _ igx).
  - intros t Ht. apply Rmult_le_pos; [now apply Hp|apply ig_density_nonneg].
  - exact C.
  - intros b Hb. split; [apply igx_pos|]. unfold igx. rewrite igh_opp. apply Rmult_le_compat_l; [lra|].
    pose proof (igh_ge1 b ltac:(lra)). assert (0 <= b ^ 2 * fac) by (apply Rmult_le_pos; [apply pow2_ge_0|lra]).
    apply Rle_trans with 1; [|lra]. rewrite <- Rinv_1. apply Rinv_le_contravar; lra.
  - intros a M Ha. set (b0 := Rmax 1 (Rmax (M / (mu * fac)) (mu / (fac * a)))). exists b0. intros b Hb.
    assert (B1 : 1 <= b) by (eapply Rle_trans; [apply Rmax_l|exact Hb]).
    assert (B2 : M / (mu * fac) <= b) by (eapply Rle_trans; [|exact Hb]; eapply Rle_trans; [apply Rmax_l|apply Rmax_r]).
    assert (B3 : mu / (fac * a) <= b) by (eapply Rle_trans; [|exact Hb]; eapply Rle_trans; [apply Rmax_r|apply Rmax_r]).
    pose proof (igh_ge1 b ltac:(lra)) as G. assert (G2 : b * fac <= igh fac b). { assert (b <= b ^ 2) by nra. assert (b * fac <= b ^ 2 * fac) by (apply Rmult_le_compat_r; lra). lra. }
    assert (MF : 0 < mu * fac) by nra. assert (FA : 0 < fac * a) by nra.
    split.
    + unfold igx. rewrite igh_opp. assert (BF : 0 < b * fac) by nra. apply Rle_trans with (mu * / (b * fac)).
      { apply Rmult_le_compat_l; [lra|]. apply Rinv_le_contravar; lra. }
      apply (Rmult_le_reg_r (b * fac)); [lra|]. rewrite Rmult_assoc, Rinv_l by lra. rewrite Rmult_1_r.
      apply (Rmult_le_compat_r (fac * a)) in B3; [|lra]. unfold Rdiv in B3. rewrite Rmult_assoc, Rinv_l in B3 by lra. lra.
    + unfold igx. apply (Rmult_le_compat_r (mu * fac)) in B2; [|lra]. unfold Rdiv in B2. rewrite Rmult_assoc, Rinv_l in B2 by lra.
      apply Rle_trans with (mu * (b * fac)); [lra|]. apply Rmult_le_compat_l; lra.
  - eapply is_lim_ext_loc; [|exact L]. exists 0. intros b Hb. cbv beta. change gauss_density with npdf.
    pose proof (is_RInt_comp (V := R_CompleteNormedModule) (fun x => f x * ig_density mu lam x) igx igdx (- b) b) as H.
    assert (X : is_RInt (fun y => scal (igdx y) (f (igx y) * ig_density mu lam (igx y))) (- b) b (RInt (fun x => f x * ig_density mu lam x) (igx (- b)) (igx b))).
    { apply H. - intros x _. apply C, igx_pos. - intros x _. split; [apply is_derive_igx|apply igdx_cont]. }
    apply (is_RInt_unique (V := R_CompleteNormedModule)) in X. etransitivity; [|exact X]. apply RInt_ext. intros x _.
    change (2 / (1 + igh fac x) * f (igx x) * npdf x = igdx x * (f (igx x) * ig_density mu lam (igx x))).
    transitivity (f (igx x) * (igdx x * ig_density mu lam (igx x))); [rewrite ig_change|]; ring.
Qed.
Lemma cont_G (f : R -> R) : (forall t, 0 < t -> continuous f t) -> forall x, continuous (fun z => 2 / (1 + igh fac z) * f (igx z)) x.
Proof.
  intros Hc x. apply (continuous_mult (fun z => 2 / (1 + igh fac z)) (fun z => f (igx z))).
  - apply ex_derive_continuous_R. pose proof (is_derive_igx x) as D. pose proof (igh_pos fac x) as P.
    apply (ex_derive_ext (fun z => 2 / (1 + igx z / mu))). { intros t. unfold igx. Req. replace (mu * igh fac t / mu) with (igh fac t) by (field; lra). reflexivity. }
    assert (E : ex_derive igx x) by (eexists; exact D). auto_derive. split; [exact E|split; [|trivial]].
    unfold igx. replace (mu * igh fac x * / mu) with (igh fac x) by (field; lra). lra.
  - apply (continuous_comp igx f); [|apply Hc, igx_pos]. apply ex_derive_continuous_R. eexists. apply is_derive_igx.
Qed.
(** all integer moments *)
Lemma ig_moment n : pos_expect (ig_density mu lam) (fun x => x ^ n) (mu ^ n * pmean (fst (igpoly fac n))).
Proof.
  assert (Hc : forall t, 0 < t -> continuous (fun x : R => x ^ n) t) by (intros; apply ex_derive_continuous_R; auto_derive; trivial).
  apply ig_expect; [intros; apply pow_le; lra|exact Hc|].
  apply gauss_sym; [exact (cont_G (fun x => x ^ n) Hc)|].
  apply (gauss_expect_ext (fun z => mu ^ n * peval (fst (igpoly fac n)) (z ^ 2))).
  - intros z. pose proof (ig_sym fac Hf n z) as E. apply (Rmult_eq_reg_l 2); [|lra].
    transitivity (mu ^ n * (2 * peval (fst (igpoly fac n)) (z ^ 2))); [ring|]. rewrite <- E. unfold igx. rewrite !Rpow_mult_distr. field.
    pose proof (igh_pos fac z). pose proof (igh_pos fac (- z)). lra.
  - apply gauss_expect_scal, pmean_expect.
Qed.
Lemma ig_moment_inv n : pos_expect (ig_density mu lam) (fun x => / x ^ n) (/ mu ^ n * pmean (snd (igpoly fac n))).
Proof.
  assert (Hc : forall t, 0 < t -> continuous (fun x : R => / x ^ n) t).
  { intros; apply ex_derive_continuous_R; auto_derive. apply pow_nonzero. lra. }
  apply ig_expect; [intros; left; apply Rinv_0_lt_compat, pow_lt; lra|exact Hc|].
  apply gauss_sym; [exact (cont_G (fun x => / x ^ n) Hc)|].
  apply (gauss_expect_ext (fun z => / mu ^ n * peval (snd (igpoly fac n)) (z ^ 2))).
  - intros z. pose proof (ig_sym_inv fac Hf n z) as E. apply (Rmult_eq_reg_l 2); [|lra].
    transitivity (/ mu ^ n * (2 * peval (snd (igpoly fac n)) (z ^ 2))); [ring|]. rewrite <- E. unfold igx. rewrite !Rpow_mult_distr.
    pose proof (igh_pos fac z) as P1. pose proof (igh_pos fac (- z)) as P2. assert (0 < mu ^ n) by (apply pow_lt; lra).
    assert (0 < igh fac z ^ n) by (apply pow_lt; lra). assert (0 < igh fac (- z) ^ n) by (apply pow_lt; lra). field. repeat split; lra.
  - apply gauss_expect_scal, pmean_expect.
Qed.
Lemma ig_is_density : is_density (ig_density mu lam).
Proof.
  split; [intros; apply ig_density_nonneg|]. pose proof (ig_moment 0) as H. unfold pos_expect in H.
  replace (mu ^ 0 * pmean (fst (igpoly fac 0))) with 1 in H by (cbn; ring).
  unfold half_line in *. eapply is_RInt_gen_ext; [|exact H].
  apply filter_forall. intros [a b] x _. cbn. ring.
Qed.
Lemma ig_mvsk_true : exists m1 m2 m3 m4,
  pos_expect (ig_density mu lam) (fun x => x) m1 /\ pos_expect (ig_density mu lam) (fun x => x ^ 2) m2 /\
  pos_expect (ig_density mu lam) (fun x => x ^ 3) m3 /\ pos_expect (ig_density mu lam) (fun x => x ^ 4) m4 /\
  ig_mvsk (mkIg mu lam) = (m1, var_of_raw m1 m2 / m1 ^ 2, skew_of_raw m1 m2 m3, exkurt_of_raw m1 m2 m3 m4) /\
  mc4_of (ig_mvsk (mkIg mu lam)) = (m1, m2 - m1 ^ 2, m3 - 3 * m1 * m2 + 2 * m1 ^ 3, m4 - 4 * m1 * m3 + 6 * m1 ^ 2 * m2 - 3 * m1 ^ 4).
Proof.
  exists (mu ^ 1 * pmean (fst (igpoly fac 1))), (mu ^ 2 * pmean (fst (igpoly fac 2))), (mu ^ 3 * pmean (fst (igpoly fac 3))), (mu ^ 4 * pmean (fst (igpoly fac 4))).
  split. { eapply is_RInt_gen_ext; [|exact (ig_moment 1)]. apply filter_forall. intros [a b] x _. cbn. ring. }
  split; [apply ig_moment|]. split; [apply ig_moment|]. split; [apply ig_moment|].
  assert (E : forall n l, fst (igpoly fac n) = l -> pmean (fst (igpoly fac n)) = pmean l) by (intros; congruence).
  assert (E1 : pmean (fst (igpoly fac 1)) = 1) by (cbn; ring).
  assert (E2 : pmean (fst (igpoly fac 2)) = 1 + 2 * fac) by (cbn; ring).
  assert (E3 : pmean (fst (igpoly fac 3)) = 1 + 6 * fac + 12 * fac ^ 2) by (cbn; ring).
  assert (E4 : pmean (fst (igpoly fac 4)) = 1 + 12 * fac + 60 * fac ^ 2 + 120 * fac ^ 3) by (cbn; ring).
  rewrite E1, E2, E3, E4. clear E E1 E2 E3 E4. unfold ig_mvsk, mc4_of, var_of_raw, skew_of_raw, exkurt_of_raw, var_of_raw. cbn [ig_mu ig_lam].
  set (q := sqrt (mu / lam)). assert (Hml : 0 < mu / lam) by (apply Rdiv_lt_0_compat; lra).
  assert (Q2 : q * q = mu / lam) by (apply sqrt_sqrt; lra). assert (Qp : 0 < q) by (apply sqrt_lt_R0; lra).
  assert (Ef : fac = q * q / 2) by (rewrite Q2; unfold fac; field; lra). rewrite Ef.
  assert (S : sqrt (mu ^ 2 * (1 + 2 * (q * q / 2)) - (mu ^ 1 * 1) ^ 2) = mu * q).
  { replace (mu ^ 2 * (1 + 2 * (q * q / 2)) - (mu ^ 1 * 1) ^ 2) with ((mu * q) ^ 2) by field. apply sqrt_pow2. nra. }
  assert (S' : sqrt (mu / lam * mu ^ 2) = mu * q).
  { rewrite <- Q2. replace (q * q * mu ^ 2) with ((mu * q) ^ 2) by ring. apply sqrt_pow2. nra. }
  rewrite S, S'. replace (15 * mu / lam) with (15 * (q * q)) by (rewrite Q2; field; lra). rewrite <- Q2. clearbody q. clear Ef S S'.
  replace (mu ^ 2 * (1 + 2 * (q * q / 2)) - (mu ^ 1 * 1) ^ 2) with ((mu * q) ^ 2) by field.
  split; (apply (f_equal2 pair); [apply (f_equal2 pair); [apply (f_equal2 pair)|]|]); try field; lra.
Qed.
(** the rule *)
Lemma ig_quad_rule f zw : rule_sum f (ig_quad (mkIg mu lam) zw) = rule_sum (fun z => 2 / (1 + igh fac z) * f (igx z)) zw / rule_sum (fun _ => 1) zw.
Proof.
  unfold ig_quad. cbv zeta. cbn [ig_mu ig_lam]. fold fac. rewrite rule_sum_one. set (W := rule_sum (fun _ => 1) zw).
  rewrite (rule_sum_map (fun z => ig_node fac z * mu) (fun z => 2 / (W * (1 + ig_node fac z)))).
  set (B := rule_sum (fun z => 2 / (1 + igh fac z) * f (igx z)) zw). transitivity (/ W * B); [|unfold Rdiv; ring]. unfold B. rewrite <- rule_sum_scal.
  apply rule_sum_ext. intros z. rewrite ig_node_eq by exact Hf. rewrite (Rmult_comm (igh fac z) mu). fold (igx z).
  unfold Rdiv. rewrite Rinv_mult. ring.
Qed.
Lemma ig_quad_moment n zw k : hermite_rule n zw -> (k <= n)%nat -> (1 <= n)%nat ->
  pos_expect (ig_density mu lam) (fun x => x ^ k) (rule_sum (fun x => x ^ k) (ig_quad (mkIg mu lam) zw)).
Proof.
  intros H Hk Hn. rewrite ig_quad_rule. assert (W : 0 < rule_sum (fun _ => 1) zw) by (apply rule_sum_pos; [apply H|intros; lra]).
  replace (rule_sum (fun z => 2 / (1 + igh fac z) * igx z ^ k) zw / rule_sum (fun _ => 1) zw) with (mu ^ k * pmean (fst (igpoly fac k))); [apply ig_moment|].
  rewrite (sym_half _ (fun z => mu ^ k * peval (fst (igpoly fac k)) (z ^ 2))).
  - rewrite rule_sum_scal, (pmean_rule n) by (try exact H; pose proof (proj1 (igpoly_length fac k)); lia). field. lra.
  - apply H.
  - intros z. pose proof (ig_sym fac Hf k z) as E. transitivity (mu ^ k * (2 * peval (fst (igpoly fac k)) (z ^ 2))); [|ring]. rewrite <- E. unfold igx. rewrite !Rpow_mult_distr.
    pose proof (igh_pos fac z). pose proof (igh_pos fac (- z)). field. lra.
Qed.
Lemma ig_quad_moment_inv n zw k : hermite_rule n zw -> (S k <= n)%nat ->
  pos_expect (ig_density mu lam) (fun x => / x ^ k) (rule_sum (fun x => / x ^ k) (ig_quad (mkIg mu lam) zw)).
Proof.
  intros H Hk. rewrite ig_quad_rule. assert (W : 0 < rule_sum (fun _ => 1) zw) by (apply rule_sum_pos; [apply H|intros; lra]).
  replace (rule_sum (fun z => 2 / (1 + igh fac z) * / igx z ^ k) zw / rule_sum (fun _ => 1) zw) with (/ mu ^ k * pmean (snd (igpoly fac k))); [apply ig_moment_inv|].
  rewrite (sym_half _ (fun z => / mu ^ k * peval (snd (igpoly fac k)) (z ^ 2))).
  - rewrite rule_sum_scal, (pmean_rule n) by (try exact H; pose proof (proj2 (igpoly_length fac k)); lia). assert (mu ^ k <> 0) by (apply pow_nonzero; lra). field. split; lra.
  - apply H.
  - intros z. pose proof (ig_sym_inv fac Hf k z) as E. transitivity (/ mu ^ k * (2 * peval (snd (igpoly fac k)) (z ^ 2))); [|ring]. rewrite <- E. unfold igx. rewrite !Rpow_mult_distr.
    pose proof (igh_pos fac z) as P1. pose proof (igh_pos fac (- z)) as P2. assert (0 < mu ^ k) by (apply pow_lt; lra).
    assert (0 < igh fac z ^ k) by (apply pow_lt; lra). assert (0 < igh fac (- z) ^ k) by (apply pow_lt; lra). field. repeat split; lra.
Qed.
Lemma ig_inv_mean : pos_expect (ig_density mu lam) (fun x => / x) (/ mu + / lam).
Proof.
  pose proof (ig_moment_inv 1) as H. replace (/ mu ^ 1 * pmean (snd (igpoly fac 1))) with (/ mu + / lam) in H.
  - eapply is_RInt_gen_ext; [|exact H]. apply filter_forall. intros [a b] x _. cbn. now rewrite Rmult_1_r.
  - replace (pmean (snd (igpoly fac 1))) with (1 + 2 * fac) by (cbn; ring). unfold fac. field. lra.
Qed.
(** mass and mean need only the symmetry of the nodes *)
Lemma ig_quad_mass_mean zw : positive_rule zw -> symmetric_rule zw ->
  rule_sum (fun _ => 1) (ig_quad (mkIg mu lam) zw) = 1 /\ rule_sum (fun x => x) (ig_quad (mkIg mu lam) zw) = mu.
Proof.
  intros P Sy. rewrite !ig_quad_rule. assert (W : 0 < rule_sum (fun _ => 1) zw) by (apply rule_sum_pos; [apply P|intros; lra]). split.
  - rewrite (sym_half _ (fun _ => 1)); [field; lra|exact Sy|]. intros z. rewrite igh_opp. pose proof (igh_pos fac z). field. lra.
  - rewrite (sym_half _ (fun _ => mu * 1)); [rewrite (rule_sum_scal mu (fun _ => 1)); field; lra|exact Sy|]. intros z. unfold igx. rewrite igh_opp. pose proof (igh_pos fac z). field. lra.
Qed.
Lemma ig_quad_pos zw : positive_rule zw -> List.Forall (fun p => 0 < fst p /\ 0 < snd p) (ig_quad (mkIg mu lam) zw).
Proof.
  intros P. assert (W : 0 < rule_sum (fun _ => 1) zw) by (apply rule_sum_pos; [apply P|intros; lra]).
  unfold ig_quad. cbv zeta. cbn [ig_mu ig_lam]. fold fac. rewrite rule_sum_one. apply Forall_forall. intros q Hq. apply in_map_iff in Hq. destruct Hq as ([z w] & <- & Hi). cbn [fst snd].
  assert (Pw : 0 < w). { destruct P as [_ P]. rewrite Forall_forall in P. exact (P _ Hi). }
  rewrite ig_node_eq by exact Hf. pose proof (igh_pos fac z). split; [nra|]. apply Rmult_lt_0_compat; [exact Pw|]. apply Rdiv_lt_0_compat; [lra|]. nra.
Qed.
End IGD.
Lemma ig_fit_ok mean vs : 0 < mean -> 0 < vs -> exists sk ku, ig_mvsk (ig_fit mean vs) = (mean, vs, sk, ku).
Proof. intros H1 H2. unfold ig_fit, ig_mvsk. cbn [ig_mu ig_lam]. do 2 eexists. apply (f_equal2 pair); [apply (f_equal2 pair); [apply (f_equal2 pair)|]|]; try reflexivity. field. lra. Qed.
