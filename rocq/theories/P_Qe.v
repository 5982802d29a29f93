(** Andersen's QE step: exact moment matching and martingale correction. *)
From Coq Require Import Reals Lra Lia List Psatz.
From Coquelicot Require Import Coquelicot.
From Verif Require Import Base Gauss Sums P_Black Spec_Expect P_Expect P_Gmom M_Opt M_Mgf M_Mc M_Heston.
Open Scope R_scope.

Lemma lim_affine_p (t mu : R) : 0 < t -> is_lim (fun b => t * b - mu) p_infty p_infty.
Proof.
  intros Ht. apply is_lim_spec. intros M. exists ((M + mu) / t). intros x Hx.
  apply (Rmult_lt_compat_l t) in Hx; [|lra]. replace (t * ((M + mu) / t)) with (M + mu) in Hx by (field; lra). lra.
Qed.
Lemma lim_affine_m (t mu : R) : 0 < t -> is_lim (fun b => t * - b - mu) p_infty m_infty.
Proof.
  intros Ht. apply is_lim_spec. intros M. exists (- ((M + mu) / t)). intros x Hx.
  apply (Rmult_lt_compat_l t) in Hx; [|lra]. replace (t * - ((M + mu) / t)) with (- (M + mu)) in Hx by (field; lra). lra.
Qed.
(** E exp(s (b+Z)^2) *)
Lemma gauss_quad_mgf (s b : R) : 2 * s < 1 ->
  gauss_expect (fun z => exp (s * (b + z) ^ 2)) (exp (s * b ^ 2 / (1 - 2 * s) - / 2 * ln (1 - 2 * s))).
Proof.
  intros Hs. set (t := sqrt (1 - 2 * s)). assert (Ht : 0 < t) by (apply sqrt_lt_R0; lra).
  assert (T2 : t * t = 1 - 2 * s) by (apply sqrt_sqrt; lra).
  set (mu := 2 * s * b / t). set (C := exp (s * b ^ 2 / (1 - 2 * s))).
  assert (E : forall z, exp (s * (b + z) ^ 2) * npdf z = C / t * (t * npdf (t * z - mu))).
  { intros z.
    assert (X : s * (b + z) ^ 2 + - (z * z) / 2 = s * b ^ 2 / (1 - 2 * s) + - ((t * z - mu) * (t * z - mu)) / 2).
    { replace ((t * z - mu) * (t * z - mu)) with (t * t * z * z - 4 * s * b * z + 4 * s ^ 2 * b ^ 2 / (t * t)) by (unfold mu; field; lra).
      rewrite T2. field. lra. }
    unfold C, npdf. pose proof sqrt_2PI_pos.
    transitivity (exp (s * (b + z) ^ 2 + - (z * z) / 2) / sqrt (2 * PI)); [rewrite exp_plus; unfold Rdiv; ring|].
    rewrite X, exp_plus. field. lra. }
  assert (DP : forall x : R, is_derive (fun z => C / t * Phi (t * z - mu)) x (C / t * (t * npdf (t * x - mu)))).
  { intros x. apply is_derive_scal_R. eapply is_derive_eq.
    { apply (is_derive_Phi_comp (fun z => t * z - mu) x t). auto_derive; [trivial|Req; ring]. } Req. ring. }
  replace (exp (s * b ^ 2 / (1 - 2 * s) - / 2 * ln (1 - 2 * s))) with (C / t * 1 - C / t * 0).
  2:{ rewrite exp_sub. fold C. replace (exp (/ 2 * ln (1 - 2 * s))) with t; [field; lra|].
      unfold t. rewrite <- Rpower_sqrt by lra. unfold Rpower. reflexivity. }
  apply (gauss_expect_anti _ (fun z => C / t * Phi (t * z - mu))).
  - intros x. rewrite E. apply DP.
  - intros x. apply (continuous_ext (fun z => C / t * (t * npdf (t * z - mu)))). { intros; now rewrite E. }
    apply ex_derive_continuous_R. unfold npdf. auto_derive. pose proof sqrt_2PI_pos. lra.
  - apply (is_lim_scal_l _ (C / t) p_infty 1).
    apply (is_lim_comp Phi (fun b0 => t * b0 - mu) p_infty 1 p_infty); [apply Phi_lim_p| |exists 0; easy].
    now apply lim_affine_p.
  - apply (is_lim_scal_l _ (C / t) p_infty 0).
    apply (is_lim_comp Phi (fun b0 => t * - b0 - mu) p_infty 0 m_infty); [apply Phi_lim_m| |exists 0; easy].
    now apply lim_affine_m.
Qed.

Lemma Phi_surj p : 0 < p < 1 -> exists c, Phi c = p.
Proof.
  intros [H0 H1].
  destruct (proj2 (is_lim_spec Phi p_infty 1) Phi_lim_p (mkposreal (1 - p) ltac:(lra))) as [M HM].
  destruct (proj2 (is_lim_spec Phi m_infty 0) Phi_lim_m (mkposreal p H0)) as [m Hm].
  cbn in HM, Hm.
  assert (A : Phi (Rmin m M - 1) < p).
  { specialize (Hm (Rmin m M - 1)). pose proof (Rmin_l m M). assert (X : Rabs (Phi (Rmin m M - 1) - 0) < p) by (apply Hm; lra).
    apply Rabs_def2 in X. lra. }
  assert (B : p < Phi (Rmax m M + 1)).
  { specialize (HM (Rmax m M + 1)). pose proof (Rmax_r m M). assert (X : Rabs (Phi (Rmax m M + 1) - 1) < 1 - p) by (apply HM; lra).
    apply Rabs_def2 in X. lra. }
  destruct (IVT (fun x => Phi x - p) (Rmin m M - 1) (Rmax m M + 1)) as (c & _ & Hc).
  - intros x. apply continuity_pt_minus; [apply continuity_Phi|]. apply continuity_pt_const. intros ? ?; reflexivity.
  - pose proof (Rmin_l m M). pose proof (Rmax_l m M). lra.
  - lra.
  - lra.
  - exists c. lra.
Qed.

(** expectation of h(Phi(Z)) for Phi(Z) <= p, constant k beyond: antiderivative H in the uniform variable *)
Lemma gauss_expect_unif (h H : R -> R) (p k : R) :
  0 < p < 1 ->
  (forall u, 0 < u -> is_derive H u (h u)) -> (forall u, 0 < u -> continuous h u) -> h p = k ->
  is_lim (fun b => H (Phi (- b))) p_infty 0 ->
  gauss_expect (fun z => if Rle_dec (Phi z) p then h (Phi z) else k) (H p + k * (1 - p)).
Proof.
  intros Hp HD HC Hk HL. destruct (Phi_surj p Hp) as [c Ec].
  assert (CI : forall x, continuous (fun z => (if Rle_dec (Phi z) p then h (Phi z) else k) * npdf z) x).
  { intros x. apply (continuous_mult (fun z => if Rle_dec (Phi z) p then h (Phi z) else k) npdf); [|apply cont_npdf].
    apply (continuous_ext (fun z => h (Rmin (Phi z) p))).
    { intros z. unfold Rmin. destruct (Rle_dec (Phi z) p); [reflexivity|exact Hk]. }
    apply (continuous_comp (fun z => Rmin (Phi z) p) h).
    - apply (continuous_ext (fun z => (Phi z + p - Rabs (Phi z - p)) / 2)).
      { intros z. unfold Rmin, Rabs. destruct (Rle_dec (Phi z) p); destruct (Rcase_abs (Phi z - p)); Req; lra. }
      apply (continuous_mult (fun z => Phi z + p - Rabs (Phi z - p)) (fun _ => / 2)); [|apply continuous_const].
      apply (continuous_minus (V := R_NormedModule) (fun z => Phi z + p) (fun z => Rabs (Phi z - p))).
      + apply (continuous_plus (V := R_NormedModule) Phi (fun _ => p)); [apply continuous_Phi|apply continuous_const].
      + apply (continuous_comp (fun z => Phi z - p) Rabs).
        * apply (continuous_minus (V := R_NormedModule) Phi (fun _ => p)); [apply continuous_Phi|apply continuous_const].
        * apply continuous_Rabs.
    - apply HC. apply Rmin_pos; [apply Phi_pos|lra]. }
  assert (DG : forall x : R, is_derive (fun z => H (Phi z)) x (h (Phi x) * npdf x)).
  { intros x. eapply is_derive_eq. { apply (is_derive_comp_R H Phi x (h (Phi x)) (npdf x)); [apply HD; apply Phi_pos|apply is_derive_Phi]. } Req. ring. }
  apply (gauss_expect_of _ c (fun b => (H (Phi c) - H (Phi (- b))) + (k * Phi b - k * Phi c))).
  - intros b. apply ex_RInt_cont_all. exact CI.
  - intros b Hb. apply Rabs_le_between in Hb.
    apply (RInt_kink _ (fun z => h (Phi z) * npdf z) (fun z => k * npdf z) (fun z => H (Phi z)) (fun z => k * Phi z) c b); auto.
    + intros x. apply is_derive_scal_R. apply is_derive_Phi.
    + intros x. apply (continuous_mult (fun z => h (Phi z)) npdf); [|apply cont_npdf].
      apply (continuous_comp Phi h); [apply continuous_Phi|]. apply HC. apply Phi_pos.
    + intros x. apply (continuous_scal_r (V := R_NormedModule) k npdf). apply cont_npdf.
    + intros x Hx. destruct (Rle_dec (Phi x) p) as [_|n]; [reflexivity|]. exfalso. apply n. rewrite <- Ec. apply Phi_le. lra.
    + intros x Hx. destruct (Rle_dec (Phi x) p) as [y|_]; [|reflexivity]. exfalso. pose proof (Phi_incr c x Hx). lra.
  - rewrite Ec. replace (Finite (H p + k * (1 - p))) with (Finite ((H p - 0) + (k * 1 - k * p))) by (f_equal; ring).
    apply is_lim_plus'; apply is_lim_minus'.
    + apply is_lim_const.
    + exact HL.
    + apply (is_lim_scal_l _ k p_infty 1). apply Phi_lim_p.
    + apply is_lim_const.
Qed.

Lemma Phi_lim_mb : is_lim (fun b => Phi (- b)) p_infty 0.
Proof.
  apply (is_lim_comp Phi (fun b => - b) p_infty 0 m_infty); [apply Phi_lim_m| |exists 0; easy].
  replace m_infty with (Rbar_opp p_infty) by reflexivity. apply is_lim_opp, is_lim_id.
Qed.

(** u * ln(p/u)^k -> 0, k <= 2 *)
Lemma lim_u_ln (p : R) (k : nat) : 0 < p < 1 -> (k <= 2)%nat -> is_lim (fun b => Phi (- b) * ln (p / Phi (- b)) ^ k) p_infty 0.
Proof.
  intros Hp Hk.
  assert (L0 : is_lim (fun b => 27 * (p * Rpower (Phi (- b) / p) (/ 3))) p_infty 0).
  { replace (Finite 0) with (Finite (27 * (p * 0))) by (f_equal; ring).
    apply (is_lim_scal_l _ 27 p_infty (p * 0)). apply (is_lim_scal_l _ p p_infty 0).
    apply is_lim_spec. intros eps. 
    pose proof (proj2 (is_lim_spec _ _ _) Phi_lim_mb) as HL. 
    assert (Pe : 0 < p * Rpower eps 3) by (apply Rmult_lt_0_compat; [lra|apply exp_pos]).
    destruct (HL (mkposreal _ Pe)) as [M HM]. exists M. intros b Hb. specialize (HM b Hb). cbn in HM.
    rewrite Rminus_0_r in *. pose proof (Phi_pos (- b)) as HPp.
    rewrite Rabs_right in HM by lra.
    rewrite Rabs_right by (apply Rle_ge; left; apply exp_pos).
    replace (pos eps) with (Rpower (Rpower eps 3) (/ 3)).
    2:{ rewrite Rpower_mult. replace (3 * / 3) with 1 by field. apply Rpower_1. apply cond_pos. }
    apply Rlt_Rpower_l; [lra|]. split; [apply Rdiv_lt_0_compat; lra|].
    apply (Rmult_lt_reg_l p); [lra|]. replace (p * (Phi (- b) / p)) with (Phi (- b)) by (field; lra). exact HM. }
  apply (is_lim_le_le_loc (fun _ => 0) (fun b => 27 * (p * Rpower (Phi (- b) / p) (/ 3)))); [|apply is_lim_const|exact L0].
  pose proof (proj2 (is_lim_spec _ _ _) Phi_lim_mb (mkposreal p (proj1 Hp))) as [M HM]. cbn in HM.
  exists M. intros b Hb. specialize (HM b Hb). rewrite Rminus_0_r in HM. pose proof (Phi_pos (- b)) as HPp.
  rewrite Rabs_right in HM by lra.
  set (y := ln (p / Phi (- b))).
  assert (Hy : 0 < y). { unfold y. rewrite <- ln_1. apply ln_increasing; [lra|]. apply (Rmult_lt_reg_r (Phi (- b))); [lra|]. unfold Rdiv. rewrite Rmult_assoc, Rinv_l by lra. lra. }
  assert (EP : Phi (- b) = p * exp (- y)).
  { unfold y. rewrite exp_Ropp, exp_ln by (apply Rdiv_lt_0_compat; lra). field. lra. }
  split.
  - apply Rmult_le_pos; [lra|]. apply pow_le. lra.
  - rewrite EP. replace (p * exp (- y) / p) with (exp (- y)) by (field; lra).
    unfold Rpower. rewrite ln_exp.
    (* exp(-y) y^k <= 27 exp(-y/3)  *)
    replace (p * exp (- y) * y ^ k) with (p * (exp (- y) * y ^ k)) by ring.
    replace (27 * (p * exp (/ 3 * - y))) with (p * (27 * exp (/ 3 * - y))) by ring.
    apply Rmult_le_compat_l; [lra|].
    replace (- y) with (/ 3 * - y + - (2 * y / 3)) at 1 by field. rewrite exp_plus, exp_Ropp.
    replace (27 * exp (/ 3 * - y)) with (exp (/ 3 * - y) * 27) by ring. rewrite Rmult_assoc.
    apply Rmult_le_compat_l; [left; apply exp_pos|].
    pose proof (exp_ge_pow 2 (2 * y / 3)) as HE. cbn [INR] in HE.
    assert (HE' : (1 + 2 * y / 3 / (1 + 1)) ^ 2 <= exp (2 * y / 3)) by (apply HE; [lra|lia]). clear HE.
    replace ((1 + 2 * y / 3 / (1 + 1)) ^ 2) with ((1 + y / 3) ^ 2) in HE' by field.
    apply (Rmult_le_reg_l (exp (2 * y / 3))); [apply exp_pos|]. rewrite <- Rmult_assoc, Rinv_r by (pose proof (exp_pos (2 * y / 3)); lra).
    rewrite Rmult_1_l.
    assert (y ^ k <= 27 * (1 + y / 3) ^ 2). { destruct k as [|[|[|k]]]; [nra|nra|nra|lia]. }
    nra.
Qed.

Section QE.
Variables (m s2 : R).
Hypothesis Hm : 0 < m.
Hypothesis Hs : 0 < s2.
Let psi := s2 / m ^ 2.
Lemma psi_pos : 0 < psi. Proof. unfold psi. apply Rdiv_lt_0_compat; [lra|apply pow_lt; lra]. Qed.
Lemma s2_psi : s2 = psi * m ^ 2. Proof. unfold psi. field. lra. Qed.

Lemma qe_b2_facts : psi <= psi_c -> 0 < qe_b2 psi /\ qe_b2 psi ^ 2 + 2 * qe_b2 psi + 1 = 2 / psi * (1 + 2 * qe_b2 psi).
Proof.
  intros H. pose proof psi_pos as P. unfold psi_c in H. unfold qe_b2. set (ins := 2 / psi).
  assert (Hi : 4 / 3 <= ins). { unfold ins. apply (Rmult_le_reg_r psi); [lra|]. unfold Rdiv at 2. rewrite Rmult_assoc, Rinv_l by lra. lra. }
  set (r := sqrt (ins * (ins - 1))).
  assert (Hr : r * r = ins * (ins - 1)) by (apply sqrt_sqrt; nra).
  assert (0 < r) by (apply sqrt_lt_R0; nra). split; [lra|]. nra.
Qed.

Lemma qe_nonneg z : 0 <= qe_var m s2 z.
Proof.
  unfold qe_var. fold psi. pose proof psi_pos as P. destruct (Rle_dec psi psi_c) as [H|H].
  - destruct (qe_b2_facts H) as [Hb _]. apply Rmult_le_pos; [left; apply Rdiv_lt_0_compat; lra|]. apply pow2_ge_0.
  - destruct (Rle_dec (Phi z) (2 / (psi + 1))) as [Hz|Hz]; [|lra].
    assert (0 < 2 / (psi + 1)) by (apply Rdiv_lt_0_compat; lra). pose proof (Phi_pos z).
    apply Rmult_le_pos. 2:{ left. apply Rinv_0_lt_compat. apply Rdiv_lt_0_compat; lra. }
    rewrite <- ln_1. apply ln_le_R; [lra|]. apply (Rmult_le_reg_r (Phi z)); [lra|]. unfold Rdiv. rewrite Rmult_assoc, Rinv_l by lra.
    fold (2 / (psi + 1)). lra.
Qed.

Lemma one_m_p_range : ~ psi <= psi_c -> 0 < 2 / (psi + 1) < 1.
Proof.
  intros H. unfold psi_c in H. split; [apply Rdiv_lt_0_compat; lra|].
  apply (Rmult_lt_reg_r (psi + 1)); [lra|]. unfold Rdiv. rewrite Rmult_assoc, Rinv_l by lra. lra.
Qed.

Lemma qe_mean : gauss_expect (qe_var m s2) m.
Proof.
  unfold qe_var. fold psi. pose proof psi_pos as P. destruct (Rle_dec psi psi_c) as [H|H].
  - destruct (qe_b2_facts H) as [Hb _]. set (b2 := qe_b2 psi) in *. set (a := m / (1 + b2)).
    apply (gauss_expect_ext (fun z => a * b2 + a * (2 * sqrt b2) * z + a * z ^ 2 + 0 * z ^ 3 + 0 * z ^ 4)).
    { intros z. rewrite <- (pow2_sqrt b2) at 1 by lra. ring. }
    replace m with (a * b2 + a + 3 * 0) by (unfold a; field; lra). apply gauss_poly4.
  - pose proof (one_m_p_range H) as Hp. set (p := 2 / (psi + 1)) in *. set (beta := p / m).
    assert (Hbeta : 0 < beta) by (apply Rdiv_lt_0_compat; lra).
    replace m with ((p * ln (p / p) + p) / beta + 0 * (1 - p)).
    2:{ unfold Rdiv at 2. rewrite Rinv_r, ln_1 by lra. unfold beta. field. lra. }
    apply (gauss_expect_unif (fun u => ln (p / u) / beta) (fun u => (u * ln (p / u) + u) / beta) p 0 Hp).
    + intros u Hu. auto_derive. { split; [lra|split;[|lra]]. apply Rdiv_lt_0_compat; lra. } Req. unfold Rdiv. field. lra.
    + intros u Hu. apply ex_derive_continuous_R. auto_derive. split; [lra|split;[|trivial]]. apply Rdiv_lt_0_compat; lra.
    + unfold Rdiv. rewrite Rinv_r, ln_1 by lra. ring.
    + apply (is_lim_ext (fun b => / beta * (Phi (- b) * ln (p / Phi (- b)) ^ 1 + Phi (- b)))). { intros b. unfold Rdiv. ring. }
      replace (Finite 0) with (Finite (/ beta * (0 + 0))) by (f_equal; ring).
      apply (is_lim_scal_l _ (/ beta) p_infty (0 + 0)). apply is_lim_plus'; [apply lim_u_ln; [exact Hp|lia]|apply Phi_lim_mb].
Qed.

Lemma qe_second : gauss_expect (fun z => qe_var m s2 z ^ 2) (m ^ 2 + s2).
Proof.
  unfold qe_var. fold psi. pose proof psi_pos as P. pose proof s2_psi as ES. destruct (Rle_dec psi psi_c) as [H|H].
  - destruct (qe_b2_facts H) as [Hb HQ]. set (b2 := qe_b2 psi) in *. set (a := m / (1 + b2)).
    apply (gauss_expect_ext (fun z => a ^ 2 * b2 ^ 2 + 4 * a ^ 2 * b2 * sqrt b2 * z + a ^ 2 * (6 * b2) * z ^ 2 + a ^ 2 * 4 * sqrt b2 * z ^ 3 + a ^ 2 * z ^ 4)).
    { intros z. assert (E : sqrt b2 ^ 2 = b2) by (apply pow2_sqrt; lra).
      replace ((a * (sqrt b2 + z) ^ 2) ^ 2) with (a ^ 2 * ((sqrt b2 ^ 2) ^ 2 + 4 * sqrt b2 * sqrt b2 ^ 2 * z + 6 * sqrt b2 ^ 2 * z ^ 2 + 4 * sqrt b2 * z ^ 3 + z ^ 4)) by ring.
      rewrite E. ring. }
    replace (m ^ 2 + s2) with (a ^ 2 * b2 ^ 2 + a ^ 2 * (6 * b2) + 3 * a ^ 2); [apply gauss_poly4|].
    rewrite ES. unfold a.
    assert (PS : psi = 2 * (1 + 2 * b2) / (1 + b2) ^ 2).
    { apply (Rmult_eq_reg_r ((1 + b2) ^ 2 / psi)); [|apply Rmult_integral_contrapositive_currified; [apply pow_nonzero; lra|apply Rinv_neq_0_compat; lra]].
      replace (psi * ((1 + b2) ^ 2 / psi)) with (b2 ^ 2 + 2 * b2 + 1) by (field; lra). rewrite HQ. field. lra. }
    rewrite PS. field. lra.
  - pose proof (one_m_p_range H) as Hp. assert (EP : psi = 2 / (2 / (psi + 1)) - 1) by (field; lra).
    set (p := 2 / (psi + 1)) in *. set (beta := p / m).
    assert (Hbeta : 0 < beta) by (apply Rdiv_lt_0_compat; lra).
    apply (gauss_expect_ext (fun z => if Rle_dec (Phi z) p then (ln (p / Phi z) / beta) ^ 2 else 0)).
    { intros z. destruct (Rle_dec (Phi z) p); [reflexivity|ring]. }
    replace (m ^ 2 + s2) with ((p * ln (p / p) ^ 2 + 2 * (p * ln (p / p)) + 2 * p) / beta ^ 2 + 0 * (1 - p)).
    2:{ replace (p / p) with 1 by (field; lra). rewrite ln_1, ES, EP. unfold beta. field. lra. }
    apply (gauss_expect_unif (fun u => (ln (p / u) / beta) ^ 2) (fun u => (u * ln (p / u) ^ 2 + 2 * (u * ln (p / u)) + 2 * u) / beta ^ 2) p 0 Hp).
    + intros u Hu. auto_derive. { assert (0 < p * / u) by (apply Rdiv_lt_0_compat; lra). repeat split; auto; try lra. } Req. unfold Rdiv. field. lra.
    + intros u Hu. apply ex_derive_continuous_R. auto_derive. split; [lra|split;[|trivial]]. apply Rdiv_lt_0_compat; lra.
    + replace (p / p) with 1 by (field; lra). rewrite ln_1. unfold Rdiv. ring.
    + apply (is_lim_ext (fun b => / beta ^ 2 * (Phi (- b) * ln (p / Phi (- b)) ^ 2 + 2 * (Phi (- b) * ln (p / Phi (- b)) ^ 1) + 2 * Phi (- b)))). { intros b. unfold Rdiv. ring. }
      replace (Finite 0) with (Finite (/ beta ^ 2 * (0 + 2 * 0 + 2 * 0))) by (f_equal; ring).
      apply (is_lim_scal_l _ (/ beta ^ 2) p_infty (0 + 2 * 0 + 2 * 0)).
      apply is_lim_plus'; [apply is_lim_plus'|].
      * apply lim_u_ln; [exact Hp|lia].
      * apply (is_lim_scal_l _ 2 p_infty 0). apply lim_u_ln; [exact Hp|lia].
      * apply (is_lim_scal_l _ 2 p_infty 0). apply Phi_lim_mb.
Qed.

(** the moment generating function at aa *)
Definition qe_mgf (aa : R) : R :=
  if Rle_dec psi psi_c then let b2 := qe_b2 psi in let a := m / (1 + b2) in
      exp (aa * b2 * a / (1 - 2 * aa * a) - / 2 * ln (1 - 2 * aa * a))
  else let p := 2 / (psi + 1) in let beta := p / m in 1 - p + beta * p / (beta - aa).
Definition qe_admissible (aa : R) : Prop :=
  if Rle_dec psi psi_c then 2 * aa * (m / (1 + qe_b2 psi)) < 1 else aa < 2 / (psi + 1) / m.

Lemma qe_mgf_expect aa : qe_admissible aa -> gauss_expect (fun z => exp (aa * qe_var m s2 z)) (qe_mgf aa).
Proof.
  unfold qe_var, qe_mgf, qe_admissible. fold psi. pose proof psi_pos as P. destruct (Rle_dec psi psi_c) as [H|H]; intros Ha.
  - destruct (qe_b2_facts H) as [Hb _]. set (b2 := qe_b2 psi) in *. set (a := m / (1 + b2)) in *. cbv zeta.
    apply (gauss_expect_ext (fun z => exp (aa * a * (sqrt b2 + z) ^ 2))). { intros z. f_equal. ring. }
    replace (aa * b2 * a / (1 - 2 * aa * a) - / 2 * ln (1 - 2 * aa * a)) with (aa * a * sqrt b2 ^ 2 / (1 - 2 * (aa * a)) - / 2 * ln (1 - 2 * (aa * a))).
    2:{ rewrite pow2_sqrt by lra. replace (2 * (aa * a)) with (2 * aa * a) by ring. f_equal. field. lra. }
    apply gauss_quad_mgf. lra.
  - pose proof (one_m_p_range H) as Hp. set (p := 2 / (psi + 1)) in *. cbv zeta. set (beta := p / m) in *.
    assert (Hbeta : 0 < beta) by (apply Rdiv_lt_0_compat; lra).
    apply (gauss_expect_ext (fun z => if Rle_dec (Phi z) p then exp (aa / beta * ln (p / Phi z)) else 1)).
    { intros z. destruct (Rle_dec (Phi z) p); [|now rewrite Rmult_0_r, exp_0]. f_equal. field. lra. }
    set (g := aa / beta). assert (Hg : g < 1). { unfold g. apply (Rmult_lt_reg_r beta); [lra|]. unfold Rdiv. rewrite Rmult_assoc, Rinv_l by lra. lra. }
    replace (1 - p + beta * p / (beta - aa)) with (p * exp (g * ln (p / p)) / (1 - g) + 1 * (1 - p)).
    2:{ replace (p / p) with 1 by (field; lra). rewrite ln_1, Rmult_0_r, exp_0. unfold g. field. lra. }
    apply (gauss_expect_unif (fun u => exp (g * ln (p / u))) (fun u => u * exp (g * ln (p / u)) / (1 - g)) p 1 Hp).
    + intros u Hu. auto_derive. { split; [lra|split;[|trivial]]. apply Rdiv_lt_0_compat; lra. } Req. unfold Rdiv. field. lra.
    + intros u Hu. apply ex_derive_continuous_R. auto_derive. split; [lra|split;[|trivial]]. apply Rdiv_lt_0_compat; lra.
    + replace (p / p) with 1 by (field; lra). now rewrite ln_1, Rmult_0_r, exp_0.
    + (* p^g Phi^(1-g) -> 0 *)
      apply (is_lim_ext (fun b => p / (1 - g) * Rpower (Phi (- b) / p) (1 - g))).
      { intros b. pose proof (Phi_pos (- b)). unfold Rpower. rewrite (ln_div (Phi (- b)) p), (ln_div p (Phi (- b))) by lra.
        transitivity (exp (ln (Phi (- b))) * exp (g * (ln p - ln (Phi (- b)))) / (1 - g)); [|now rewrite exp_ln by lra].
        transitivity (exp (ln p) / (1 - g) * exp ((1 - g) * (ln (Phi (- b)) - ln p))); [now rewrite exp_ln by lra|].
        unfold Rdiv. replace (exp (ln p) * / (1 - g) * exp ((1 - g) * (ln (Phi (- b)) - ln p))) with (exp (ln p) * exp ((1 - g) * (ln (Phi (- b)) - ln p)) * / (1 - g)) by ring.
        rewrite <- !exp_plus. f_equal. f_equal. ring. }
      replace (Finite 0) with (Finite (p / (1 - g) * 0)) by (f_equal; ring).
      apply (is_lim_scal_l _ (p / (1 - g)) p_infty 0).
      apply is_lim_spec. intros eps. pose proof (proj2 (is_lim_spec _ _ _) Phi_lim_mb) as HL.
      assert (Pe : 0 < p * Rpower eps (/ (1 - g))) by (apply Rmult_lt_0_compat; [lra|apply exp_pos]).
      destruct (HL (mkposreal _ Pe)) as [M HM]. exists M. intros b Hb'. specialize (HM b Hb'). cbn in HM.
      rewrite Rminus_0_r in *. pose proof (Phi_pos (- b)) as HPp.
      rewrite Rabs_right in HM by lra.
      rewrite Rabs_right by (apply Rle_ge; left; apply exp_pos).
      replace (pos eps) with (Rpower (Rpower eps (/ (1 - g))) (1 - g)).
      2:{ rewrite Rpower_mult. replace (/ (1 - g) * (1 - g)) with 1 by (field; lra). apply Rpower_1. apply cond_pos. }
      apply Rlt_Rpower_l; [lra|]. split; [apply Rdiv_lt_0_compat; lra|].
      apply (Rmult_lt_reg_l p); [lra|]. replace (p * (Phi (- b) / p)) with (Phi (- b)) by (field; lra). exact HM.
Qed.
Lemma qe_mgf_pos aa : qe_admissible aa -> 0 < qe_mgf aa.
Proof.
  unfold qe_mgf, qe_admissible. destruct (Rle_dec psi psi_c) as [H|H]; intros Ha; [apply exp_pos|].
  pose proof (one_m_p_range H) as Hp. pose proof psi_pos. set (p := 2 / (psi + 1)) in *. cbv zeta. set (beta := p / m) in *.
  assert (Hbeta : 0 < beta) by (apply Rdiv_lt_0_compat; lra).
  assert (0 < beta * p / (beta - aa)) by (apply Rdiv_lt_0_compat; [nra|lra]). lra.
Qed.
End QE.

(** the QE step with correction makes the conditional spot a martingale *)
Lemma qe_martingale (p : svp) dt v0 : v_vov p <> 0 -> dt <> 0 -> 0 < v0 ->
  let m := cir_mean (heston_cir p) dt v0 in let s2 := cir_var (heston_cir p) dt v0 in
  0 < m -> 0 < s2 -> qe_admissible m s2 (qe_aa p dt) ->
  gauss_expect (fun z => fst (hmc_cond_spot_sigma p (qe_step p (fun _ => z)) (dt :: nil) dt v0)) 1.
Proof.
  intros Hv Hdt H0 m s2 Hm Hs Ha.
  pose proof (qe_mgf_expect m s2 Hm Hs _ Ha) as HG. pose proof (qe_mgf_pos m s2 Hm Hs _ Ha) as HP.
  set (G := qe_mgf m s2 (qe_aa p dt)) in *.
  replace 1 with (/ G * G) by (field; lra).
  eapply gauss_expect_ext; [|apply gauss_expect_scal; exact HG].
  intros z. unfold hmc_cond_spot_sigma, qe_step. cbn [hmc_loop]. fold m s2. cbn [fst].
  set (vt := qe_var m s2 z).
  assert (EC : qe_mcorr p m s2 dt v0 = - qe_k p dt * v0 + dt * v_rho p * v_mr p * v_theta p / v_vov p - ln G).
  { unfold qe_mcorr, G, qe_mgf. destruct (Rle_dec (s2 / m ^ 2) psi_c) as [H|H]; [|ring].
    rewrite ln_exp. cbv zeta. unfold qe_admissible in Ha. destruct (Rle_dec (s2 / m ^ 2) psi_c); [|contradiction].
    destruct (qe_b2_facts m s2 Hm Hs H) as [Hb _]. set (b2 := qe_b2 _) in *. set (a := m / (1 + b2)) in *. unfold Rdiv. ring. }
  rewrite EC. rewrite <- (exp_ln G) at 1 by exact HP. rewrite <- exp_Ropp, <- exp_plus. f_equal.
  unfold qe_aa, qe_k. field. auto.
Qed.
