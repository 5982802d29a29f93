(** NSVh quadrature: every slice expectation exists. *)
From Coq Require Import Reals Lra Lia List Psatz.
From Coquelicot Require Import Coquelicot.
From Verif Require Import Base Gauss Sums M_Opt M_Fd M_Sabr M_Dist M_NsvhQuad Spec_Expect Spec_Dist Spec_NsvhQuad P_Half P_Expect P_Dist P_Dist2 P_NsvhQuad P_NsvhQuad2 P_NsvhQuad3.
Import ListNotations.
Open Scope R_scope.

Lemma exp_RInt c a b : 0 < c -> 0 < a -> a <= b -> RInt (fun x => exp (- c * x)) a b <= / c.
Proof.
  intros Hc Ha Hab. assert (H : is_RInt (fun x => exp (- c * x)) a b ((- / c * exp (- c * b)) - (- / c * exp (- c * a)))).
  { apply (is_RInt_derive (fun x => - / c * exp (- c * x)) (fun x => exp (- c * x))).
    - intros x _. auto_derive; [exact I|]. Req. field. lra.
    - intros x _. apply (ex_derive_continuous (K := R_AbsRing) (V := R_NormedModule)). auto_derive. exact I. }
  rewrite (is_RInt_unique (V := R_CompleteNormedModule) _ _ _ _ H). assert (exp (- c * a) <= 1) by (rewrite <- exp_0; apply exp_le; nra). pose proof (exp_pos (- c * b)). assert (0 < / c) by now apply Rinv_0_lt_compat. nra.
Qed.
Lemma half_exists (F : R -> R) C c : 0 < c -> (forall x, 0 < x -> 0 <= F x) -> (forall x, 0 < x -> continuous F x) -> (forall x, 0 < x -> F x <= C * exp (- c * x)) -> exists v, half_line F v.
Proof.
  intros Hc Hp HC HB.
  assert (Ex : forall a b, 0 < a -> a <= b -> ex_RInt (V := R_CompleteNormedModule) F a b).
  { intros a b Ha Hab. apply (ex_RInt_continuous (V := R_CompleteNormedModule)). rewrite Rmin_left, Rmax_right by lra. intros z Hz. apply HC. lra. }
  set (E := fun y => exists a b, 0 < a /\ a <= b /\ y = RInt F a b).
  assert (C0 : 0 <= C). { pose proof (Hp 1 ltac:(lra)). pose proof (HB 1 ltac:(lra)). pose proof (exp_pos (- c * 1)). nra. }
  assert (BE : bound E).
  { exists (C * / c). intros y [a [b [Ha [Hab ->]]]]. apply Rle_trans with (RInt (fun x => C * exp (- c * x)) a b).
    - apply RInt_le; [exact Hab|now apply Ex| |intros x Hx; apply HB; lra]. apply (ex_RInt_continuous (V := R_CompleteNormedModule)). intros z _. apply (ex_derive_continuous (K := R_AbsRing) (V := R_NormedModule)). auto_derive. exact I.
    - assert (XE : ex_RInt (V := R_CompleteNormedModule) (fun x => exp (- c * x)) a b). { apply (ex_RInt_continuous (V := R_CompleteNormedModule)). intros z _. apply (ex_derive_continuous (K := R_AbsRing) (V := R_NormedModule)). auto_derive. exact I. }
      destruct XE as [y Y]. pose proof (is_RInt_scal (V := R_NormedModule) _ _ _ C _ Y) as Y2. assert (EQ : RInt (fun x => C * exp (- c * x)) a b = C * y) by (apply is_RInt_unique; exact Y2). rewrite EQ. pose proof (exp_RInt c a b Hc Ha Hab) as B. rewrite (is_RInt_unique (V := R_CompleteNormedModule) _ _ _ _ Y) in B. apply Rmult_le_compat_l; [exact C0|exact B]. }
  destruct (completeness E BE) as [v [Ub Lub]]. { exists (RInt F 1 1), 1, 1. repeat split; lra. }
  exists v. intros P [e He]. assert (exists a0 b0, 0 < a0 /\ a0 <= b0 /\ v - e < RInt F a0 b0) as [a0 [b0 [A1 [A2 A3]]]].
  { apply Classical_Prop.NNPP. intros N. assert (v <= v - e); [|pose proof (cond_pos e); lra]. apply Lub. intros y [a [b [Ha [Hab ->]]]]. destruct (Rle_lt_dec (RInt F a b) (v - e)) as [L|L]; [exact L|]. exfalso. apply N. exists a, b. auto. }
  apply (Filter_prod _ _ _ (fun a => 0 < a /\ a < a0) (fun b => b0 < b)).
  - exists (mkposreal _ A1). intros y Hy Hy0. split; [exact Hy0|]. change (Rabs (y - 0) < a0) in Hy. rewrite Rminus_0_r, Rabs_right in Hy by lra. exact Hy.
  - exists b0. auto.
  - intros a b [K1 K2] K3. exists (RInt F a b). cbn [fst snd]. split; [apply (RInt_correct (V := R_CompleteNormedModule)); apply Ex; lra|]. apply He. change (Rabs (RInt F a b - v) < e).
    pose proof (RInt_incl_le F a b a0 b0 Hp HC K1 ltac:(lra) A2 ltac:(lra)) as M. assert (RInt F a b <= v). { apply Ub. exists a, b. repeat split; lra. } rewrite Rabs_left1 by lra. lra.
Qed.
Lemma Ag_ge0 cp h g : 0 <= Ag cp h g.
Proof. unfold Ag. pose proof PI_RGT_0. apply RInt_ge_0; [lra|apply ex_pay|]. intros. unfold pay. apply Rmax_r. Qed.
Lemma Ag_bd cp h g : Rabs cp = 1 -> 0 <= h -> Ag cp h g <= PI * (h + Rabs g).
Proof.
  intros Hc Hh. pose proof PI_RGT_0. unfold Ag. apply Rle_trans with (RInt (fun _ => h + Rabs g) 0 PI).
  - apply RInt_le; [lra|apply ex_pay|apply (ex_RInt_const (V := R_NormedModule))|]. intros t _. unfold pay. apply Rmax_lub; [|pose proof (Rabs_pos g); lra].
    eapply Rle_trans; [apply Rle_abs|]. rewrite Rabs_mult, Hc, Rmult_1_l. eapply Rle_trans; [apply Rabs_triang|]. rewrite Rabs_mult, (Rabs_right h) by lra. assert (Rabs (cos t) <= 1) by (apply Rabs_le; pose proof (COS_bound t); lra). nra.
  - rewrite RInt_const. change ((PI - 0) * (h + Rabs g) <= PI * (h + Rabs g)). right. ring.
Qed.
Section X.
Variables (rho lam s k u : R).
Hypothesis (Hr : rho ^ 2 < 1) (Hs : 0 < s).
Lemma h_bd r : 0 <= r -> nq_h rho s u 0 r <= 2 * exp (s ^ 2 / 2 + u ^ 2 / 8) * exp (r / 8).
Proof.
  intros H0. unfold nq_h. assert (R1 : sqrt (1 - rho ^ 2) <= 1) by (apply Rle_trans with (sqrt 1); [apply sqrt_le_1_alt; nra|rewrite sqrt_1; lra]).
  assert (R2 : sqrt (2 * cosh (s * sqrt (u ^ 2 + 0 + r)) - 2 * cosh (s * u)) <= 2 * exp (s ^ 2 / 2 + u ^ 2 / 8) * exp (r / 8)).
  { replace (2 * exp (s ^ 2 / 2 + u ^ 2 / 8) * exp (r / 8)) with (sqrt ((2 * exp (s ^ 2 / 2 + u ^ 2 / 8) * exp (r / 8)) ^ 2)).
    2:{ apply sqrt_pow2. pose proof (exp_pos (s ^ 2 / 2 + u ^ 2 / 8)). pose proof (exp_pos (r / 8)). nra. }
    apply sqrt_le_1_alt. set (w := sqrt (u ^ 2 + 0 + r)). assert (W2 : w * w = u ^ 2 + r) by (unfold w; rewrite sqrt_sqrt by nra; ring). assert (W0 : 0 <= w) by apply sqrt_pos.
    replace ((2 * exp (s ^ 2 / 2 + u ^ 2 / 8) * exp (r / 8)) ^ 2) with (4 * exp (s ^ 2 + (u ^ 2 + r) / 4)).
    2:{ replace (s ^ 2 + (u ^ 2 + r) / 4) with ((s ^ 2 / 2 + u ^ 2 / 8) + (s ^ 2 / 2 + u ^ 2 / 8) + (r / 8 + r / 8)) by field. rewrite !exp_plus. ring. }
    pose proof (cosh_ge1 (s * u)). assert (B1 : exp (s * w) <= exp (s ^ 2 + (u ^ 2 + r) / 4)) by (apply exp_le; assert (0 <= (s - w / 2) ^ 2) by apply pow2_ge_0; nra).
    assert (B2 : exp (- (s * w)) <= exp (s * w)) by (apply exp_le; assert (0 <= s * w) by (apply Rmult_le_pos; lra); lra).
    set (cc := cosh (s * u)) in *. pose proof (exp_pos (s ^ 2 + (u ^ 2 + r) / 4)). unfold cosh. lra. }
  pose proof (sqrt_pos (1 - rho ^ 2)). pose proof (sqrt_pos (2 * cosh (s * sqrt (u ^ 2 + 0 + r)) - 2 * cosh (s * u))). nra.
Qed.
Lemma rad_exists cp g c : cp = 1 \/ cp = - (1) -> 0 <= c -> exists v, half_line (fun v => exp (- v / 2) / (2 * PI) * Ag cp (nq_h rho s u 0 (c + v)) g) v.
Proof.
  intros Hcp Hc. assert (Acp : Rabs cp = 1) by (destruct Hcp as [->| ->]; [apply Rabs_R1|rewrite Rabs_Ropp; apply Rabs_R1]). pose proof PI_RGT_0 as HP.
  set (M := 2 * exp (s ^ 2 / 2 + u ^ 2 / 8) * exp (c / 8) + Rabs g). assert (M0 : 0 <= M). { unfold M. pose proof (Rabs_pos g). pose proof (exp_pos (s ^ 2 / 2 + u ^ 2 / 8)). pose proof (exp_pos (c / 8)). nra. }
  apply (half_exists _ M (/ 4) ltac:(lra)).
  - intros x Hx. apply Rmult_le_pos; [|apply Ag_ge0]. left. apply Rdiv_lt_0_compat; [apply exp_pos|lra].
  - intros x Hx. apply (continuous_mult (fun v => exp (- v / 2) / (2 * PI)) (fun v => Ag cp (nq_h rho s u 0 (c + v)) g)).
    + apply (ex_derive_continuous (K := R_AbsRing) (V := R_NormedModule)). auto_derive. exact I.
    + apply (continuous_comp (fun v => nq_h rho s u 0 (c + v)) (fun h => Ag cp h g)); [|apply Ag_cont; exact Acp].
      apply (continuous_comp (fun v => c + v) (fun r => nq_h rho s u 0 r)); [|apply H_cont]. apply (continuous_plus (fun _ => c) (fun v => v)); [apply continuous_const|apply continuous_id].
  - intros x Hx. assert (H0 : 0 <= nq_h rho s u 0 (c + x)) by apply H_ge0. pose proof (Ag_bd cp _ g Acp H0) as B. pose proof (h_bd (c + x) ltac:(lra)) as B2.
    assert (B3 : Ag cp (nq_h rho s u 0 (c + x)) g <= PI * (M * exp (x / 8))).
    { eapply Rle_trans; [exact B|]. apply Rmult_le_compat_l; [lra|]. unfold M. replace ((c + x) / 8) with (c / 8 + x / 8) in B2 by field. rewrite (exp_plus (c / 8)) in B2. assert (1 <= exp (x / 8)) by (rewrite <- exp_0 at 1; apply exp_le; lra). pose proof (Rabs_pos g). assert (Rabs g * 1 <= Rabs g * exp (x / 8)) by (apply Rmult_le_compat_l; lra). lra. }
    apply Rle_trans with (exp (- x / 2) / (2 * PI) * (PI * (M * exp (x / 8)))).
    + apply Rmult_le_compat_l; [left; apply Rdiv_lt_0_compat; [apply exp_pos|lra]|exact B3].
    + replace (exp (- x / 2) / (2 * PI) * (PI * (M * exp (x / 8)))) with (M * (/ 2 * (exp (- x / 2) * exp (x / 8)))) by (field; lra). apply Rmult_le_compat_l; [exact M0|]. rewrite <- exp_plus.
      assert (exp (- x / 2 + x / 8) <= exp (- / 4 * x)) by (apply exp_le; lra). pose proof (exp_pos (- x / 2 + x / 8)). lra.
Qed.
Lemma zv_exists : exists J, half_line (fun v => exp (- v / 2) / (2 * PI) * nq_zv (nq_g rho lam s k u) (nq_h rho s u (nq_v0 rho lam s k u) v)) J.
Proof.
  set (g := nq_g rho lam s k u). set (v0 := nq_v0 rho lam s k u). assert (V0 : 0 <= v0) by (now apply v0_ge0).
  assert (exists cp, (cp = 1 \/ cp = - (1)) /\ cp * g <= 0) as [cp [Hcp Hg]]. { destruct (Rle_lt_dec g 0); [exists 1|exists (- (1))]; split; [now left|lra|now right|lra]. }
  destruct (rad_exists cp g v0 Hcp V0) as [J HJ]. exists J. eapply half_line_ext; [|exact HJ]. intros v Hv. cbv beta. f_equal.
  rewrite (Ag_in cp _ g Hcp).
  - rewrite Rmax_right by exact Hg. rewrite Rmult_0_r, Rplus_0_r. f_equal. symmetry. unfold v0. apply (H_shift rho lam s k u).
  - apply (H_pos rho s u Hr Hs). lra.
  - pose proof (H_v0 rho lam s k u Hr Hs) as E. fold g v0 in E. rewrite <- E. apply (H_mono rho s u Hs); lra.
Qed.
End X.
Lemma plane_exists p lam T K cp z2 : 0 < T -> 0 < b_vov p -> 0 < b_sigma p -> b_rho p ^ 2 < 1 -> cp = 1 \/ cp = - (1) ->
  exists a, plane_expect (fun x y => Rmax (cp * (fst (nmc_prices p lam T x y z2) - K)) 0) a.
Proof.
  intros HT Hv Hsg Hr Hcp. assert (Hs : 0 < nmc_std p T). { rewrite nmc_std_eq by lra. apply Rmult_lt_0_compat; [exact Hv|now apply sqrt_lt_R0]. }
  destruct (zv_exists (b_rho p) lam (nmc_std p T) (b_vov p / b_sigma p * K) (nmc_z lam (nmc_std p T) z2) Hr Hs) as [J HJ].
  eexists. apply (slice_expect p lam T K cp z2 J ltac:(lra) Hv Hsg Hr Hs Hcp HJ).
Qed.
(** the z rule is arbitrary; a one-node v rule that is exact at a one-node z rule *)
Lemma exact_rule_exists p lam T K z x : 0 < T -> 0 < b_vov p -> 0 < b_sigma p -> b_rho p ^ 2 < 1 -> 0 < x -> nq_target p lam T K z x <> 0 ->
  exists w, laguerre_exact [(x, w)] (nq_target p lam T K z).
Proof.
  intros HT Hv Hsg Hr Hx Hn. assert (Hs : 0 < nmc_std p T). { rewrite nmc_std_eq by lra. apply Rmult_lt_0_compat; [exact Hv|now apply sqrt_lt_R0]. }
  destruct (zv_exists (b_rho p) lam (nmc_std p T) (b_vov p / b_sigma p * K) (nq_u lam (nmc_std p T) z) Hr Hs) as [J HJ].
  exists (J / nq_target p lam T K z x). unfold laguerre_exact, rule_sum, lsum. cbn [map fold_right fst snd]. replace (J / nq_target p lam T K z x * nq_target p lam T K z x + 0) with J by (field; exact Hn).
  pose proof (half_line_dilate _ _ 2 ltac:(lra) HJ) as D. eapply half_line_ext; [|exact D]. intros y Hy. cbv beta. unfold nq_target. cbv zeta. replace (- (2 * y) / 2) with (- y) by field. pose proof PI_RGT_0. assert (0 < sqrt y) by now apply sqrt_lt_R0. field. split; lra.
Qed.
