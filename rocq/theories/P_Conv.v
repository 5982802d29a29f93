(** Gaussian convolution: expectations of Phi(a + bZ), shifted measures, half-space expectations in n dimensions. *)
From Coq Require Import Reals Lra Lia Psatz List.
From Coquelicot Require Import Coquelicot.
From Verif Require Import Base Gauss Sums Spec_Opt Spec_Expect P_Expect P_Gmom P_Qe P_KlLaw P_Sabr2.
Open Scope R_scope.

Lemma ge_le f g u v : gauss_expect f u -> gauss_expect g v -> (forall z, f z <= g z) -> u <= v.
Proof.
  intros [Fe Fl] [Ge Gl] H.
  assert (L : Rbar_le u v).
  { apply (is_lim_le_loc (fun b => RInt (fun z => f z * gauss_density z) (- b) b) (fun b => RInt (fun z => g z * gauss_density z) (- b) b) p_infty); [|exact Fl|exact Gl].
    exists 0. intros b Hb. apply RInt_le; [lra|apply Fe|apply Ge|].
    intros x _. apply Rmult_le_compat_r; [rewrite gauss_density_npdf; left; apply npdf_pos|apply H]. }
  exact L.
Qed.

Lemma cont_mult_npdf (f : R -> R) : (forall x, continuous f x) -> forall x, continuous (fun z => f z * npdf z) x.
Proof. intros H x. apply (continuous_mult (K := R_AbsRing)); [apply H|apply continuous_npdf]. Qed.

Lemma plus_mid (x y w : R) : 0 <= x -> 0 <= w -> y <= @plus R_AbelianGroup x (@plus R_AbelianGroup y w).
Proof. intros. unfold plus. cbn. lra. Qed.

Lemma ge_bounded_ex (f : R -> R) (M : R) : (forall x, continuous f x) -> (forall x, 0 <= f x <= M) -> exists v, gauss_expect f v.
Proof.
  intros C B.
  assert (Ex : forall a b, ex_RInt (fun z => f z * npdf z) a b) by (apply ex_RInt_cont_all, cont_mult_npdf, C).
  assert (M0 : 0 <= M) by (pose proof (B 0); lra).
  set (I := fun b => RInt (V := R_CompleteNormedModule) (fun z => f z * npdf z) (- b) b).
  assert (Ub : forall b, 0 <= b -> I b <= M).
  { intros b Hb. unfold I. apply Rle_trans with (RInt (V := R_CompleteNormedModule) (fun z => M * npdf z) (- b) b).
    - apply RInt_le; [lra|apply Ex|exact (ex_RInt_scal (V := R_NormedModule) npdf (- b) b M (ex_RInt_npdf _ _))|].
      intros x _. apply Rmult_le_compat_r; [left; apply npdf_pos|apply B].
    - assert (E : RInt (V := R_CompleteNormedModule) (fun z => M * npdf z) (- b) b = M * (Phi b - Phi (- b))).
      { apply is_RInt_unique. replace (M * (Phi b - Phi (- b))) with (minus (M * Phi b) (M * Phi (- b))) by (unfold minus, plus, opp; cbn; ring).
        apply (is_RInt_derive (fun z => M * Phi z) (fun z => M * npdf z)).
        - intros x _. apply (is_derive_scal Phi x M (npdf x)), is_derive_Phi.
        - intros x _. apply (continuous_mult (K := R_AbsRing) (fun _ => M) npdf); [apply continuous_const|apply continuous_npdf]. }
      rewrite E. pose proof (Phi_bounds b). pose proof (Phi_bounds (- b)). nra. }
  assert (Mo : forall a b, 0 <= a <= b -> I a <= I b).
  { intros a b Hab. unfold I.
    rewrite <- (RInt_Chasles (V := R_CompleteNormedModule) (fun z => f z * npdf z) (- b) (- a) b) by apply Ex.
    rewrite <- (RInt_Chasles (V := R_CompleteNormedModule) (fun z => f z * npdf z) (- a) a b) by apply Ex.
    assert (N : forall x, 0 <= f x * npdf x) by (intros x; apply Rmult_le_pos; [apply B|left; apply npdf_pos]).
    assert (P1 : 0 <= RInt (V := R_CompleteNormedModule) (fun z => f z * npdf z) (- b) (- a)) by (apply RInt_ge_0; [lra|apply Ex|intros; apply N]).
    assert (P2 : 0 <= RInt (V := R_CompleteNormedModule) (fun z => f z * npdf z) a b) by (apply RInt_ge_0; [lra|apply Ex|intros; apply N]).
    apply plus_mid; assumption. }
  destruct (completeness (fun x => exists b, 0 <= b /\ x = I b)) as [l [Hl1 Hl2]].
  { exists M. intros x [b [Hb ->]]. apply Ub, Hb. }
  { exists (I 0), 0. split; [lra|reflexivity]. }
  exists l. split; [intros b; apply (Ex (- b) b)|].
  apply is_lim_spec. intros eps. cbn.
  assert (Hx : exists b0, 0 <= b0 /\ l - eps < I b0).
  { apply Classical_Prop.NNPP. intros Hn.
    assert (l <= l - eps); [|destruct eps; cbn in *; lra].
    apply Hl2. intros x [b [Hb ->]]. apply Rnot_lt_le. intros Hlt. apply Hn. exists b. split; assumption. }
  destruct Hx as [b0 [Hb0 Hlt]]. exists b0. intros b Hb.
  assert (I b0 <= I b) by (apply Mo; lra). assert (I b <= l) by (apply Hl1; exists b; split; [lra|reflexivity]).
  change (Rabs (I b - l) < eps). apply Rabs_def1; lra.
Qed.

Lemma npdf_lin_expect (a b : R) : gauss_expect (fun z => npdf (a + b * z)) (npdf (a / sqrt (1 + b ^ 2)) / sqrt (1 + b ^ 2)).
Proof.
  assert (Hc : 0 < 1 + b ^ 2) by nra.
  destruct (Req_dec b 0) as [->|Hb].
  - apply (gauss_expect_ext (fun _ => npdf a)). { intros z. f_equal. ring. }
    replace (1 + 0 ^ 2) with 1 by ring. rewrite sqrt_1. replace (npdf (a / 1) / 1) with (npdf a); [apply gauss_expect_const|].
    unfold Rdiv. rewrite Rinv_1, !Rmult_1_r. reflexivity.
  - pose proof (gauss_quad_mgf (- (b ^ 2) / 2) (a / b) ltac:(nra)) as H.
    apply (gauss_expect_scal _ _ (/ sqrt (2 * PI))) in H.
    apply (gauss_expect_ext _ (fun z => npdf (a + b * z))) in H.
    + assert (E : npdf (a / sqrt (1 + b ^ 2)) / sqrt (1 + b ^ 2) = / sqrt (2 * PI) * exp (- b ^ 2 / 2 * (a / b) ^ 2 / (1 - 2 * (- b ^ 2 / 2)) - / 2 * ln (1 - 2 * (- b ^ 2 / 2)))).
      { replace (1 - 2 * (- b ^ 2 / 2)) with (1 + b ^ 2) by field. unfold npdf, gauss_density.
        unfold Rminus. rewrite exp_plus.
        replace (exp (- (/ 2 * ln (1 + b ^ 2)))) with (/ sqrt (1 + b ^ 2)).
        2:{ rewrite exp_Ropp. f_equal. rewrite <- Rpower_sqrt by exact Hc. unfold Rpower. reflexivity. }
        replace (- (a / sqrt (1 + b ^ 2) * (a / sqrt (1 + b ^ 2))) / 2) with (- b ^ 2 / 2 * (a / b) ^ 2 / (1 + b ^ 2)).
        2:{ assert (S2 : sqrt (1 + b ^ 2) * sqrt (1 + b ^ 2) = 1 + b ^ 2) by (apply sqrt_sqrt; lra).
            replace (a / sqrt (1 + b ^ 2) * (a / sqrt (1 + b ^ 2))) with (a * a / (sqrt (1 + b ^ 2) * sqrt (1 + b ^ 2))).
            2:{ field. apply Rgt_not_eq, sqrt_lt_R0, Hc. } rewrite S2. field. split; lra. }
        pose proof sqrt_2PI_pos. pose proof (sqrt_lt_R0 _ Hc). field. split; lra. }
      rewrite E. exact H.
    + intros z. unfold npdf, gauss_density.
      replace (- b ^ 2 / 2 * (a / b + z) ^ 2) with (- ((a + b * z) * (a + b * z)) / 2) by (field; exact Hb).
      pose proof sqrt_2PI_pos. field. lra.
Qed.

Lemma npdf_lip (x h : R) : Rabs (Phi (x + h) - Phi x - h * npdf x) <= h ^ 2.
Proof.
  (* second-order bound: |n'| <= 1 *)
  assert (Hn' : forall y, Rabs (- y * npdf y) <= 1).
  { intros y. unfold npdf, gauss_density. rewrite Rabs_mult, Rabs_Ropp.
    assert (0 < exp (- (y * y) / 2) / sqrt (2 * PI)) by (apply npdf_pos). rewrite (Rabs_pos_eq (exp _ / _)) by lra.
    assert (S1 : 1 <= sqrt (2 * PI)).
    { rewrite <- sqrt_1. apply sqrt_le_1_alt. pose proof PI2_1. lra. }
    assert (Hy : Rabs y * exp (- (y * y) / 2) <= 1).
    { assert (E1 : exp (y * y / 2) * exp (- (y * y) / 2) = 1) by (rewrite <- exp_plus; replace (y * y / 2 + - (y * y) / 2) with 0 by field; apply exp_0).
      assert (E2 : 1 + y * y / 2 <= exp (y * y / 2)) by apply exp_ineq1_le.
      assert (E3 : Rabs y <= 1 + y * y / 2). { rewrite <- (Rabs_pos_eq (y * y)) by nra. rewrite Rabs_mult. pose proof (Rabs_pos y). nra. }
      pose proof (exp_pos (- (y * y) / 2)). rewrite <- E1. apply Rmult_le_compat_r; lra. }
    apply Rmult_le_reg_r with (sqrt (2 * PI)); [lra|].
    replace (Rabs y * (exp (- (y * y) / 2) / sqrt (2 * PI)) * sqrt (2 * PI)) with (Rabs y * exp (- (y * y) / 2)); [lra|]. field. lra. }
  (* MVT twice *)
  destruct (MVT_gen Phi x (x + h) npdf) as [c [Hc E]].
  { intros y _. apply is_derive_Phi. }
  { intros y _. apply continuity_Phi. }
  replace (x + h - x) with h in E by ring. rewrite E.
  replace (npdf c * h - h * npdf x) with (h * (npdf c - npdf x)) by ring.
  destruct (MVT_gen npdf x c (fun y => - y * npdf y)) as [d [Hd E2]].
  { intros y _. apply is_derive_npdf. }
  { intros y _. apply continuity_pt_filterlim. apply (continuous_npdf y). }
  rewrite E2. rewrite (Rabs_mult h), (Rabs_mult (- d * npdf d)). replace (h ^ 2) with (Rabs h * (1 * Rabs h)).
  2:{ rewrite Rmult_1_l, <- Rabs_mult, Rabs_pos_eq by nra. ring. }
  apply Rmult_le_compat_l; [apply Rabs_pos|].
  apply Rmult_le_compat; try apply Rabs_pos.
  - apply Hn'.
  - unfold Rmin, Rmax in Hc. destruct (Rle_dec x (x + h)); unfold Rabs; repeat destruct Rcase_abs; lra.
Qed.

Lemma cont_lin_Phi (a b : R) : forall x, continuous (fun z => Phi (a + b * z)) x.
Proof. intros x. apply (continuous_comp (fun z => a + b * z) Phi); [|apply continuous_Phi].
  apply ex_derive_continuous_R. auto_derive. trivial. Qed.

Lemma ge_minus f g u v : gauss_expect f u -> gauss_expect g v -> gauss_expect (fun z => f z - g z) (u - v).
Proof.
  intros F G. apply (gauss_expect_scal _ _ (-1)) in G. pose proof (gauss_expect_plus _ _ _ _ F G) as H.
  replace (u + -1 * v) with (u - v) in H by ring. apply (gauss_expect_ext _ _ _) with (2 := H). intros z. ring.
Qed.

(** E[f(Z)] is unchanged by reflecting Z *)
Lemma ge_refl (f : R -> R) v : gauss_expect f v -> gauss_expect (fun z => f (- z)) v.
Proof.
  intros [Fe Fl]. split.
  - intros b. pose proof (Fe b) as E. apply ex_RInt_swap in E. 
    apply (ex_RInt_ext (V := R_NormedModule) (fun z => - (- (f (- z) * gauss_density (- z))))).
    { intros x _. rewrite Ropp_involutive. f_equal. rewrite !gauss_density_npdf. apply npdf_even. }
    apply (ex_RInt_opp (V := R_NormedModule) (fun z => - (f (- z) * gauss_density (- z)))).
    apply (ex_RInt_comp_opp (V := R_NormedModule) (fun z => f z * gauss_density z)). rewrite Ropp_involutive. exact E.
  - apply (is_lim_ext (fun b => RInt (fun z => f z * gauss_density z) (- b) b)); [|exact Fl].
    intros b. symmetry. apply is_RInt_unique.
    apply (is_RInt_ext (V := R_NormedModule) (fun z => - (- (f (- z) * gauss_density (- z))))).
    { intros x _. rewrite Ropp_involutive. f_equal. rewrite !gauss_density_npdf. apply npdf_even. }
    set (I := RInt (fun z => f z * gauss_density z) (- b) b).
    replace I with (opp (opp I)) by (unfold opp; cbn; ring).
    apply (is_RInt_opp (V := R_NormedModule) (fun z => - (f (- z) * gauss_density (- z)))).
    apply (is_RInt_comp_opp (V := R_NormedModule) (fun z => f z * gauss_density z)). rewrite Ropp_involutive.
    exact (is_RInt_swap (V := R_NormedModule) _ _ _ _ (RInt_correct (V := R_CompleteNormedModule) _ _ _ (Fe b))).
Qed.

Lemma conv_Phi (a b : R) : gauss_expect (fun z => Phi (a + b * z)) (Phi (a / sqrt (1 + b ^ 2))).
Proof.
  assert (Hex : forall a, exists v, gauss_expect (fun z => Phi (a + b * z)) v).
  { intros a'. apply (ge_bounded_ex _ 1). apply cont_lin_Phi. intros x. pose proof (Phi_bounds (a' + b * x)). lra. }
  assert (Hch : exists H, forall a, gauss_expect (fun z => Phi (a + b * z)) (H a)).
  { exists (fun a => Rbar.real (Lim (fun c => RInt (fun z => Phi (a + b * z) * gauss_density z) (- c) c) p_infty)).
    intros a'. destruct (Hex a') as [v Hv]. pose proof (is_lim_unique _ _ _ (proj2 Hv)) as E. rewrite E. exact Hv. }
  destruct Hch as [H HH]. set (c := sqrt (1 + b ^ 2)).
  assert (Hc : 0 < c) by (apply sqrt_lt_R0; nra).
  assert (D : forall x, is_derive H x (npdf (x / c) / c)).
  { intros x. apply is_derive_Reals. intros e He. exists (mkposreal e He). intros h Hh0 Hh. cbn in Hh.
    assert (B : Rabs (H (x + h) - H x - h * (npdf (x / c) / c)) <= h ^ 2).
    { pose proof (ge_minus _ _ _ _ (ge_minus _ _ _ _ (HH (x + h)) (HH x)) (gauss_expect_scal _ _ h (npdf_lin_expect x b))) as G.
      cbv beta in G. fold c in G.
      apply Rabs_le. split.
      - apply (ge_le (fun _ => - h ^ 2) _ _ _ (gauss_expect_const _) G). intros z.
        pose proof (npdf_lip (x + b * z) h) as N. replace (x + b * z + h) with (x + h + b * z) in N by ring. apply Rabs_le_between in N. lra.
      - apply (ge_le _ (fun _ => h ^ 2) _ _ G (gauss_expect_const _)). intros z.
        pose proof (npdf_lip (x + b * z) h) as N. replace (x + b * z + h) with (x + h + b * z) in N by ring. apply Rabs_le_between in N. lra. }
    replace ((H (x + h) - H x) / h - npdf (x / c) / c) with ((H (x + h) - H x - h * (npdf (x / c) / c)) / h) by (field; split; [lra|exact Hh0]).
    unfold Rdiv at 1. rewrite Rabs_mult, Rabs_inv.
    assert (0 < Rabs h) by (apply Rabs_pos_lt, Hh0).
    apply Rle_lt_trans with (h ^ 2 * / Rabs h). { apply Rmult_le_compat_r; [left; apply Rinv_0_lt_compat; lra|exact B]. }
    replace (h ^ 2) with (Rabs h * Rabs h) by (rewrite <- Rabs_mult, Rabs_pos_eq by nra; ring).
    replace (Rabs h * Rabs h * / Rabs h) with (Rabs h) by (field; lra). exact Hh. }
  assert (D2 : forall x, is_derive (fun x => Phi (x / c)) x (npdf (x / c) / c)).
  { intros x. apply is_derive_eq with (/ c * npdf (x / c)); [|field; lra].
    apply (is_derive_Phi_comp (fun y => y / c) x (/ c)). auto_derive; [trivial|Req; field; lra]. }
  assert (H0 : H 0 = / 2).
  { pose proof (HH 0) as A. pose proof (ge_refl _ _ A) as A'. pose proof (gauss_expect_plus _ _ _ _ A A') as S.
    assert (S' : gauss_expect (fun z => Phi (0 + b * z) + Phi (0 + b * - z)) 1).
    { apply (gauss_expect_ext (fun _ => 1)); [|apply gauss_expect_const]. intros z.
      replace (0 + b * - z) with (- (0 + b * z)) by ring. rewrite Phi_sym. reflexivity. }
    pose proof (gauss_expect_unique _ _ _ S S'). lra. }
  assert (E : H a = Phi (a / c)).
  { assert (DD : forall x, is_derive (fun x => H x - Phi (x / c)) x 0).
    { intros x. apply is_derive_eq with (npdf (x / c) / c - npdf (x / c) / c); [|ring].
      apply (is_derive_minus (V := R_NormedModule) H (fun x => Phi (x / c))); [apply D|apply D2]. }
    destruct (MVT_gen (fun x => H x - Phi (x / c)) 0 a (fun _ => 0)) as [? [_ Em]].
    { intros; apply DD. }
    { intros y _. apply continuity_pt_filterlim. apply (ex_derive_continuous_R (fun x => H x - Phi (x / c))). eexists. apply DD. }
    replace (0 / c) with 0 in Em by (field; lra). rewrite Phi_0, H0 in Em. lra. }
  rewrite <- E. apply HH.
Qed.

(** change of measure: multiplying by exp(alpha z - alpha^2/2) shifts Z by alpha *)
Lemma ge_shift (f : R -> R) (al v : R) : (forall x, continuous f x) -> (forall x, 0 <= f x) ->
  gauss_expect (fun z => f (z + al)) v -> gauss_expect (fun z => exp (al * z - al * al / 2) * f z) v.
Proof.
  intros C N [Ge Gl].
  assert (Cg : forall x, continuous (fun z => f (z + al) * npdf z) x).
  { apply cont_mult_npdf. intros x. apply (continuous_comp (fun z => z + al) f); [|apply C]. apply ex_derive_continuous_R. auto_derive. trivial. }
  assert (Ch : forall x, continuous (fun z => (exp (al * z - al * al / 2) * f z) * npdf z) x).
  { apply cont_mult_npdf. intros x. apply (continuous_mult (K := R_AbsRing) (fun z => exp (al * z - al * al / 2)) f); [|apply C]. apply ex_derive_continuous_R. auto_derive. trivial. }
  pose proof (ex_RInt_cont_all _ Cg) as Eg. pose proof (ex_RInt_cont_all _ Ch) as Eh.
  assert (Sh : forall b, RInt (V := R_CompleteNormedModule) (fun z => (exp (al * z - al * al / 2) * f z) * npdf z) (- b) b = RInt (V := R_CompleteNormedModule) (fun z => f (z + al) * npdf z) (- b - al) (b - al)).
  { intros b. pose proof (RInt_comp_lin (V := R_CompleteNormedModule) (fun z => f (z + al) * npdf z) 1 (- al) (- b) b (Eg _ _)) as W.
    replace (1 * - b + - al) with (- b - al) in W by ring. replace (1 * b + - al) with (b - al) in W by ring.
    rewrite <- W. apply (RInt_ext (V := R_CompleteNormedModule)).
    intros x _. unfold scal. cbn. unfold mult. cbn. rewrite (Rmult_comm (exp _)), Rmult_assoc, npdf_shift, Rmult_1_l.
    f_equal; f_equal; ring. }
  assert (Nn : forall x, 0 <= f (x + al) * npdf x) by (intros x; apply Rmult_le_pos; [apply N|left; apply npdf_pos]).
  assert (Mono : forall a1 b1 a2 b2, a2 <= a1 -> a1 <= b1 -> b1 <= b2 -> RInt (V := R_CompleteNormedModule) (fun z => f (z + al) * npdf z) a1 b1 <= RInt (V := R_CompleteNormedModule) (fun z => f (z + al) * npdf z) a2 b2).
  { intros. rewrite <- (RInt_Chasles (V := R_CompleteNormedModule) (fun z => f (z + al) * npdf z) a2 a1 b2) by apply Eg.
    rewrite <- (RInt_Chasles (V := R_CompleteNormedModule) (fun z => f (z + al) * npdf z) a1 b1 b2) by apply Eg.
    assert (P1 : 0 <= RInt (V := R_CompleteNormedModule) (fun z => f (z + al) * npdf z) a2 a1) by (apply RInt_ge_0; [lra|apply Eg|intros; apply Nn]).
    assert (P2 : 0 <= RInt (V := R_CompleteNormedModule) (fun z => f (z + al) * npdf z) b1 b2) by (apply RInt_ge_0; [lra|apply Eg|intros; apply Nn]).
    apply plus_mid; assumption. }
  split; [intros b; apply (Eh (- b) b)|].
  apply (is_lim_le_le_loc (fun b => RInt (V := R_CompleteNormedModule) (fun z => f (z + al) * npdf z) (- (b - Rabs al)) (b - Rabs al)) (fun b => RInt (V := R_CompleteNormedModule) (fun z => f (z + al) * npdf z) (- (b + Rabs al)) (b + Rabs al))).
  - exists (Rabs al). intros b Hb. change (fun z => exp (al * z - al * al / 2) * f z * gauss_density z) with (fun z => (exp (al * z - al * al / 2) * f z) * npdf z).
    rewrite (Sh b). pose proof (Rle_abs al). pose proof (Rle_abs (- al)) as Q. rewrite Rabs_Ropp in Q. split; apply Mono; lra.
  - apply (is_lim_comp (fun b => RInt (V := R_CompleteNormedModule) (fun z => f (z + al) * npdf z) (- b) b) (fun b => b - Rabs al) p_infty v p_infty); [exact Gl| |exists 0; intros; discriminate].
    apply (is_lim_ext (fun b => 1 * b - Rabs al)); [intros; ring|]. apply lim_affine_p. lra.
  - apply (is_lim_comp (fun b => RInt (V := R_CompleteNormedModule) (fun z => f (z + al) * npdf z) (- b) b) (fun b => b + Rabs al) p_infty v p_infty); [exact Gl| |exists 0; intros; discriminate].
    apply (is_lim_ext (fun b => 1 * b - - Rabs al)); [intros; ring|]. apply lim_affine_p. lra.
Qed.

Lemma conv_exp_Phi (al a b : R) : gauss_expect (fun z => exp (al * z - al * al / 2) * Phi (a + b * z)) (Phi ((a + al * b) / sqrt (1 + b ^ 2))).
Proof.
  apply ge_shift; [apply cont_lin_Phi|intros x; left; apply Phi_pos|].
  apply (gauss_expect_ext (fun z => Phi ((a + al * b) + b * z))); [intros z; f_equal; ring|apply conv_Phi].
Qed.
