(** CEV Monte Carlo step: mixing over the first gamma draw. *)
From Coq Require Import Reals Lra Lia Psatz Arith List.
From Coquelicot Require Import Coquelicot.
From Verif Require Import Base Sums Spec_Opt Spec_Cev Spec_Dist Spec_Recip Spec_CevMc M_Opt M_Heston M_Cev P_Bsm P_Gamma P_Gamma2 P_Half P_Ncx2 P_Ncx3 P_Cev P_Cev5 P_Cev6 P_Cev7 P_Recip P_CevMc.
Open Scope R_scope.

Section N.
Variable Gam : R -> R.
Hypothesis HG : gamma_function Gam.
Local Notation np := (np Gam). Local Notation Hn := (Hn Gam).
Section X.
Variable X : R.
Hypothesis HX : 0 < X.
(** antiderivative of gamma_pdf a g * pois (X - g) j *)
Fixpoint Wb (j : nat) (a g : R) : R := match j with
  | O => exp (- X) * Rpower g a / Gam (a + 1)
  | S i => exp (- X) * Rpower g a / Gam (a + 1) * ((X - g) ^ S i / INR (fact (S i))) + Wb i (a + 1) g end.
Lemma Wb0_derive (a g : R) : 0 < a -> 0 < g -> is_derive (fun g => exp (- X) * Rpower g a / Gam (a + 1)) g (exp (- X) * Rpower g (a - 1) / Gam a).
Proof using HG.
  intros Ha Hg. pose proof (Gam_pos Gam HG a Ha). rewrite (Gam_succ Gam HG a Ha).
  apply (is_derive_ext (fun g => exp (- X) / (a * Gam a) * Rpower g a)); [intros t; Req; unfold Rdiv; ring|].
  eapply is_derive_eq; [apply is_derive_scal_R; now apply rpow_derive|]. field. lra.
Qed.
Lemma Wb_derive j : forall (a g : R), 0 < a -> 0 < g -> is_derive (Wb j a) g (gamma_pdf Gam a g * pois (X - g) j).
Proof using HG.
  assert (E : forall a g n, gamma_pdf Gam a g * pois (X - g) n = exp (- X) * Rpower g (a - 1) / Gam a * ((X - g) ^ n / INR (fact n))).
  { intros a g n. unfold gamma_pdf, pois. replace (- (X - g)) with (- X + g) by ring. rewrite exp_plus. replace (exp (- X)) with (exp (- X) * (exp (- g) * exp g)) at 2 by (rewrite <- exp_plus, Rplus_opp_l, exp_0; ring). unfold Rdiv. ring. }
  induction j; intros a g Ha Hg; rewrite E.
  - cbn [pow fact INR]. eapply is_derive_eq; [apply Wb0_derive; assumption|]. field. pose proof (Gam_pos Gam HG a Ha). lra.
  - pose proof (IHj (a + 1) g ltac:(lra) Hg) as D2. rewrite E in D2. replace (a + 1 - 1) with a in D2 by ring.
    assert (D3 : is_derive (fun g => (X - g) ^ S j / INR (fact (S j))) g (- ((X - g) ^ j / INR (fact j)))).
    { pose proof (fact_pos j). assert (0 < INR (S j)) by (apply lt_0_INR; lia). rewrite fact_simpl, mult_INR. auto_derive; [trivial|]. change (match j with O => 1 | S _ => INR j + 1 end) with (INR (S j)). cbn [pred]. Req. unfold Rminus. field. lra. }
    pose proof (Wb0_derive a g Ha Hg) as D1. pose proof (is_derive_mult_R _ _ _ _ _ D1 D3) as D4. cbv beta in D4.
    pose proof (is_derive_plus_R _ _ _ _ _ D4 D2) as D5. apply (is_derive_ext _ (Wb (S j) a)) in D5; [|intros t; reflexivity].
    eapply is_derive_eq; [exact D5|]. ring.
Qed.
Lemma Wb_at j : forall a, 0 < a -> Wb j a X = exp (- X) * Rpower X (a + INR j) / Gam (a + INR j + 1).
Proof using.
  induction j; intros a Ha.
  - cbn [Wb INR]. rewrite Rplus_0_r. reflexivity.
  - cbn [Wb]. rewrite IHj by lra. replace (X - X) with 0 by ring. rewrite pow_i by lia. replace (a + 1 + INR j) with (a + INR (S j)) by (rewrite S_INR; ring). unfold Rdiv. ring.
Qed.
Lemma Wb_np j a : 0 < a -> Wb j a X = np (a + INR j + 1) 0 X.
Proof using HG HX.
  intros Ha. pose proof (pos_INR j). rewrite Wb_at, (np_0 Gam HG) by lra. unfold gamma_pdf. replace (a + INR j + 1 - 1) with (a + INR j) by ring. unfold Rdiv. ring.
Qed.
Lemma Wb_lim0 j : forall a, 0 < a -> filterlim (Wb j a) (at_right 0) (locally 0).
Proof using.
  induction j; intros a Ha.
  - apply (filterlim_ext (fun g => exp (- X) / Gam (a + 1) * Rpower g a)); [intros g; cbn [Wb]; unfold Rdiv; ring|]. apply lim_scal_at0. now apply pow_lim0.
  - cut (filterlim (Wb (S j) a) (at_right 0) (locally (0 + 0))); [now rewrite Rplus_0_r|]. cbn [Wb]. apply (lim_plus_at0 (fun g => exp (- X) * Rpower g a / Gam (a + 1) * ((X - g) ^ S j / INR (fact (S j)))) (Wb j (a + 1))); [|apply IHj; lra].
    apply (filterlim_ext (fun g => Rpower g a * (exp (- X) / Gam (a + 1) * ((X - g) ^ S j / INR (fact (S j)))))); [intros g; unfold Rdiv; ring|].
    replace 0 with (0 * (exp (- X) / Gam (a + 1) * ((X - 0) ^ S j / INR (fact (S j))))) at 2 by ring.
    apply lim_mult_R; [typeclasses eauto|now apply pow_lim0|]. apply (at_right_cont (fun g => exp (- X) / Gam (a + 1) * ((X - g) ^ S j / INR (fact (S j))))).
    apply (ex_derive_continuous (K := R_AbsRing) (V := R_NormedModule)). set (c := exp (- X) / Gam (a + 1)). clearbody c. set (d := INR (fact (S j))). clearbody d. auto_derive. trivial.
Qed.
Variable a : R.
Hypothesis Ha : 0 < a.
(** antiderivative of gamma_pdf a g * ptail j (X - g) *)
Fixpoint Vb (j : nat) (g : R) : R := match j with O => Hn a 0 g | S i => Vb i g - Wb i a g end.
Lemma Vb_derive j (g : R) : 0 < g -> is_derive (Vb j) g (gamma_pdf Gam a g * ptail j (X - g)).
Proof using HG Ha.
  intros Hg. induction j.
  - cbn [ptail]. eapply is_derive_eq; [apply (proj1 (Hn_0 Gam HG a Ha)); exact Hg|]. ring.
  - eapply is_derive_eq; [apply (is_derive_minus_R (Vb j) (Wb j a)); [exact IHj|apply Wb_derive; assumption]|]. cbn [ptail]. ring.
Qed.
Lemma Vb_at j : Vb j X = Hn (a + INR j) 0 X.
Proof using HG HX Ha.
  induction j; [cbn [Vb INR]; now rewrite Rplus_0_r|]. cbn [Vb]. rewrite IHj, Wb_np by exact Ha. pose proof (pos_INR j).
  rewrite <- (Hn_step Gam HG (a + INR j) 0 X) by lra. rewrite S_INR. replace (a + (INR j + 1)) with (a + INR j + 1) by ring. ring.
Qed.
Lemma Vb_lim0 j : filterlim (Vb j) (at_right 0) (locally 0).
Proof using HG Ha.
  induction j; [now apply (Hn_lim0 Gam HG)|]. cut (filterlim (Vb (S j)) (at_right 0) (locally (0 + -0))); [now replace (0 + -0) with 0 by ring|]. cbn [Vb].
  apply (lim_plus_at0 (Vb j) (fun g => - Wb j a g)); [exact IHj|]. apply (filterlim_comp _ _ _ (Wb j a) Ropp _ (locally 0)); [now apply Wb_lim0|exact (filterlim_opp (0 : R_NormedModule))].
Qed.
Lemma gpdf_nonneg g : 0 < g -> 0 <= gamma_pdf Gam a g.
Proof using HG Ha. intros Hg. rewrite <- (np_0 Gam HG) by assumption. left. apply (np_pos Gam HG); lra. Qed.
Lemma Vb_small j d : 0 < d -> d <= X -> 0 <= Vb j d <= Hn a 0 d.
Proof using HG HX Ha.
  intros Hd HdX.
  assert (L : forall f df : R -> R, (forall x, 0 < x -> is_derive f x (df x)) -> (forall x, 0 < x -> x <= X -> 0 <= df x) -> filterlim f (at_right 0) (locally 0) -> 0 <= f d).
  { intros f df D P F. apply (filterlim_le (F := at_right 0) f (fun _ => f d) (Finite 0) (Finite (f d))); [|exact F|apply filterlim_const].
    exists (mkposreal d Hd). intros x Hx Hx0. unfold ball in Hx; cbn in Hx. unfold AbsRing_ball, abs, minus, plus, opp in Hx; cbn in Hx. rewrite Rabs_right in Hx by lra.
    apply (nondecreasing_on f df x d); [lra|intros; apply D; lra|intros; apply P; lra]. }
  split.
  - apply (L (Vb j) (fun g => gamma_pdf Gam a g * ptail j (X - g))); [intros; now apply Vb_derive| |apply Vb_lim0].
    intros x Hx HxX. apply Rmult_le_pos; [now apply gpdf_nonneg|apply ptail_pos; lra].
  - assert (0 <= Hn a 0 d - Vb j d); [|lra].
    apply (L (fun g => Hn a 0 g - Vb j g) (fun g => gamma_pdf Gam a g - gamma_pdf Gam a g * ptail j (X - g))).
    + intros x Hx. apply is_derive_minus_R; [apply (proj1 (Hn_0 Gam HG a Ha)); exact Hx|now apply Vb_derive].
    + intros x Hx HxX. pose proof (gpdf_nonneg x Hx). pose proof (ptail_le1 j (X - x) ltac:(lra)). nra.
    + cut (filterlim (fun g => Hn a 0 g - Vb j g) (at_right 0) (locally (0 + -0))); [now replace (0 + -0) with 0 by ring|].
      apply (lim_plus_at0 (Hn a 0) (fun g => - Vb j g)); [now apply (Hn_lim0 Gam HG)|]. apply (filterlim_comp _ _ _ (Vb j) Ropp _ (locally 0)); [apply Vb_lim0|exact (filterlim_opp (0 : R_NormedModule))].
Qed.
Variable y : R.
Hypothesis Hy : 0 < y.
(** a version of Hn 1 l y defined and smooth for every l *)
Definition Ht (l : R) : R := Hn 1 0 y - RInt (fun s => np 2 s y) 0 l.
Lemma Ht_eq l : 0 <= l -> Ht l = Hn 1 l y.
Proof using HG Hy. intros Hl. unfold Ht. pose proof (Hn_int Gam HG 1 y 0 l ltac:(lra) Hy ltac:(lra) Hl) as E. replace (1 + 1) with 2 in E by ring. lra. Qed.
Lemma Ht_cont (l : R) : continuous Ht l.
Proof using HG Hy.
  apply (ex_derive_continuous (K := R_AbsRing) (V := R_NormedModule)). exists (0 - np 2 l y). apply is_derive_minus_R; [apply is_derive_const_R|].
  apply (is_derive_RInt (V := R_NormedModule) (fun s => np 2 s y) (fun l => RInt (fun s => np 2 s y) 0 l) 0 l).
  - apply filter_forall. intros b. apply (RInt_correct (V := R_CompleteNormedModule)). apply (np_int Gam HG); lra.
  - apply (ex_derive_continuous (K := R_AbsRing) (V := R_NormedModule)). eexists. apply (np_dl Gam HG); lra.
Qed.
Let w (g : R) : R := gamma_pdf Gam a g * (1 - Ht (X - g)).
Lemma w_cont (g : R) : 0 < g -> continuous w g.
Proof using HG Hy.
  intros Hg. apply (continuous_mult (gamma_pdf Gam a) (fun g => 1 - Ht (X - g))); [now apply gpdf_cont|].
  apply (continuous_minus (V := R_NormedModule) (fun _ => 1) (fun g => Ht (X - g))); [apply continuous_const|].
  apply (continuous_comp (fun g => X - g) Ht); [|apply Ht_cont]. apply (continuous_minus (V := R_NormedModule) (fun _ => X) (fun g => g)); [apply continuous_const|apply continuous_id].
Qed.
Lemma w_int d e : 0 < d -> 0 < e -> ex_RInt w d e.
Proof using HG Hy.
  intros Hd He. apply (ex_RInt_continuous (V := R_CompleteNormedModule)). intros z Hz. apply w_cont. pose proof (Rmin_glb_lt d e 0 Hd He). lra.
Qed.
Lemma J_bounds d : 0 < d -> d <= X -> Hn a y X - Hn a 0 d <= RInt w d X <= Hn a y X.
Proof using HG HX Ha Hy.
  intros Hd HdX.
  assert (B : forall N, Hn a y X - Hn a 0 d - ptail N y <= RInt w d X <= Hn a y X + ptail N y).
  { intros N. set (f := fun g => gamma_pdf Gam a g * rsum N (fun j => pois y j * ptail j (X - g))).
    set (S := rsum N (fun j => pois y j * (Vb j X - Vb j d))).
    assert (pos_t : 0 <= ptail N y) by (apply ptail_pos; lra).
    assert (If : is_RInt f d X S).
    { unfold f, S. clear - HG Ha HX Hd HdX.
      apply (is_RInt_ext (fun g => rsum N (fun j => pois y j * (gamma_pdf Gam a g * ptail j (X - g))))).
      { intros x _. rewrite <- rsum_scal. apply rsum_ext. intros; ring. }
      induction N; [pose proof (is_RInt_const (V := R_NormedModule) d X 0) as Z; assert (E : scal (X - d) (0 : R_NormedModule) = (0 : R)) by (unfold scal; cbn; unfold mult; cbn; ring); rewrite E in Z; exact Z|].
      cbn [rsum]. apply (is_RInt_plus (V := R_NormedModule)); [exact IHN|]. apply (is_RInt_scal (V := R_NormedModule) (fun g => gamma_pdf Gam a g * ptail N (X - g)) d X (pois y N) (Vb N X - Vb N d)).
      apply (is_RInt_derive (V := R_CompleteNormedModule) (Vb N) (fun g => gamma_pdf Gam a g * ptail N (X - g))); intros x; rewrite Rmin_left, Rmax_right by lra; intros Hx; [apply Vb_derive; lra|].
      apply (continuous_mult (gamma_pdf Gam a) (fun g => ptail N (X - g))); [apply gpdf_cont; lra|]. apply (continuous_comp (fun g => X - g) (ptail N)); [apply (continuous_minus (V := R_NormedModule) (fun _ => X) (fun g => g)); [apply continuous_const|apply continuous_id]|].
      apply (ex_derive_continuous (K := R_AbsRing) (V := R_NormedModule)), ptail_ex. }
    assert (SX : rsum N (fun j => pois y j * Hn (a + INR j) 0 X) - Hn a 0 d <= S <= rsum N (fun j => pois y j * Hn (a + INR j) 0 X)).
    { assert (pt : rsum N (pois y) <= 1). { pose proof (ptail_sum N y). lra. }
      assert (h0 : 0 <= Hn a 0 d) by (apply (Hn_nonneg Gam HG); lra).
      unfold S. split.
      - apply Rle_trans with (rsum N (fun j => pois y j * Hn (a + INR j) 0 X + pois y j * - Hn a 0 d)).
        + rewrite rsum_plus. rewrite (rsum_ext N (fun j => pois y j * - Hn a 0 d) (fun j => - Hn a 0 d * pois y j)) by (intros; ring). rewrite rsum_scal. nra.
        + apply rsum_le. intros j _. rewrite Vb_at. pose proof (Vb_small j d Hd HdX). pose proof (pois_pos y j ltac:(lra)). nra.
      - apply rsum_le. intros j _. rewrite Vb_at. pose proof (Vb_small j d Hd HdX). pose proof (pois_pos y j ltac:(lra)). nra. }
    pose proof (Hn_mix_lo Gam HG a y N X Ha ltac:(lra) HX) as M1. pose proof (Hn_mix_up Gam HG a y N X Ha ltac:(lra) HX) as M2.
    assert (EI : RInt f d X = S) by exact (is_RInt_unique (V := R_CompleteNormedModule) f d X S If).
    assert (Ig : is_RInt (gamma_pdf Gam a) d X (Hn a 0 X - Hn a 0 d)).
    { apply (is_RInt_derive (V := R_CompleteNormedModule) (Hn a 0) (gamma_pdf Gam a)); intros x; rewrite Rmin_left, Rmax_right by lra; intros Hx; [apply (proj1 (Hn_0 Gam HG a Ha)); lra|apply gpdf_cont; lra]. }
    assert (Igs : is_RInt (fun g => f g + ptail N y * gamma_pdf Gam a g) d X (S + ptail N y * (Hn a 0 X - Hn a 0 d))).
    { apply (is_RInt_plus (V := R_NormedModule)); [exact If|]. exact (is_RInt_scal (V := R_NormedModule) _ d X (ptail N y) _ Ig). }
    assert (EG : RInt (fun g => f g + ptail N y * gamma_pdf Gam a g) d X = S + ptail N y * (Hn a 0 X - Hn a 0 d)) by exact (is_RInt_unique (V := R_CompleteNormedModule) _ d X _ Igs).
    assert (lo : RInt f d X <= RInt w d X).
    { apply RInt_le; [exact HdX|eexists; exact If|apply w_int; lra|]. intros x Hx. unfold f, w. apply Rmult_le_compat_l; [apply gpdf_nonneg; lra|]. rewrite Ht_eq by lra. apply (dual_lo Gam HG y Hy N (X - x)). lra. }
    assert (up : RInt w d X <= RInt (fun g => f g + ptail N y * gamma_pdf Gam a g) d X).
    { apply RInt_le; [exact HdX|apply w_int; lra|eexists; exact Igs|]. intros x Hx. unfold f, w. pose proof (gpdf_nonneg x ltac:(lra)). rewrite Ht_eq by lra. pose proof (dual_up Gam HG y Hy N (X - x) ltac:(lra)) as D. nra. }
    pose proof (Hn_le1 Gam HG a 0 X Ha ltac:(lra) HX). pose proof (Hn_nonneg Gam HG a 0 d Ha ltac:(lra) Hd).
    split; [lra|]. assert (ptail N y * (Hn a 0 X - Hn a 0 d) <= ptail N y) by nra. lra. }
  pose proof (ptail_lim y) as L. split.
  - 
    assert (Q : Hn a y X - Hn a 0 d - 0 <= RInt w d X); [|lra].
    apply (is_lim_seq_le (fun N => Hn a y X - Hn a 0 d - ptail N y) (fun _ => RInt w d X) (Hn a y X - Hn a 0 d - 0) (RInt w d X)); [intros n; apply B|apply is_lim_seq_minus'; [apply is_lim_seq_const|apply ptail_lim]|apply is_lim_seq_const].
  - assert (Q : RInt w d X <= Hn a y X + 0); [|lra].
    apply (is_lim_seq_le (fun _ => RInt w d X) (fun N => Hn a y X + ptail N y) (RInt w d X) (Hn a y X + 0)); [intros n; apply B|apply is_lim_seq_const|apply is_lim_seq_plus'; [apply is_lim_seq_const|apply ptail_lim]].
Qed.
Lemma mix_law u : (forall g, 0 < g -> g < X -> u g = gamma_pdf Gam a g * (1 - Hn 1 (X - g) y)) -> (forall g, X < g -> u g = 0) -> half_line u (Hn a y X).
Proof using HG HX Ha Hy.
  intros U1 U2. set (G := fun x => RInt w X x).
  assert (H : half_line u (G X - - Hn a y X)).
  { apply (half_below G w u X (- Hn a y X) HX).
    - intros x Hx. apply (is_derive_RInt (V := R_NormedModule) w G X x); [|now apply w_cont].
      apply (filter_imp (fun b => 0 < b)); [|apply (locally_gt (fun u => u) 0 x); [apply continuous_id|exact Hx]]. intros b Hb. apply (RInt_correct (V := R_CompleteNormedModule)). now apply w_int.
    - intros x Hx. now apply w_cont.
    - assert (E : forall x, 0 < x -> G x = - RInt w x X). { intros x Hx. unfold G. symmetry. exact (opp_RInt_swap (V := R_CompleteNormedModule) w x X (w_int x X Hx HX)). }
      apply (filterlim_le_le (F := at_right 0) (fun _ => - Hn a y X) G (fun x => - Hn a y X + Hn a 0 x) (Finite (- Hn a y X))).
      + exists (mkposreal X HX). intros x Hx Hx0. unfold ball in Hx; cbn in Hx. unfold AbsRing_ball, abs, minus, plus, opp in Hx; cbn in Hx. rewrite Rabs_right in Hx by lra.
        pose proof (J_bounds x Hx0 ltac:(lra)). rewrite E by exact Hx0. lra.
      + apply filterlim_const.
      + cut (filterlim (fun x => - Hn a y X + Hn a 0 x) (at_right 0) (locally (- Hn a y X + 0))); [now rewrite Rplus_0_r|]. apply lim_plus_at0; [apply filterlim_const|now apply (Hn_lim0 Gam HG)].
    - intros x Hx HxX. unfold w. rewrite Ht_eq by lra. now apply U1.
    - exact U2. }
  replace (Hn a y X) with (G X - - Hn a y X); [exact H|]. unfold G. rewrite (RInt_point (V := R_CompleteNormedModule)). unfold zero; cbn. ring.
Qed.
End X.
End N.
