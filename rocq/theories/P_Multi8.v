(** Change of measure for several normals; options on the maximum of two assets (Stulz). *)
From Coq Require Import Reals Lra Lia Psatz List Arith Bool FunctionalExtensionality.
From Coquelicot Require Import Coquelicot.
From Verif Require Import Base Gauss Sums Spec_Opt Spec_Expect Spec_Multi M_Opt M_Params M_Fd M_Sabr M_Multi Spec_Multi2 P_Black P_Bsm P_Norm P_Expect P_KlLaw P_Qe P_Sabr2 P_Conv P_Conv2 P_Multi P_Multi2 P_Multi3.
Import ListNotations.
Open Scope R_scope.

Lemma ex_RInt_sub (k : R -> R) : (forall b, ex_RInt (V := R_NormedModule) k (- b) b) -> forall u v, ex_RInt (V := R_NormedModule) k u v.
Proof.
  intros H u v. set (B := Rabs u + Rabs v).
  pose proof (Rle_abs u). pose proof (Rle_abs v). pose proof (Rle_abs (- u)) as Qu. pose proof (Rle_abs (- v)) as Qv. rewrite Rabs_Ropp in Qu, Qv.
  pose proof (Rabs_pos u). pose proof (Rabs_pos v).
  assert (A : forall x, - B <= x <= B -> ex_RInt (V := R_NormedModule) k (- B) x).
  { intros x Hx. apply (ex_RInt_Chasles_1 (V := R_CompleteNormedModule)) with B; [exact Hx|apply H]. }
  apply (ex_RInt_Chasles (V := R_NormedModule)) with (- B); [apply ex_RInt_swap|]; apply A; unfold B; lra.
Qed.
Lemma ge_shift' (f : R -> R) (al v : R) : (forall x, 0 <= f x) ->
  gauss_expect (fun z => f (z + al)) v -> gauss_expect (fun z => exp (al * z - al * al / 2) * f z) v.
Proof.
  intros N [Ge Gl].
  assert (Eg : forall u w, ex_RInt (V := R_NormedModule) (fun z => f (z + al) * npdf z) u w) by (apply ex_RInt_sub; intros b; apply Ge).
  assert (Eh : forall u w, ex_RInt (V := R_NormedModule) (fun z => (exp (al * z - al * al / 2) * f z) * npdf z) u w).
  { intros u w. pose proof (ex_RInt_comp_lin (V := R_NormedModule) (fun z => f (z + al) * npdf z) 1 (- al) u w (Eg _ _)) as W.
    eapply (ex_RInt_ext (V := R_NormedModule)); [|exact W]. intros x _. unfold scal. cbn. unfold mult. cbn.
    rewrite (Rmult_comm (exp _)), Rmult_assoc, npdf_shift, Rmult_1_l. f_equal; f_equal; ring. }
  assert (Sh : forall b, RInt (V := R_CompleteNormedModule) (fun z => (exp (al * z - al * al / 2) * f z) * npdf z) (- b) b = RInt (V := R_CompleteNormedModule) (fun z => f (z + al) * npdf z) (- b - al) (b - al)).
  { intros b. pose proof (RInt_comp_lin (V := R_CompleteNormedModule) (fun z => f (z + al) * npdf z) 1 (- al) (- b) b (Eg _ _)) as W.
    replace (1 * - b + - al) with (- b - al) in W by ring. replace (1 * b + - al) with (b - al) in W by ring.
    rewrite <- W. apply (RInt_ext (V := R_CompleteNormedModule)).
    intros x _. unfold scal. cbn. unfold mult. cbn. rewrite (Rmult_comm (exp _)), Rmult_assoc, npdf_shift, Rmult_1_l.
    f_equal; f_equal; ring. }
  assert (Nn : forall x, 0 <= f (x + al) * npdf x) by (intros x; apply Rmult_le_pos; [apply N|left; apply npdf_pos]).
  assert (Mono : forall a1 b1 a2 b2, a2 <= a1 -> a1 <= b1 -> b1 <= b2 -> RInt (V := R_CompleteNormedModule) (fun z => f (z + al) * npdf z) a1 b1 <= RInt (V := R_CompleteNormedModule) (fun z => f (z + al) * npdf z) a2 b2).
  { intros. rewrite <- (RInt_Chasles (V := R_CompleteNormedModule) (fun z => f (z + al) * npdf z) a2 a1 b2) by apply Eg.
    rewrite <- (RInt_Chasles (V := R_CompleteNormedModule) (fun z => f (z + al) * npdf z) a1 b1 b2) by apply Eg.
    assert (P1 : 0 <= RInt (V := R_CompleteNormedModule) (fun z => f (z + al) * npdf z) a2 a1) by (apply RInt_ge_0; [lra|apply Eg|intros; apply Nn]).
    assert (P2 : 0 <= RInt (V := R_CompleteNormedModule) (fun z => f (z + al) * npdf z) b1 b2) by (apply RInt_ge_0; [lra|apply Eg|intros; apply Nn]).
    apply plus_mid; assumption. }
  split; [intros b; apply (Eh (- b) b)|].
  apply (is_lim_le_le_loc (fun b => RInt (V := R_CompleteNormedModule) (fun z => f (z + al) * npdf z) (- (b - Rabs al)) (b - Rabs al)) (fun b => RInt (V := R_CompleteNormedModule) (fun z => f (z + al) * npdf z) (- (b + Rabs al)) (b + Rabs al))).
  - exists (Rabs al). intros b Hb. change (fun z => exp (al * z - al * al / 2) * f z * gauss_density z) with (fun z => (exp (al * z - al * al / 2) * f z) * npdf z).
    rewrite (Sh b). pose proof (Rle_abs al). pose proof (Rle_abs (- al)) as Q. rewrite Rabs_Ropp in Q. split; apply Mono; lra.
  - apply (is_lim_comp (fun b => RInt (V := R_CompleteNormedModule) (fun z => f (z + al) * npdf z) (- b) b) (fun b => b - Rabs al) p_infty v p_infty); [exact Gl| |exists 0; intros; discriminate].
    apply (is_lim_ext (fun b => 1 * b - Rabs al)); [intros; ring|]. apply lim_affine_p. lra.
  - apply (is_lim_comp (fun b => RInt (V := R_CompleteNormedModule) (fun z => f (z + al) * npdf z) (- b) b) (fun b => b + Rabs al) p_infty v p_infty); [exact Gl| |exists 0; intros; discriminate].
    apply (is_lim_ext (fun b => 1 * b - - Rabs al)); [intros; ring|]. apply lim_affine_p. lra.
Qed.
Lemma ge_nonneg f v : (forall x, 0 <= f x) -> gauss_expect f v -> 0 <= v.
Proof. intros H G. apply (ge_le (fun _ => 0) f 0 v (gauss_expect_const 0) G H). Qed.

(** E[exp(a.Z - |a|^2/2) F(Z)] = E[F(Z + a)] *)
Lemma normals_shift n a : forall F v, (forall z, 0 <= F z) -> normals_expect n (fun z => F (fun i => z i + a i)) v -> normals_expect n (fun z => tilt n a z * F z) v.
Proof.
  induction n as [|n IH]; intros F v HF H.
  - intros z. rewrite tilt_0, Rmult_1_l. rewrite <- (H (fun i => z i - a i)). f_equal. apply functional_extensionality. intros i. ring.
  - destruct H as [h [H1 H2]]. exists (fun z => tilt n a z * h (fun i => z i - a i)). split.
    + intros z. apply (gauss_expect_ext (fun y => tilt n a z * (exp (a n * y - a n * a n / 2) * F (Spec_Expect.upd z n y)))).
      2:{ apply (gauss_expect_scal _ _ (tilt n a z)). apply (ge_shift' (fun y => F (Spec_Expect.upd z n y)) (a n)); [intros; apply HF|].
          eapply gauss_expect_ext; [|apply (H1 (fun i => z i - a i))]. intros y. cbv beta. f_equal. apply functional_extensionality. intros i. unfold Spec_Expect.upd.
          destruct (Nat.eqb_spec i n) as [->|]; ring. }
      intros y. cbv beta. rewrite tilt_S. ring.
    + apply (IH (fun z => h (fun i => z i - a i))).
      * intros z. apply (ge_nonneg _ _ (fun y => HF _) (H1 (fun i => z i - a i))).
      * eapply normals_ext; [|exact H2]. intros z. cbv beta. f_equal. apply functional_extensionality. intros i. ring.
Qed.

(** changing the integrand at one point *)
Lemma ge_ext_pt (f g : R -> R) (c v : R) : (forall y, y <> c -> f y = g y) -> gauss_expect f v -> gauss_expect g v.
Proof.
  intros E [Fe Fl].
  assert (Ef : forall u w, ex_RInt (V := R_NormedModule) (fun z => f z * gauss_density z) u w) by (apply ex_RInt_sub; exact Fe).
  assert (P : forall u w, is_RInt (V := R_NormedModule) (fun z => g z * gauss_density z) u w (RInt (V := R_CompleteNormedModule) (fun z => f z * gauss_density z) u w)).
  { assert (P1 : forall u w, u <= w -> (w <= c \/ c <= u) -> is_RInt (V := R_NormedModule) (fun z => g z * gauss_density z) u w (RInt (V := R_CompleteNormedModule) (fun z => f z * gauss_density z) u w)).
    { intros u w Huw Hc. eapply (is_RInt_ext (V := R_NormedModule)); [|apply (RInt_correct (V := R_CompleteNormedModule)), Ef].
      intros x Hx. rewrite Rmin_left, Rmax_right in Hx by exact Huw. cbv beta. rewrite E by lra. reflexivity. }
    assert (P2 : forall u w, u <= w -> is_RInt (V := R_NormedModule) (fun z => g z * gauss_density z) u w (RInt (V := R_CompleteNormedModule) (fun z => f z * gauss_density z) u w)).
    { intros u w Huw. destruct (Rle_dec w c); [apply P1; [exact Huw|now left]|]. destruct (Rle_dec c u); [apply P1; [exact Huw|now right]|].
      rewrite <- (RInt_Chasles (V := R_CompleteNormedModule) (fun z => f z * gauss_density z) u c w) by apply Ef.
      apply (is_RInt_Chasles (V := R_NormedModule)) with c; apply P1; lra || (left; lra) || (right; lra). }
    intros u w. destruct (Rle_dec u w); [now apply P2|].
    rewrite <- (opp_RInt_swap (V := R_CompleteNormedModule)) by apply Ef. apply (is_RInt_swap (V := R_NormedModule)). apply P2. lra. }
  split; [intros b; eexists; apply P|].
  eapply is_lim_ext; [|exact Fl]. intros b. cbv beta. symmetry. apply (is_RInt_unique (V := R_CompleteNormedModule)), P.
Qed.
Lemma normals2_ae (b : nat -> R) (c : R) F G v : b 1%nat <> 0 -> (forall z, lin 2 b z <> c -> F z = G z) -> normals_expect 2 F v -> normals_expect 2 G v.
Proof.
  intros Hb E [h [H1 H2]]. exists h. split; [|exact H2]. intros z.
  apply (ge_ext_pt (fun y => F (Spec_Expect.upd z 1 y)) _ ((c - b 0%nat * z 0%nat) / b 1%nat)); [|apply H1].
  intros y Hy. apply E. unfold lin. cbn [rsum]. unfold Spec_Expect.upd. cbn [Nat.eqb]. intros A. apply Hy. rewrite <- A. field. exact Hb.
Qed.

Lemma bvn_gen bvn a b g h : bivariate_cdf bvn -> 0 < nrm2 2 a -> 0 < nrm2 2 b ->
  normals_expect 2 (fun z => ind_le (lin 2 a z) g * ind_le (lin 2 b z) h)
    (bvn (g / sqrt (nrm2 2 a)) (h / sqrt (nrm2 2 b)) (lin 2 a b / (sqrt (nrm2 2 a) * sqrt (nrm2 2 b)))).
Proof.
  intros HB Ha Hb. set (sa := sqrt (nrm2 2 a)). set (sb := sqrt (nrm2 2 b)).
  assert (Pa : 0 < sa) by (apply sqrt_lt_R0, Ha). assert (Pb : 0 < sb) by (apply sqrt_lt_R0, Hb).
  assert (Qa : sa * sa = nrm2 2 a) by (apply sqrt_sqrt; lra). assert (Qb : sb * sb = nrm2 2 b) by (apply sqrt_sqrt; lra).
  pose proof (HB (fun i => a i / sa) (fun i => b i / sb) (g / sa) (h / sb)) as H. cbv beta in H.
  rewrite (rsum_ext 2 (fun i => a i / sa * (a i / sa)) (fun i => / (sa * sa) * (a i * a i))) in H by (intros; field; lra).
  rewrite (rsum_ext 2 (fun i => b i / sb * (b i / sb)) (fun i => / (sb * sb) * (b i * b i))) in H by (intros; field; lra).
  rewrite (rsum_ext 2 (fun i => a i / sa * (b i / sb)) (fun i => / (sa * sb) * (a i * b i))) in H by (intros; field; lra).
  rewrite !rsum_scal in H. change (rsum 2 (fun i => a i * a i)) with (nrm2 2 a) in H. change (rsum 2 (fun i => b i * b i)) with (nrm2 2 b) in H.
  change (rsum 2 (fun k => a k * b k)) with (lin 2 a b) in H. rewrite <- Qa, <- Qb in H.
  replace (lin 2 a b / (sa * sb)) with (/ (sa * sb) * lin 2 a b) by (field; lra).
  eapply normals_ext; [|apply H; field; lra]. intros z. cbv beta.
  assert (W : forall (c : nat -> R) s t, 0 < s -> when_le (rsum 2 (fun i => c i / s * z i)) (t / s) = ind_le (lin 2 c z) t).
  { intros c s t Hs. rewrite (rsum_ext 2 _ (fun i => / s * (c i * z i))) by (intros; field; lra). rewrite rsum_scal. change (rsum 2 (fun k => c k * z k)) with (lin 2 c z).
    unfold when_le, ind_le. assert (P : 0 < / s) by (apply Rinv_0_lt_compat, Hs). unfold Rdiv. rewrite (Rmult_comm t).
    destruct (Rle_dec (/ s * lin 2 c z) (/ s * t)) as [L|L], (Rle_dec (lin 2 c z) t) as [M|M]; try reflexivity; exfalso.
    - apply M. apply Rmult_le_reg_l with (/ s); assumption.
    - apply L. apply Rmult_le_compat_l; lra. }
  rewrite !W by assumption. reflexivity.
Qed.
(** tilted version *)
Lemma lin_shift n b z a : lin n b (fun i => z i + a i) = lin n b z + lin n b a.
Proof. unfold lin. rewrite <- rsum_plus. apply rsum_ext. intros. ring. Qed.
Lemma bvn_tilt bvn e a b g h : bivariate_cdf bvn -> 0 < nrm2 2 a -> 0 < nrm2 2 b ->
  normals_expect 2 (fun z => tilt 2 e z * (ind_le (lin 2 a z) g * ind_le (lin 2 b z) h))
    (bvn ((g - lin 2 a e) / sqrt (nrm2 2 a)) ((h - lin 2 b e) / sqrt (nrm2 2 b)) (lin 2 a b / (sqrt (nrm2 2 a) * sqrt (nrm2 2 b)))).
Proof.
  intros HB Ha Hb. apply (normals_shift 2 e (fun z => ind_le (lin 2 a z) g * ind_le (lin 2 b z) h)).
  - intros z. unfold ind_le. destruct Rle_dec, Rle_dec; lra.
  - eapply normals_ext; [|apply (bvn_gen bvn a b (g - lin 2 a e) (h - lin 2 b e) HB Ha Hb)]. intros z. cbv beta. rewrite !lin_shift.
    unfold ind_le. destruct (Rle_dec (lin 2 a z) (g - lin 2 a e)), (Rle_dec (lin 2 a z + lin 2 a e) g), (Rle_dec (lin 2 b z) (h - lin 2 b e)), (Rle_dec (lin 2 b z + lin 2 b e) h); try lra.
Qed.

  Lemma sq_abs x : 0 < x -> sqrt (x * x) = x. Proof. intros. rewrite sqrt_square by lra. reflexivity. Qed.
  (** events as half planes *)
  Lemma tilt_le (f g : R) a b z : 0 < f -> 0 < g -> (f * tilt 2 a z <= g * tilt 2 b z <-> lin 2 a z - lin 2 b z <= ln (g / f) + (nrm2 2 a - nrm2 2 b) / 2).
  Proof.
    intros Hf Hg. assert (Hq : 0 < g / f) by (apply Rdiv_lt_0_compat; assumption). unfold tilt.
    set (x := lin 2 a z - nrm2 2 a / 2). set (y := lin 2 b z - nrm2 2 b / 2).
    assert (Q : f * exp x <= g * exp y <-> x - y <= ln (g / f)).
    { split; intros H.
      - destruct (Rle_lt_dec (x - y) (ln (g / f))) as [|L]; [assumption|exfalso]. apply exp_increasing in L. rewrite exp_ln in L by exact Hq.
        assert (g * exp y < f * exp x); [|lra]. replace x with (x - y + y) by ring. rewrite exp_plus. pose proof (exp_pos y).
        apply (Rmult_lt_compat_l f) in L; [|exact Hf]. replace (f * (g / f)) with g in L by (field; lra). rewrite <- Rmult_assoc. apply Rmult_lt_compat_r; assumption.
      - apply exp_le in H. rewrite exp_ln in H by exact Hq. replace x with (x - y + y) by ring. rewrite exp_plus. pose proof (exp_pos y).
        apply (Rmult_le_compat_l f) in H; [|lra]. replace (f * (g / f)) with g in H by (field; lra). rewrite <- Rmult_assoc. apply Rmult_le_compat_r; [lra|exact H]. }
    rewrite Q. unfold x, y. split; intros; lra.
  Qed.
  Lemma ind_iff (P : Prop) (x y x' y' : R) : (x <= y <-> P) -> (x' <= y' <-> P) -> ind_le x y = ind_le x' y'.
  Proof. intros H1 H2. unfold ind_le. destruct (Rle_dec x y), (Rle_dec x' y'); tauto || reflexivity. Qed.
Section Max2.
  Variables (f0 f1 s0 s1 rho K : R).
  Hypotheses (F0 : 0 < f0) (F1 : 0 < f1) (S0 : 0 < s0) (S1 : 0 < s1) (Hr : -1 < rho < 1) (HK : 0 < K).
  Variable bvn : R -> R -> R -> R.
  Hypothesis HB : bivariate_cdf bvn.
  Let A := av1 s0.
  Let C := av2 s1 rho.
  Let X z := f0 * tilt 2 A z.
  Let Y z := f1 * tilt 2 C z.
  Let spd := sqrt (s0 ^ 2 + s1 ^ 2 - 2 * rho * s0 * s1).
  Lemma spd_sq : spd * spd = s0 ^ 2 + s1 ^ 2 - 2 * rho * s0 * s1 /\ 0 < spd.
  Proof using S0 S1 Hr.
    assert (P : 0 < s0 ^ 2 + s1 ^ 2 - 2 * rho * s0 * s1).
    { replace (s0 ^ 2 + s1 ^ 2 - 2 * rho * s0 * s1) with ((s0 - rho * s1) ^ 2 + (1 - rho ^ 2) * s1 ^ 2) by ring.
      pose proof (pow2_ge_0 (s0 - rho * s1)). assert (0 < (1 - rho ^ 2) * s1 ^ 2) by (apply Rmult_lt_0_compat; [nra|apply pow_lt; exact S1]). lra. }
    split; [apply sqrt_sqrt; lra|apply sqrt_lt_R0, P].
  Qed.
  Lemma nA : nrm2 2 A = s0 * s0. Proof using. unfold nrm2, A. cbn [rsum av1]. ring. Qed.
  Lemma nC : nrm2 2 C = s1 * s1. Proof using Hr. unfold C. rewrite nrm_av2 by exact Hr. ring. Qed.
  Lemma dAC : lin 2 A C = rho * s0 * s1. Proof using. unfold lin, A, C. cbn [rsum av1 av2]. ring. Qed.
  Let D : nat -> R := fun i => C i - A i.
  Let E : nat -> R := fun i => A i - C i.
  Lemma lin_D x : lin 2 D x = lin 2 C x - lin 2 A x. Proof using. unfold lin, D. cbn [rsum]. ring. Qed.
  Lemma lin_E x : lin 2 E x = lin 2 A x - lin 2 C x. Proof using. unfold lin, E. cbn [rsum]. ring. Qed.
  Lemma nD : nrm2 2 D = spd * spd.
  Proof using S0 S1 Hr. rewrite (proj1 spd_sq). transitivity (nrm2 2 C + nrm2 2 A - 2 * lin 2 A C); [unfold nrm2, lin, D; cbn [rsum]; ring|]. rewrite nA, nC, dAC. ring. Qed.
  Lemma nE : nrm2 2 E = spd * spd.
  Proof using S0 S1 Hr. rewrite <- nD. unfold nrm2, E, D. cbn [rsum]. ring. Qed.
  Lemma evK (f : R) a z : 0 < f -> (f * tilt 2 a z <= K <-> lin 2 a z <= ln (K / f) + nrm2 2 a / 2).
  Proof using HK.
    intros Hf. pose proof (tilt_le f K a (fun _ => 0) z Hf HK) as H. rewrite tilt_z0, lin_z0, Rmult_1_r in H.
    assert (Z : nrm2 2 (fun _ => 0) = 0) by (unfold nrm2; cbn [rsum]; ring). rewrite Z in H. rewrite H. split; intros; lra.
  Qed.
  Let x0 := - ln f0 / s0 - / 2 * s0 + ln K / s0.
  Let x1 := - ln f1 / s1 - / 2 * s1 + ln K / s1.
  Let yy0 := ln (f0 / f1) / spd + / 2 * spd.
  Let yy1 := ln (1 / (f0 / f1)) / spd + / 2 * spd.
  Let rho0 := (rho * s1 - s0) / spd.
  Let rho1 := (rho * s0 - s1) / spd.
  Lemma stulz : normals_expect 2 (fun z => payoff 1 K (Rmax (X z) (Y z)))
    (f0 * (Phi yy0 - bvn x0 yy0 rho0) + f1 * (Phi yy1 - bvn x1 yy1 rho1) + K * bvn (x0 + s0) (x1 + s1) rho - K).
  Proof using F0 F1 S0 S1 Hr HK HB.
    destruct spd_sq as [Q2 Qp].
    set (gD := ln (f0 / f1) + (nrm2 2 C - nrm2 2 A) / 2). set (gE := ln (f1 / f0) + (nrm2 2 A - nrm2 2 C) / 2).
    set (gA := ln (K / f0) + nrm2 2 A / 2). set (gC := ln (K / f1) + nrm2 2 C / 2).
    assert (PA : 0 < nrm2 2 A) by (rewrite nA; nra). assert (PC : 0 < nrm2 2 C) by (rewrite nC; nra).
    assert (PD : 0 < nrm2 2 D) by (rewrite nD; nra). assert (PE : 0 < nrm2 2 E) by (rewrite nE; nra).
    assert (EvD : forall z, Y z <= X z <-> lin 2 D z <= gD) by (intros z; rewrite lin_D; apply tilt_le; assumption).
    assert (EvE : forall z, X z <= Y z <-> lin 2 E z <= gE) by (intros z; rewrite lin_E; apply tilt_le; assumption).
    assert (EvA : forall z, X z <= K <-> lin 2 A z <= gA) by (intros z; apply evK; assumption).
    assert (EvC : forall z, Y z <= K <-> lin 2 C z <= gC) by (intros z; apply evK; assumption).
    assert (L1 : ln (f0 / f1) = ln f0 - ln f1) by (unfold Rdiv; rewrite ln_mult, ln_Rinv by (try apply Rinv_0_lt_compat; assumption); ring).
    assert (L2 : ln (f1 / f0) = ln f1 - ln f0) by (unfold Rdiv; rewrite ln_mult, ln_Rinv by (try apply Rinv_0_lt_compat; assumption); ring).
    assert (L3 : ln (K / f0) = ln K - ln f0) by (unfold Rdiv; rewrite ln_mult, ln_Rinv by (try apply Rinv_0_lt_compat; assumption); ring).
    assert (L4 : ln (K / f1) = ln K - ln f1) by (unfold Rdiv; rewrite ln_mult, ln_Rinv by (try apply Rinv_0_lt_compat; assumption); ring).
    assert (L5 : ln (1 / (f0 / f1)) = ln f1 - ln f0) by (replace (1 / (f0 / f1)) with (f1 / f0) by (field; lra); exact L2).
    assert (T1 : normals_expect 2 (fun z => X z * ind_le (lin 2 D z) gD) (f0 * Phi yy0)).
    { replace (Phi yy0) with (Phi ((gD - lin 2 A D) / sqrt (nrm2 2 D))).
      - eapply normals_ext; [|apply (normals_scal 2 _ _ f0 (normals_half_space 2 A D gD PD))]. intros z. cbv beta. unfold X. ring.
      - f_equal. rewrite nD, sq_abs by exact Qp. rewrite (lin_comm 2 A D), lin_D, (lin_comm 2 C A), dAC. change (lin 2 A A) with (nrm2 2 A).
        unfold gD, yy0. rewrite nA, nC. replace (/ 2 * spd) with (spd * spd / 2 / spd) by (field; lra). rewrite Q2. field. lra. }
    assert (T2 : normals_expect 2 (fun z => X z * (ind_le (lin 2 A z) gA * ind_le (lin 2 D z) gD)) (f0 * bvn x0 yy0 rho0)).
    { replace (bvn x0 yy0 rho0) with (bvn ((gA - lin 2 A A) / sqrt (nrm2 2 A)) ((gD - lin 2 D A) / sqrt (nrm2 2 D)) (lin 2 A D / (sqrt (nrm2 2 A) * sqrt (nrm2 2 D)))).
      - eapply normals_ext; [|apply (normals_scal 2 _ _ f0 (bvn_tilt bvn A A D gA gD HB PA PD))]. intros z. cbv beta. unfold X. ring.
      - rewrite nD, nA, !sq_abs by assumption. rewrite (lin_comm 2 A D), lin_D, (lin_comm 2 C A), dAC. change (lin 2 A A) with (nrm2 2 A).
        unfold gA, gD, x0, yy0, rho0. rewrite nA, nC, L3. f_equal; [field; lra| |field; lra].
        replace (/ 2 * spd) with (spd * spd / 2 / spd) by (field; lra). rewrite Q2. field. lra. }
    assert (T3 : normals_expect 2 (fun z => Y z * ind_le (lin 2 E z) gE) (f1 * Phi yy1)).
    { replace (Phi yy1) with (Phi ((gE - lin 2 C E) / sqrt (nrm2 2 E))).
      - eapply normals_ext; [|apply (normals_scal 2 _ _ f1 (normals_half_space 2 C E gE PE))]. intros z. cbv beta. unfold Y. ring.
      - f_equal. rewrite nE, sq_abs by exact Qp. rewrite (lin_comm 2 C E), lin_E, dAC. change (lin 2 C C) with (nrm2 2 C).
        unfold gE, yy1. rewrite nA, nC, L5, L2. replace (/ 2 * spd) with (spd * spd / 2 / spd) by (field; lra). rewrite Q2. field. lra. }
    assert (T4 : normals_expect 2 (fun z => Y z * (ind_le (lin 2 C z) gC * ind_le (lin 2 E z) gE)) (f1 * bvn x1 yy1 rho1)).
    { replace (bvn x1 yy1 rho1) with (bvn ((gC - lin 2 C C) / sqrt (nrm2 2 C)) ((gE - lin 2 E C) / sqrt (nrm2 2 E)) (lin 2 C E / (sqrt (nrm2 2 C) * sqrt (nrm2 2 E)))).
      - eapply normals_ext; [|apply (normals_scal 2 _ _ f1 (bvn_tilt bvn C C E gC gE HB PC PE))]. intros z. cbv beta. unfold Y. ring.
      - rewrite nE, nC, !sq_abs by assumption. rewrite (lin_comm 2 C E), lin_E, dAC. change (lin 2 C C) with (nrm2 2 C).
        unfold gC, gE, x1, yy1, rho1. rewrite nA, nC, L4, L5, L2. f_equal; [field; lra| |field; lra].
        replace (/ 2 * spd) with (spd * spd / 2 / spd) by (field; lra). rewrite Q2. field. lra. }
    assert (T5 : normals_expect 2 (fun z => K * (ind_le (lin 2 A z) gA * ind_le (lin 2 C z) gC)) (K * bvn (x0 + s0) (x1 + s1) rho)).
    { apply normals_scal. pose proof (bvn_gen bvn A C gA gC HB PA PC) as H. rewrite nA, nC, !sq_abs, dAC in H by assumption.
      replace (gA / s0) with (x0 + s0) in H by (unfold gA, x0; rewrite nA, L3; field; lra).
      replace (gC / s1) with (x1 + s1) in H by (unfold gC, x1; rewrite nC, L4; field; lra).
      replace (rho * s0 * s1 / (s0 * s1)) with rho in H by (field; lra). exact H. }
    pose proof (normals_minus 2 _ _ _ _ (normals_plus 2 _ _ _ _ (normals_plus 2 _ _ _ _ (normals_minus 2 _ _ _ _ T1 T2) (normals_minus 2 _ _ _ _ T3 T4)) T5) (normals_const 2 K)) as H.
    replace (f0 * (Phi yy0 - bvn x0 yy0 rho0) + f1 * (Phi yy1 - bvn x1 yy1 rho1) + K * bvn (x0 + s0) (x1 + s1) rho - K)
      with (f0 * Phi yy0 - f0 * bvn x0 yy0 rho0 + (f1 * Phi yy1 - f1 * bvn x1 yy1 rho1) + K * bvn (x0 + s0) (x1 + s1) rho - K) by ring.
    apply (normals2_ae D gD _ _ _) with (3 := H).
    - unfold D, C, A. cbn [av1 av2]. rewrite Rminus_0_r. destruct (rho_c rho Hr) as [P _]. nra.
    - intros z Hz. cbv beta.
      pose proof (EvD z) as e1. pose proof (EvE z) as e2. pose proof (EvA z) as e3. pose proof (EvC z) as e4.
      assert (HzE : lin 2 E z <> gE). { rewrite lin_E. rewrite lin_D in Hz. unfold gE. unfold gD in Hz. rewrite L1 in Hz. rewrite L2. intros H0. apply Hz. lra. }
      assert (Hne : X z <> Y z). { intros H0. apply Hz. assert (Y z <= X z) by lra. apply e1 in H1. assert (X z <= Y z) by lra. apply e2 in H2.
        rewrite lin_D in *. rewrite lin_E in H2. unfold gE in H2. unfold gD in *. rewrite L1 in *. rewrite L2 in H2. lra. }
      unfold payoff, ind_le, Rmax.
      destruct (Rle_dec (lin 2 D z) gD) as [a1|a1], (Rle_dec (lin 2 E z) gE) as [a2|a2], (Rle_dec (lin 2 A z) gA) as [a3|a3], (Rle_dec (lin 2 C z) gC) as [a4|a4];
        try apply e1 in a1; try apply e2 in a2; try apply e3 in a3; try apply e4 in a4;
        try (assert (~ (Y z <= X z)) by tauto); try (assert (~ (X z <= Y z)) by tauto); try (assert (~ (X z <= K)) by tauto); try (assert (~ (Y z <= K)) by tauto);
        destruct (Rle_dec (X z) (Y z)); match goal with |- context [Rle_dec (1 * (?m - K)) 0] => destruct (Rle_dec (1 * (m - K)) 0) end; lra.
  Qed.
End Max2.

Lemma max2_exact bvn o cps K spot T cp : valid_spread o spot T -> eps <= spread_vol o * sqrt T -> 0 < K -> bivariate_cdf bvn -> call_or_put cp ->
  exists v, max2_price bvn o cps K spot T cp = Some (mk_df (sp_m o) T * v) /\
    normals_expect 2 (fun z => payoff cp K (Rmax (asset1 (mk_fwd (sp_m o) spot T 0%nat) (sp_s1 o) T z) (asset2 (mk_fwd (sp_m o) spot T 1%nat) (sp_s2 o) (sp_rho o) T z))) v.
Proof.
  intros V He HK HB Hcp. pose proof V as (S1 & S2 & Hr & Ht & P1 & P2).
  unfold max2_price. cbv zeta. set (f0 := mk_fwd (sp_m o) spot T 0%nat). set (f1 := mk_fwd (sp_m o) spot T 1%nat).
  assert (F0 : 0 < f0) by (apply mk_fwd_pos, P1). assert (F1 : 0 < f1) by (apply mk_fwd_pos, P2).
  set (os := mkSpr (sp_s1 o) (sp_s2 o) (sp_rho o) (mkMkt 0 (fun _ => 0) true)).
  assert (V' : valid_spread os (mk_fwd (sp_m o) spot T) T).
  { repeat split; cbn; try tauto; try lra; apply mk_fwd_pos; assumption. }
  pose proof (max2_mean os (mk_fwd (sp_m o) spot T) T V' He eq_refl) as HM. cbn [sp_s1 sp_s2 sp_rho os] in HM.
  assert (St : 0 < sqrt T) by (apply sqrt_lt_R0, Ht). assert (Sq : sqrt T * sqrt T = T) by (apply sqrt_sqrt; lra).
  pose proof (stulz f0 f1 (sp_s1 o * sqrt T) (sp_s2 o * sqrt T) (sp_rho o) K F0 F1 ltac:(apply Rmult_lt_0_compat; assumption) ltac:(apply Rmult_lt_0_compat; assumption) Hr HK bvn HB) as ST.
  assert (Ev : sqrt ((sp_s1 o * sqrt T) ^ 2 + (sp_s2 o * sqrt T) ^ 2 - 2 * sp_rho o * (sp_s1 o * sqrt T) * (sp_s2 o * sqrt T)) = sqrt (sp_s1 o ^ 2 + sp_s2 o ^ 2 - 2 * sp_rho o * sp_s1 o * sp_s2 o) * sqrt T).
  { replace ((sp_s1 o * sqrt T) ^ 2 + (sp_s2 o * sqrt T) ^ 2 - 2 * sp_rho o * (sp_s1 o * sqrt T) * (sp_s2 o * sqrt T)) with ((sp_s1 o ^ 2 + sp_s2 o ^ 2 - 2 * sp_rho o * sp_s1 o * sp_s2 o) * (sqrt T * sqrt T)) by ring.
    rewrite Sq. apply sqrt_mult_alt.
    replace (sp_s1 o ^ 2 + sp_s2 o ^ 2 - 2 * sp_rho o * sp_s1 o * sp_s2 o) with ((sp_s1 o - sp_rho o * sp_s2 o) ^ 2 + (1 - sp_rho o ^ 2) * sp_s2 o ^ 2) by ring.
    pose proof (pow2_ge_0 (sp_s1 o - sp_rho o * sp_s2 o)). assert (0 <= (1 - sp_rho o ^ 2) * sp_s2 o ^ 2) by (apply Rmult_le_pos; [nra|apply pow2_ge_0]). lra. }
  rewrite Ev in ST.
  assert (Pv : 0 < sqrt (sp_s1 o ^ 2 + sp_s2 o ^ 2 - 2 * sp_rho o * sp_s1 o * sp_s2 o)).
  { apply Rmult_lt_reg_r with (sqrt T); [exact St|]. rewrite Rmult_0_l. replace (sp_s1 o ^ 2 + sp_s2 o ^ 2 - 2 * sp_rho o * sp_s1 o * sp_s2 o) with (sp_s1 o ^ 2 - 2 * sp_rho o * sp_s1 o * sp_s2 o + sp_s2 o ^ 2) by ring.
    apply Rlt_le_trans with eps; [apply eps_pos|exact He]. }
  set (q := sqrt (sp_s1 o ^ 2 + sp_s2 o ^ 2 - 2 * sp_rho o * sp_s1 o * sp_s2 o)) in *.
  replace ((sp_rho o * (sp_s2 o * sqrt T) - sp_s1 o * sqrt T) / (q * sqrt T)) with ((sp_rho o * sp_s2 o - sp_s1 o) / q) in ST by (field; lra).
  replace ((sp_rho o * (sp_s1 o * sqrt T) - sp_s2 o * sqrt T) / (q * sqrt T)) with ((sp_rho o * sp_s1 o - sp_s2 o) / q) in ST by (field; lra).
  match type of ST with normals_expect 2 _ (?S - K) => set (tot := S) in *; match goal with |- context [Rlt_dec ?X K] => change X with tot end end.
  assert (ST' : normals_expect 2 (fun z => payoff 1 K (Rmax (asset1 f0 (sp_s1 o) T z) (asset2 f1 (sp_s2 o) (sp_rho o) T z))) (tot - K)).
  { eapply normals_ext; [|exact ST]. intros z. cbv beta. rewrite asset1_tilt, asset2_tilt by (lra || exact Hr). reflexivity. }
  clearbody tot. clear ST Ev.
  assert (Tp : 0 <= tot - K). { apply (normals_le 2 (fun _ => 0) _ 0 (tot - K)) with (3 := ST'); [|apply normals_const]. intros z. apply Rmax_r. }
  destruct (Rlt_dec tot K) as [L|_]; [lra|].
  destruct Hcp as [->| ->].
  - destruct (Rlt_dec 1 0); [lra|]. exists (tot - K). split; [reflexivity|exact ST'].
  - destruct (Rlt_dec (-1) 0); [|lra]. cbn [forallb]. destruct (Rlt_dec 0 (-1)); [lra|]. cbn [andb].
    eexists. split; [reflexivity|].
    set (par := kirk_price os 0 (mk_fwd (sp_m o) spot T) T 1 + f1).
    pose proof (normals_plus 2 _ _ _ _ ST' (normals_minus 2 _ _ _ _ (normals_const 2 K) HM)) as G.
    eapply normals_ext; [|exact G]. intros z. cbv beta. fold f0 f1. set (x := Rmax (asset1 _ _ _ _) _). unfold payoff, Rmax.
    destruct (Rle_dec (1 * (x - K)) 0), (Rle_dec (-1 * (x - K)) 0); lra.
Qed.
