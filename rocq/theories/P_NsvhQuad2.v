(** NSVh quadrature: the exact conditional expectation in each slice, the link with the simulated law, parity. *)
From Coq Require Import Reals Lra Lia List Psatz.
From Coquelicot Require Import Coquelicot.
From Verif Require Import Base Gauss Sums M_Opt M_Fd M_Sabr M_Dist M_NsvhQuad Spec_Expect Spec_Dist Spec_NsvhQuad P_Half P_Dist P_NsvhQuad.
Import ListNotations.
Open Scope R_scope.

Lemma cosh_diff a b : cosh b - cosh a = 2 * sinh ((a + b) / 2) * sinh ((b - a) / 2).
Proof.
  unfold cosh, sinh. set (x := exp ((a + b) / 2)). set (y := exp ((b - a) / 2)).
  assert (Ex : exp (- ((a + b) / 2)) = / x) by (unfold x; apply exp_Ropp). assert (Ey : exp (- ((b - a) / 2)) = / y) by (unfold y; apply exp_Ropp). rewrite Ex, Ey.
  assert (Px : 0 < x) by apply exp_pos. assert (Py : 0 < y) by apply exp_pos.
  replace (exp b) with (x * y) by (unfold x, y; rewrite <- exp_plus; f_equal; field). replace (exp a) with (x / y) by (unfold x, y, Rdiv; rewrite <- exp_Ropp, <- exp_plus; f_equal; field).
  replace (exp (- b)) with (/ (x * y)) by (unfold x, y; rewrite <- exp_plus, <- exp_Ropp; f_equal; field). replace (exp (- a)) with (y / x) by (unfold x, y, Rdiv; rewrite <- exp_Ropp, <- exp_plus; f_equal; field).
  field. lra.
Qed.
Lemma sinh_pos0 x : 0 < x -> 0 < sinh x.
Proof. intros H. unfold sinh. assert (exp (- x) < exp x) by (apply exp_increasing; lra). lra. Qed.
Lemma cosh_lt a b : 0 <= a -> a < b -> cosh a < cosh b.
Proof. intros H1 H2. pose proof (cosh_diff a b). assert (0 < sinh ((a + b) / 2)) by (apply sinh_pos0; lra). assert (0 < sinh ((b - a) / 2)) by (apply sinh_pos0; lra). nra. Qed.
Lemma cosh_le a b : 0 <= a -> a <= b -> cosh a <= cosh b.
Proof. intros H1 [H2|H2]; [left; now apply cosh_lt|subst; lra]. Qed.
Lemma cosh_ev x : cosh (- x) = cosh x.
Proof. unfold cosh. rewrite Ropp_involutive. field. Qed.
Lemma cosh_abs x : cosh (Rabs x) = cosh x.
Proof. unfold Rabs. destruct (Rcase_abs x); [apply cosh_ev|reflexivity]. Qed.
Lemma cosh_ge1 x : 1 <= cosh x.
Proof. rewrite <- cosh_abs. replace 1 with (cosh 0) by (unfold cosh; rewrite Ropp_0, exp_0; field). apply cosh_le; [lra|apply Rabs_pos]. Qed.
Lemma arccosh_ge0 x : 1 <= x -> 0 <= arccosh x.
Proof. intros [H|H]; [left; now apply arccosh_pos|]. subst. unfold arccosh. replace (1 ^ 2 - 1) with 0 by ring. rewrite sqrt_0, Rplus_0_r, ln_1. lra. Qed.

Section S.
Variables (rho lam s k u : R).
Hypothesis (Hr : rho ^ 2 < 1) (Hs : 0 < s).
Let g := nq_g rho lam s k u.
Let v0 := nq_v0 rho lam s k u.
Let rc := sqrt (1 - rho ^ 2).
Let H (r : R) := nq_h rho s u 0 r.
Let T := cosh (s * u) + / 2 * g ^ 2 / (1 - rho ^ 2).
Let d := arccosh T.
Let Prc : 0 < rc. Proof. apply sqrt_lt_R0. lra. Qed.
Let HT : cosh (s * u) <= T.
Proof. unfold T. assert (0 <= / 2 * g ^ 2 / (1 - rho ^ 2)); [|lra]. apply Rmult_le_pos; [nra|]. left. apply Rinv_0_lt_compat. lra. Qed.
Let HT1 : 1 <= T. Proof. pose proof (cosh_ge1 (s * u)). lra. Qed.
Let Cd : cosh d = T. Proof. apply cosh_arccosh. exact HT1. Qed.
Let Hd : 0 <= d. Proof. apply arccosh_ge0. exact HT1. Qed.
Lemma v0_eq : v0 = (d / s) ^ 2 - u ^ 2.
Proof.
  set (ep := exp (s * u / 2)). assert (P : 0 < ep) by apply exp_pos.
  assert (E1 : exp (s * u) = ep ^ 2) by (unfold ep; replace (s * u) with (s * u / 2 + s * u / 2) at 1 by field; rewrite exp_plus; ring).
  assert (E2 : exp (- (s * u)) = / ep ^ 2) by (rewrite exp_Ropp, E1; reflexivity).
  assert (E : (ep ^ 2 + 1 / ep ^ 2) / 2 + / 2 * g ^ 2 / (1 - rho ^ 2) = T). { unfold T, cosh. rewrite E1, E2. unfold Rdiv. now rewrite Rmult_1_l. }
  unfold v0, nq_v0. cbv zeta. fold g ep. rewrite E. reflexivity.
Qed.
Lemma d_ge : Rabs (s * u) <= d.
Proof.
  destruct (Rle_lt_dec (Rabs (s * u)) d) as [L|L]; [exact L|]. exfalso. pose proof (cosh_lt d (Rabs (s * u)) Hd L) as C. rewrite cosh_abs, Cd in C. pose proof HT. lra.
Qed.
Lemma v0_ge0 : 0 <= v0.
Proof.
  rewrite v0_eq. pose proof d_ge as D. rewrite Rabs_mult, (Rabs_right s) in D by lra. assert (E : Rabs u <= d / s).
  { apply (Rmult_le_reg_l s); [exact Hs|]. replace (s * (d / s)) with d by (field; lra). exact D. }
  pose proof (Rabs_pos u). rewrite <- (pow2_abs u). nra.
Qed.
Lemma H_v0 : H v0 = Rabs g.
Proof.
  unfold H, nq_h. fold rc. replace (u ^ 2 + 0 + v0) with ((d / s) ^ 2) by (rewrite v0_eq; ring). rewrite sqrt_pow2. 2:{ apply Rmult_le_pos; [exact Hd|]. left. now apply Rinv_0_lt_compat. }
  replace (s * (d / s)) with d by (field; lra). rewrite Cd. unfold T. replace (2 * (cosh (s * u) + / 2 * g ^ 2 / (1 - rho ^ 2)) - 2 * cosh (s * u)) with (g ^ 2 / (1 - rho ^ 2)) by (field; lra).
  rewrite sqrt_div_alt by lra. fold rc. rewrite <- (pow2_abs g), sqrt_pow2 by apply Rabs_pos. field. pose proof Prc. lra.
Qed.
Lemma H_rad r : 0 <= r -> 0 <= 2 * cosh (s * sqrt (u ^ 2 + 0 + r)) - 2 * cosh (s * u).
Proof.
  intros Hr0. rewrite <- (cosh_abs (s * u)), Rabs_mult, (Rabs_right s) by lra. assert (Rabs u <= sqrt (u ^ 2 + 0 + r)).
  { rewrite <- (sqrt_pow2 (Rabs u)) by apply Rabs_pos. apply sqrt_le_1_alt. rewrite pow2_abs. lra. }
  pose proof (cosh_le (s * Rabs u) (s * sqrt (u ^ 2 + 0 + r)) ltac:(apply Rmult_le_pos; [lra|apply Rabs_pos]) ltac:(apply Rmult_le_compat_l; lra)). lra.
Qed.
Lemma H_mono r r' : 0 <= r -> r <= r' -> H r <= H r'.
Proof.
  intros H0 H1. unfold H, nq_h. apply Rmult_le_compat_l; [apply sqrt_pos|]. apply sqrt_le_1_alt.
  assert (sqrt (u ^ 2 + 0 + r) <= sqrt (u ^ 2 + 0 + r')) by (apply sqrt_le_1_alt; lra).
  pose proof (cosh_le (s * sqrt (u ^ 2 + 0 + r)) (s * sqrt (u ^ 2 + 0 + r')) ltac:(apply Rmult_le_pos; [lra|apply sqrt_pos]) ltac:(apply Rmult_le_compat_l; lra)). lra.
Qed.
Lemma H_pos r : 0 < r -> 0 < H r.
Proof.
  intros H0. unfold H, nq_h. fold rc. apply Rmult_lt_0_compat; [exact Prc|]. apply sqrt_lt_R0. rewrite <- (cosh_abs (s * u)), Rabs_mult, (Rabs_right s) by lra.
  assert (Rabs u < sqrt (u ^ 2 + 0 + r)). { rewrite <- (sqrt_pow2 (Rabs u)) by apply Rabs_pos. apply sqrt_lt_1_alt. rewrite pow2_abs. nra. }
  pose proof (cosh_lt (s * Rabs u) (s * sqrt (u ^ 2 + 0 + r)) ltac:(apply Rmult_le_pos; [lra|apply Rabs_pos]) ltac:(apply Rmult_lt_compat_l; lra)). lra.
Qed.
Lemma H_ge0 r : 0 <= H r.
Proof. unfold H, nq_h. apply Rmult_le_pos; apply sqrt_pos. Qed.
Lemma H_shift v : nq_h rho s u v0 v = H (v0 + v).
Proof. unfold H, nq_h. replace (u ^ 2 + 0 + (v0 + v)) with (u ^ 2 + v0 + v) by ring. reflexivity. Qed.
Lemma H_cont r : continuous H r.
Proof.
  unfold H, nq_h. apply (continuous_mult (fun _ => sqrt (1 - rho ^ 2)) (fun v => sqrt (2 * cosh (s * sqrt (u ^ 2 + 0 + v)) - 2 * cosh (s * u)))); [apply continuous_const|].
  apply (continuous_comp (fun v => 2 * cosh (s * sqrt (u ^ 2 + 0 + v)) - 2 * cosh (s * u)) sqrt); [|apply continuous_sqrt].
  apply (continuous_minus (fun v => 2 * cosh (s * sqrt (u ^ 2 + 0 + v))) (fun _ => 2 * cosh (s * u))); [|apply continuous_const].
  apply (continuous_mult (fun _ => 2) (fun v => cosh (s * sqrt (u ^ 2 + 0 + v)))); [apply continuous_const|].
  apply (continuous_comp (fun v => s * sqrt (u ^ 2 + 0 + v)) cosh).
  - apply (continuous_mult (fun _ => s) (fun v => sqrt (u ^ 2 + 0 + v))); [apply continuous_const|]. apply (continuous_comp (fun v => u ^ 2 + 0 + v) sqrt); [|apply continuous_sqrt].
    apply (continuous_plus (fun _ => u ^ 2 + 0) (fun v => v)); [apply continuous_const|apply continuous_id].
  - apply (ex_derive_continuous (K := R_AbsRing) (V := R_NormedModule)). unfold cosh. auto_derive. exact I.
Qed.
Variable cp : R. Hypothesis Hcp : cp = 1 \/ cp = - (1).
Let Acp : Rabs cp = 1. Proof. destruct Hcp as [->| ->]; [apply Rabs_R1|rewrite Rabs_Ropp; apply Rabs_R1]. Qed.
Lemma Ag_le h : 0 <= h -> h <= Rabs g -> Ag cp h g = PI * Rmax (cp * g) 0.
Proof.
  intros H0 [H1|H1]; [now apply Ag_out|]. destruct H0 as [H0|H0].
  - rewrite (Ag_in cp h g Hcp H0 ltac:(lra)). unfold nq_zv, nq_theta. rewrite <- H1. replace (h / h) with 1 by (field; lra). rewrite acos_1. replace (h ^ 2 - g ^ 2) with 0 by (rewrite <- (pow2_abs g), <- H1; ring). rewrite sqrt_0. ring.
  - subst h. assert (g = 0) as Eg. { destruct (Req_dec g 0) as [E|E]; [exact E|]. apply Rabs_no_R0 in E. lra. } rewrite Eg, Rmult_0_r, Rmax_left by lra. rewrite Rmult_0_r.
    apply Ag_unique. apply (is_RInt_ext (fun _ => 0)). { intros t _. unfold pay. rewrite Rmult_0_l, Rplus_0_l, Rmult_0_r, Rmax_left by lra. reflexivity. }
    assert (E : is_RInt (fun _ : R => 0) 0 PI (scal (PI - 0) 0)) by apply (is_RInt_const (V := R_NormedModule)). unfold scal in E; cbn in E; unfold mult in E; cbn in E. rewrite Rmult_0_r in E. exact E.
Qed.
(** the radial expectation of the angular mean *)
Lemma slice_radial J : half_line (fun v => exp (- v / 2) / (2 * PI) * nq_zv g (nq_h rho s u v0 v)) J ->
  pos_expect (fun r => / 2 * exp (- r / 2)) (fun r => Ag cp (H r) g / PI) (J * exp (- v0 / 2) + Rmax (cp * g) 0).
Proof.
  intros HJ. pose proof PI_RGT_0 as HP. set (F := fun r => exp (- r / 2) / (2 * PI) * (Ag cp (H r) g - PI * Rmax (cp * g) 0)).
  assert (CF : forall x, 0 <= x -> continuous F x).
  { intros x _. unfold F. apply (continuous_mult (fun r => exp (- r / 2) / (2 * PI)) (fun r => Ag cp (H r) g - PI * Rmax (cp * g) 0)).
    - apply (ex_derive_continuous (K := R_AbsRing) (V := R_NormedModule)). auto_derive. exact I.
    - apply (continuous_minus (fun r => Ag cp (H r) g) (fun _ => PI * Rmax (cp * g) 0)); [|apply continuous_const]. apply (continuous_comp H (fun h => Ag cp h g)); [apply H_cont|apply Ag_cont; exact Acp]. }
  assert (ZF : forall x, 0 <= x -> x <= v0 -> F x = 0).
  { intros x H0 H1. unfold F. rewrite Ag_le; [ring|apply H_ge0|]. rewrite <- H_v0. now apply H_mono. }
  assert (SF : half_line (fun v => F (v0 + v)) (exp (- v0 / 2) * J)).
  { eapply half_line_ext; [|apply half_line_scal; exact HJ]. intros v Hv. cbv beta. unfold F. rewrite H_shift. pose proof v0_ge0.
    rewrite (Ag_in cp (H (v0 + v)) g Hcp); [|apply H_pos; lra|rewrite <- H_v0; apply H_mono; lra].
    replace (- (v0 + v) / 2) with (- v0 / 2 + - v / 2) by field. rewrite exp_plus. field. lra. }
  apply (half_line_shift F _ v0 v0_ge0 CF ZF) in SF. unfold pos_expect.
  assert (EX : half_line (fun r => / 2 * exp (- r / 2)) 1).
  { replace 1 with (0 - (- (1))) by ring. apply (half_line_anti (fun r => - exp (- r / 2))).
    - intros x _. auto_derive; [exact I|]. Req. unfold Rdiv. rewrite !Ropp_mult_distr_l. field.
    - intros x _. apply (ex_derive_continuous (K := R_AbsRing) (V := R_NormedModule)). auto_derive. exact I.
    - assert (C0 : continuous (fun r => - exp (- r / 2)) 0) by (apply (ex_derive_continuous (K := R_AbsRing) (V := R_NormedModule)); auto_derive; exact I).
      intros P HP0. unfold continuous in C0. replace (- exp (- 0 / 2)) with (- (1)) in C0 by (rewrite Ropp_0; unfold Rdiv; rewrite Rmult_0_l, exp_0; reflexivity). specialize (C0 P HP0). destruct C0 as [e0 He0]. exists e0. intros y Hy _. now apply He0.
    - replace (Finite 0) with (Rbar_opp 0) by (cbn; f_equal; ring). apply is_lim_opp. eapply is_lim_ext; [|apply (exp_lim_m (/ 2)); lra]. intros y. cbv beta. f_equal. field. }
  pose proof (half_line_plus _ _ _ _ SF (half_line_scal _ _ (Rmax (cp * g) 0) EX)) as K. replace (J * exp (- v0 / 2) + Rmax (cp * g) 0) with (exp (- v0 / 2) * J + Rmax (cp * g) 0 * 1) by ring.
  eapply half_line_ext; [|exact K]. intros r Hr0. cbv beta. unfold F. field. lra.
Qed.
End S.
