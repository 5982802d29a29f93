(** Normal SABR through elliptic integrals: the integral converges; the quadrature correction completes the closed form. *)
From Coq Require Import Reals Lra Lia Psatz List.
From Coquelicot Require Import Coquelicot.
From Verif Require Import Base Gauss Sums Spec_Opt Spec_Dist M_Opt M_Fd M_Sabr M_Ellipe Spec_Ellipe P_Bsm P_Expect P_Gmom P_Gamma2 P_Cev5 P_Asian5 P_Nsvh P_Newton P_Ellipe P_Ellipe2 P_Ellipe3.
Open Scope R_scope.

Lemma cont_max a (u : R) : continuous (Rmax a) u.
Proof.
  apply (continuous_ext (fun u => Rmax (u - a) 0 + a)).
  { intros t. unfold Rmax. repeat destruct (Rle_dec _ _); lra. }
  apply (continuous_plus (V := R_NormedModule) (fun u => Rmax (u - a) 0) (fun _ => a)); [|apply continuous_const].
  apply (cont_Rmax0 (fun u => u - a)). apply (continuous_minus (V := R_NormedModule) (fun u : R => u) (fun _ => a)); [apply continuous_id|apply continuous_const].
Qed.
Section From.
Variables (g : R -> R) (a : R).
Hypothesis Hg : forall u, a <= u -> continuous g u.
Let g' u := g (Rmax a u).
Definition Gf u := RInt (V := R_CompleteNormedModule) (fun t => g (Rmax a t)) a u.
Lemma g'_cont (u : R) : continuous g' u.
Proof using Hg. apply (continuous_comp (Rmax a) g); [apply cont_max|apply Hg, Rmax_l]. Qed.
Lemma Gf_derive (u : R) : is_derive Gf u (g (Rmax a u)).
Proof using Hg.
  apply (is_derive_RInt (V := R_CompleteNormedModule) g' Gf a u); [|apply g'_cont].
  apply filter_forall. intros z. apply (RInt_correct (V := R_CompleteNormedModule)), ex_RInt_cont_all. intros x. apply g'_cont.
Qed.
Lemma Gf_a : Gf a = 0. Proof using. unfold Gf. exact (RInt_point (V := R_CompleteNormedModule) a _). Qed.
Lemma Gf_int b : a <= b -> is_RInt g a b (Gf b).
Proof using Hg.
  intros Hb. apply (is_RInt_ext (fun t => g (Rmax a t))).
  - rewrite Rmin_left, Rmax_right by lra. intros x Hx. rewrite Rmax_right by lra. reflexivity.
  - apply (RInt_correct (V := R_CompleteNormedModule)), ex_RInt_cont_all. intros x. apply g'_cont.
Qed.
Lemma from_lim (W : R) : int_from a g W -> is_lim Gf p_infty W.
Proof using Hg.
  intros H. apply is_lim_spec. intros e. destruct (H (ball W e)) as [Q1 Q2 H1 H2 H3]; [now exists e|].
  destruct H2 as [B HB]. exists (Rmax a B). intros x Hx. pose proof (Rmax_l a B). pose proof (Rmax_r a B).
  destruct (H3 a x H1 (HB x ltac:(lra))) as (y & Hy & Hb). cbn [fst snd] in Hy. pose proof (Gf_int x ltac:(lra)) as I.
  apply (is_RInt_unique (V := R_CompleteNormedModule)) in Hy. apply (is_RInt_unique (V := R_CompleteNormedModule)) in I. rewrite <- I, Hy. exact Hb.
Qed.
Lemma lim_from (W : R) : is_lim Gf p_infty W -> int_from a g W.
Proof using Hg.
  intros L P [e He]. apply is_lim_spec in L. destruct (L e) as [B HB]. apply (Filter_prod _ _ _ (fun x => x = a) (fun b => Rmax a B < b)); [reflexivity|exists (Rmax a B); auto|].
  intros x b -> Hb. cbn [fst snd]. pose proof (Rmax_l a B). pose proof (Rmax_r a B). exists (Gf b). split; [apply Gf_int; lra|]. apply He. apply (HB b). lra.
Qed.
(** substitution u = sqrt(a^2 + 2 v) *)
Lemma from_subst W : 0 <= a -> int_from a g W -> half_line (fun v => g (sqrt (a ^ 2 + 2 * v)) / sqrt (a ^ 2 + 2 * v)) W.
Proof using Hg.
  intros Ha H. apply from_lim in H. set (s v := sqrt (a ^ 2 + 2 * v)).
  assert (S0 : forall v, 0 < v -> a < s v /\ 0 < s v).
  { intros v Hv. assert (a < s v); [|lra]. unfold s. rewrite <- (sqrt_pow2 a Ha) at 1. apply sqrt_lt_1_alt. split; [nra|lra]. }
  assert (Ds : forall v, 0 < v -> is_derive s v (/ s v)).
  { intros v Hv. unfold s. auto_derive; [nra|]. Req. change (a * (a * 1)) with (a ^ 2). pose proof (S0 v Hv) as [_ X]. unfold s in X. field. lra. }
  assert (E : W = W - Gf a) by (rewrite Gf_a; ring). rewrite E at 1. clear E. unfold half_line.
  apply (gen_anti (Fa := at_right 0) (Fb := Rbar_locally p_infty) (fun v => Gf (s v)) (fun v => g (s v) / s v) (Gf a) W); [apply right_pos|apply inf_pos| | | |].
  - intros v Hv. eapply is_derive_eq; [exact (is_derive_comp_R Gf s _ _ _ (Gf_derive (s v)) (Ds v Hv))|]. destruct (S0 v Hv). rewrite Rmax_right by lra. unfold Rdiv. ring.
  - intros v Hv. destruct (S0 v Hv) as [A1 A2]. assert (Cs : continuous s v) by (apply (ex_derive_continuous (K := R_AbsRing) (V := R_NormedModule)); eexists; now apply Ds).
    apply (continuous_mult (fun v => g (s v)) (fun v => / s v)); [apply (continuous_comp s g); [exact Cs|apply Hg; lra]|].
    apply (continuous_comp s Rinv); [exact Cs|]. apply continuous_Rinv. lra.
  - apply (filterlim_comp _ _ _ s Gf (at_right 0) (locally a)).
    + assert (Es : s 0 = a) by (unfold s; replace (a ^ 2 + 2 * 0) with (a ^ 2) by ring; now apply sqrt_pow2).
      rewrite <- Es. apply (filterlim_filter_le_1 _ (filter_le_within (F := locally 0) _)). change (continuous s 0). unfold s.
      apply (continuous_comp (fun v => a ^ 2 + 2 * v) sqrt); [apply (ex_derive_continuous (K := R_AbsRing) (V := R_NormedModule) (fun v => a ^ 2 + 2 * v)); auto_derive; trivial|].
      apply continuity_pt_filterlim, continuity_pt_sqrt. nra.
    + apply (ex_derive_continuous (K := R_AbsRing) (V := R_NormedModule)). eexists. apply Gf_derive.
  - apply (filterlim_comp _ _ _ s Gf _ (Rbar_locally p_infty)); [|exact H].
    intros P [M HM]. exists (Rmax 0 (M ^ 2)). intros v Hv. apply HM. pose proof (Rmax_l 0 (M ^ 2)). pose proof (Rmax_r 0 (M ^ 2)).
    apply Rle_lt_trans with (Rabs M); [apply Rle_abs|]. rewrite <- sqrt_Rsqr_abs. unfold s. apply sqrt_lt_1_alt. unfold Rsqr. split; nra.
Qed.
(** comparison *)
Lemma from_dom (h H : R -> R) (B : R) : (forall u, a <= u -> 0 <= g u <= h u) -> (forall u, is_derive H u (h u)) -> (forall u, a <= u -> H u <= B) -> exists W, int_from a g W.
Proof using Hg.
  intros P D HB.
  assert (M1 : forall x y, a <= x -> x <= y -> Gf x <= Gf y).
  { intros x y Hx Hxy. destruct (Req_dec x y) as [->|N]; [lra|]. apply (nondecreasing_on Gf (fun u => g (Rmax a u)) x y); [lra|intros; apply Gf_derive|intros t Ht; apply P, Rmax_l]. }
  assert (M2 : forall x, a <= x -> Gf x <= B - H a).
  { intros x Hx. assert (H a - Gf a <= H x - Gf x). { destruct (Req_dec a x) as [->|N]; [lra|]. apply (nondecreasing_on (fun u => H u - Gf u) (fun u => h u - g (Rmax a u)) a x); [lra|intros t Ht; apply is_derive_minus_R; [apply D|apply Gf_derive]|].
      intros t Ht. rewrite Rmax_right by lra. specialize (P t ltac:(lra)). lra. } rewrite Gf_a in H0. specialize (HB x Hx). lra. }
  destruct (mono_lim (fun x => Gf (a + x)) (B - H a)) as (l & L & _).
  - intros x y Hx Hy. apply M1; lra.
  - intros x Hx. apply M2. lra.
  - exists l. apply lim_from. apply (is_lim_ext (fun x => Gf (a + (x - a)))); [intros; f_equal; ring|].
    apply (is_lim_comp (fun x => Gf (a + x)) (fun x => x - a) p_infty l p_infty); [exact L| |exists 0; intros; discriminate].
    apply is_lim_spec. intros M. exists (M + a). intros x Hx. lra.
Qed.
End From.

Lemma sqrt_abs_diff x y : 0 <= x -> 0 <= y -> Rabs (sqrt x - sqrt y) <= sqrt (Rabs (x - y)).
Proof.
  intros Hx Hy. assert (G : forall x y, 0 <= y -> y <= x -> sqrt x - sqrt y <= sqrt (x - y)).
  { intros u v Hv Huv. pose proof (sqrt_pos u). pose proof (sqrt_pos v). pose proof (sqrt_pos (u - v)). assert (sqrt u <= sqrt v + sqrt (u - v)); [|lra].
    apply Rsqr_incr_0; [|lra|lra]. unfold Rsqr. pose proof (sqrt_sqrt u ltac:(lra)). pose proof (sqrt_sqrt v ltac:(lra)). pose proof (sqrt_sqrt (u - v) ltac:(lra)). nra. }
  destruct (Rle_dec y x) as [L|L].
  - rewrite !Rabs_right; [now apply G| |]; [lra|]. apply Rle_ge. pose proof (sqrt_le_1_alt y x L). lra.
  - assert (L' : x <= y) by lra. rewrite !Rabs_left1; [|lra|pose proof (sqrt_le_1_alt x y L'); lra]. replace (- (x - y)) with (y - x) by ring. replace (- (sqrt x - sqrt y)) with (sqrt y - sqrt x) by ring. now apply G.
Qed.
Section E.
Variable ellipe : R -> R.
Hypothesis HE : elliptic_E ellipe.
Lemma sin2_01 t : 0 <= sin t ^ 2 <= 1.
Proof. pose proof (sin2_cos2 t) as H. unfold Rsqr in H. pose proof (Rle_0_sqr (cos t)) as A. pose proof (Rle_0_sqr (sin t)) as B. unfold Rsqr in *. replace (sin t ^ 2) with (sin t * sin t) by ring. lra. Qed.
Lemma E_holder m n : m <= 1 -> n <= 1 -> Rabs (ellipe m - ellipe n) <= PI / 2 * sqrt (Rabs (m - n)).
Proof using HE.
  intros Hm Hn. pose proof PI_RGT_0. pose proof (is_RInt_minus (V := R_NormedModule) _ _ _ _ _ _ (HE m Hm) (HE n Hn)) as I.
  replace (PI / 2) with (PI / 2 - 0) by ring. apply (norm_RInt_le_const (V := R_NormedModule) (fun t => minus (sqrt (1 - m * sin t ^ 2)) (sqrt (1 - n * sin t ^ 2))) 0 (PI / 2) (minus (ellipe m) (ellipe n)) (sqrt (Rabs (m - n))) ltac:(lra)); [|exact I].
  intros t _. change (Rabs (sqrt (1 - m * sin t ^ 2) - sqrt (1 - n * sin t ^ 2)) <= sqrt (Rabs (m - n))).
  pose proof (sin2_01 t) as S. eapply Rle_trans; [apply sqrt_abs_diff; nra|]. apply sqrt_le_1_alt. replace (1 - m * sin t ^ 2 - (1 - n * sin t ^ 2)) with ((n - m) * sin t ^ 2) by ring.
  rewrite Rabs_mult, (Rabs_right (sin t ^ 2)) by lra. rewrite (Rabs_minus_sym n m). pose proof (Rabs_pos (m - n)). nra.
Qed.
Lemma E_cont (m : R) : continuous (fun m => ellipe (Rmin m 1)) m.
Proof using HE.
  apply (continuity_pt_filterlim (fun m => ellipe (Rmin m 1))). intros e He. pose proof PI_RGT_0. exists ((e / PI) ^ 2). split; [apply pow_lt, Rdiv_lt_0_compat; lra|].
  intros x [_ Hx]. cbn [dist R_met] in *. unfold R_dist in *. eapply Rle_lt_trans; [apply E_holder; apply Rmin_r|].
  assert (L : Rabs (Rmin x 1 - Rmin m 1) <= Rabs (x - m)).
  { unfold Rmin, Rabs. repeat destruct (Rle_dec _ _); repeat destruct (Rcase_abs _); lra. }
  apply Rle_lt_trans with (PI / 2 * (e / PI)).
  - apply Rmult_le_compat_l; [lra|]. rewrite <- (sqrt_pow2 (e / PI)) by (left; apply Rdiv_lt_0_compat; lra). apply sqrt_le_1_alt. lra.
  - replace (PI / 2 * (e / PI)) with (e / 2) by (field; lra). lra.
Qed.
Lemma E_bound m : 0 <= m <= 1 -> 0 <= ellipe m <= PI / 2.
Proof using HE.
  intros Hm. pose proof PI_RGT_0. pose proof (HE m ltac:(lra)) as I. split.
  - apply (is_RInt_le (fun _ => 0) (fun t => sqrt (1 - m * sin t ^ 2)) 0 (PI / 2)); [lra| |exact I|intros; apply sqrt_pos].
    replace 0 with (scal (V := R_NormedModule) (PI / 2 - 0) 0) at 2 by (unfold scal; cbn; unfold mult; cbn; ring). apply is_RInt_const.
  - apply (is_RInt_le (fun t => sqrt (1 - m * sin t ^ 2)) (fun _ => 1) 0 (PI / 2)); [lra|exact I| |].
    + replace (PI / 2) with (scal (V := R_NormedModule) (PI / 2 - 0) 1) at 2 by (unfold scal; cbn; unfold mult; cbn; ring). apply is_RInt_const.
    + intros t _. rewrite <- sqrt_1 at 2. apply sqrt_le_1_alt. pose proof (sin2_01 t). nra.
Qed.
Section H.
Variables (rho k xi : R).
Hypothesis (Hr : rho ^ 2 < 1) (Hxi : 0 < xi).
Let u0 := nsi_u0 rho k xi.
Lemma cont_sqrt_pos (f : R -> R) (u : R) : 0 <= f u -> continuous f u -> continuous (fun u => sqrt (f u)) u.
Proof using. intros H C. apply (continuous_comp f sqrt); [exact C|]. now apply continuity_pt_filterlim, continuity_pt_sqrt. Qed.
Lemma hh_cont (u : R) : u0 <= u -> continuous (fun u => hh_xi ellipe u k xi rho) u.
Proof using HE Hr Hxi.
  intros Hu. destruct (guards rho k xi Hr Hxi u Hu) as (G1 & G2 & G3). unfold hh_xi. cbv zeta.
  set (D u := (1 - rho ^ 2) * (cosh (2 * xi * u) ^ 2 - 1 - (k - rho * cosh (2 * xi * u)) ^ 2)).
  assert (Cc : continuous (fun u => cosh (2 * xi * u)) u). { apply (ex_derive_continuous (K := R_AbsRing) (V := R_NormedModule) (fun u => cosh (2 * xi * u))). auto_derive. trivial. }
  assert (CD : continuous D u). { apply (ex_derive_continuous (K := R_AbsRing) (V := R_NormedModule) D). unfold D. auto_derive. trivial. }
  assert (Cd : continuous (fun u => sqrt (Rmax (D u) 0)) u) by (apply (cont_sqrt_pos (fun u => Rmax (D u) 0)); [apply Rmax_r|now apply cont_Rmax0]).
  assert (Cv : continuous (fun u => Rmax (rho * k + (1 - rho ^ 2) * cosh (2 * xi * u) + sqrt (Rmax (D u) 0)) 0) u).
  { apply (cont_Rmax0 (fun u => rho * k + (1 - rho ^ 2) * cosh (2 * xi * u) + sqrt (Rmax (D u) 0))). apply (continuous_plus (V := R_NormedModule) (fun u => rho * k + (1 - rho ^ 2) * cosh (2 * xi * u)) (fun u => sqrt (Rmax (D u) 0))); [|exact Cd].
    apply (ex_derive_continuous (K := R_AbsRing) (V := R_NormedModule) (fun u => rho * k + (1 - rho ^ 2) * cosh (2 * xi * u))). auto_derive. trivial. }
  set (vp u := Rmax (rho * k + (1 - rho ^ 2) * cosh (2 * xi * u) + sqrt (Rmax (D u) 0)) 0) in *.
  assert (Pv : 0 < vp u). { unfold vp. rewrite (Rmax_left (D u) 0) by exact G1. rewrite Rmax_left by (left; exact G2). exact G2. }
  apply (continuous_mult (fun u => sqrt (vp u)) (fun u => ellipe (Rmin (2 * sqrt (Rmax (D u) 0) / vp u) 1))); [apply cont_sqrt_pos; [lra|exact Cv]|].
  apply (continuous_comp (fun u => 2 * sqrt (Rmax (D u) 0) / vp u) (fun m => ellipe (Rmin m 1))); [|apply E_cont].
  apply (continuous_mult (fun u => 2 * sqrt (Rmax (D u) 0)) (fun u => / vp u)); [apply (continuous_scal_r (V := R_NormedModule) 2 (fun u => sqrt (Rmax (D u) 0))); exact Cd|].
  apply (continuous_comp vp Rinv); [exact Cv|]. apply continuous_Rinv. lra.
Qed.
Lemma weight_cont (u : R) : continuous (fun u => nsi_weight u xi) u.
Proof using.
  apply (continuous_ext (fun u => nR (- xi) u + nR xi u)). { intros t. unfold nR, nsi_weight. change (t + - xi) with (t - xi). Req. ring. }
  apply (continuous_plus (V := R_NormedModule) (nR (- xi)) (nR xi)); apply nR_cont.
Qed.
Lemma weight_pos u : 0 < nsi_weight u xi.
Proof using. unfold nsi_weight. apply Rmult_lt_0_compat; [apply npdf_pos|]. pose proof (mills_pos (u + xi)). pose proof (mills_pos (u - xi)). lra. Qed.
Lemma hh_nonneg u : u0 <= u -> 0 <= hh_xi ellipe u k xi rho.
Proof using HE Hr Hxi.
  intros Hu. destruct (guards rho k xi Hr Hxi u Hu) as (G1 & G2 & G3). unfold hh_xi. cbv zeta. rewrite (Rmax_left (_ * _)) by exact G1. rewrite (Rmax_left (_ + _)) by lra.
  apply Rmult_le_pos; [apply sqrt_pos|]. apply E_bound. rewrite Rmin_left by lra. split; [|lra]. apply Rmult_le_pos; [pose proof (sqrt_pos ((1 - rho ^ 2) * (cosh (2 * xi * u) ^ 2 - 1 - (k - rho * cosh (2 * xi * u)) ^ 2))); lra|left; now apply Rinv_0_lt_compat].
Qed.
Lemma hh_upper u : u0 <= u -> hh_xi ellipe u k xi rho <= PI * sqrt (Rabs k + 1) * exp (xi * u).
Proof using HE Hr Hxi.
  intros Hu. destruct (guards rho k xi Hr Hxi u Hu) as (G1 & G2 & G3). unfold hh_xi. cbv zeta. rewrite (Rmax_left (_ * _)) by exact G1. rewrite (Rmax_left (_ + _)) by lra. rewrite Rmin_left by lra.
  pose proof (e_u0_nonneg rho k xi Hr Hxi) as U0. fold u0 in U0.
  set (ch := cosh (2 * xi * u)) in *. set (dd := sqrt ((1 - rho ^ 2) * (ch ^ 2 - 1 - (k - rho * ch) ^ 2))) in *. assert (Hd : 0 <= dd) by apply sqrt_pos.
  set (mid := rho * k + (1 - rho ^ 2) * ch) in *. pose proof PI_RGT_0 as HPI.
  assert (Hdm : dd < mid). { apply (Rmult_lt_compat_r (mid + dd)) in G3; [|lra]. unfold Rdiv in G3. rewrite Rmult_assoc, Rinv_l, Rmult_1_r in G3 by lra. lra. }
  assert (EB : 0 <= ellipe (2 * dd / (mid + dd)) <= PI / 2). { apply E_bound. split; [|lra]. apply Rmult_le_pos; [lra|left; apply Rinv_0_lt_compat; lra]. }
  assert (Ch : ch <= exp (2 * xi * u)). { unfold ch, cosh. assert (exp (- (2 * xi * u)) <= exp (2 * xi * u)); [apply exp_le; nra|lra]. }
  assert (Ch0 : 1 <= exp (2 * xi * u)). { rewrite <- exp_0. apply exp_le. nra. }
  assert (Hmid : mid <= (Rabs k + 1) * exp (2 * xi * u)).
  { unfold mid. assert (rho * k <= Rabs k). { destruct (Rle_dec 0 (rho * k)); [|pose proof (Rabs_pos k); lra]. rewrite <- (Rabs_right (rho * k)) by lra. rewrite Rabs_mult. pose proof (Rabs_pos k). assert (Rabs rho <= 1) by (apply Rabs_le; nra). nra. }
    assert (0 < ch) by apply cosh_gt0. assert ((1 - rho ^ 2) * ch <= ch) by nra. pose proof (Rabs_pos k). nra. }
  assert (SQ : sqrt (mid + dd) <= 2 * (sqrt (Rabs k + 1) * exp (xi * u))).
  { replace (2 * (sqrt (Rabs k + 1) * exp (xi * u))) with (sqrt ((2 * (sqrt (Rabs k + 1) * exp (xi * u))) ^ 2)). 2:{ apply sqrt_pow2. apply Rmult_le_pos; [lra|]. apply Rmult_le_pos; [apply sqrt_pos|left; apply exp_pos]. }
    apply sqrt_le_1_alt. pose proof (Rabs_pos k). replace ((2 * (sqrt (Rabs k + 1) * exp (xi * u))) ^ 2) with (4 * ((sqrt (Rabs k + 1) * sqrt (Rabs k + 1)) * (exp (xi * u) * exp (xi * u)))) by ring. rewrite sqrt_sqrt by lra. rewrite <- exp_plus. replace (xi * u + xi * u) with (2 * xi * u) by ring.
    assert (0 < (Rabs k + 1) * exp (2 * xi * u)) by (apply Rmult_lt_0_compat; [lra|apply exp_pos]). lra. }
  replace (PI * sqrt (Rabs k + 1) * exp (xi * u)) with (2 * (sqrt (Rabs k + 1) * exp (xi * u)) * (PI / 2)) by field.
  apply Rmult_le_compat; [apply sqrt_pos|lra|exact SQ|lra].
Qed.
Lemma hh_int_ex : exists W, int_from u0 (fun u => hh_xi ellipe u k xi rho * nsi_weight u xi) W.
Proof using HE Hr Hxi.
  pose proof (e_u0_nonneg rho k xi Hr Hxi) as U0. fold u0 in U0. pose proof PI_RGT_0 as HPI.
  set (C := PI * sqrt (Rabs k + 1) * (2 * mills (- xi)) * exp (xi ^ 2 / 2)).
  assert (HC : 0 <= C). { unfold C. pose proof (mills_pos (- xi)). pose proof (exp_pos (xi ^ 2 / 2)). pose proof (sqrt_pos (Rabs k + 1)). apply Rmult_le_pos; [apply Rmult_le_pos; [apply Rmult_le_pos; lra|lra]|lra]. }
  apply (from_dom _ u0 (fun u Hu => continuous_mult (fun u => hh_xi ellipe u k xi rho) (fun u => nsi_weight u xi) u (hh_cont u Hu) (weight_cont u)) (fun u => C * npdf (u - xi)) (fun u => C * Phi (u - xi)) (C * 1)).
  - intros u Hu. pose proof (hh_nonneg u Hu) as P1. pose proof (hh_upper u Hu) as P2. pose proof (weight_pos u) as P3. split; [apply Rmult_le_pos; lra|].
    assert (W1 : nsi_weight u xi <= npdf u * (2 * mills (- xi))).
    { unfold nsi_weight. apply Rmult_le_compat_l; [left; apply npdf_pos|]. pose proof (mills_decr (- xi) (u + xi) ltac:(lra)). pose proof (mills_decr (- xi) (u - xi) ltac:(lra)). lra. }
    apply Rle_trans with (PI * sqrt (Rabs k + 1) * exp (xi * u) * (npdf u * (2 * mills (- xi)))); [apply Rmult_le_compat; lra|].
    right. unfold C, npdf. assert (Ex : exp (xi * u) * exp (- (u * u) / 2) = exp (xi ^ 2 / 2) * exp (- ((u - xi) * (u - xi)) / 2)) by (rewrite <- !exp_plus; f_equal; field).
    set (m := mills (- xi)). set (w := sqrt (Rabs k + 1)). set (z := sqrt (2 * PI)). unfold Rdiv at 1 4. replace (PI * w * exp (xi * u) * (exp (- (u * u) / 2) * / z * (2 * m))) with (PI * w * (2 * m) * / z * (exp (xi * u) * exp (- (u * u) / 2))) by ring. rewrite Ex. unfold Rdiv. ring.
  - intros u. apply (is_derive_scal_R (fun u => Phi (u - xi))). eapply is_derive_eq; [apply (is_derive_comp_R Phi (fun u => u - xi) u (npdf (u - xi)) 1); [apply is_derive_Phi|auto_derive; [trivial|ring]]|]. ring.
  - intros u _. apply Rmult_le_compat_l; [exact HC|]. left. apply Phi_lt_1.
Qed.
End H.
End E.
