From Coq Require Import Reals Lra Lia List Psatz.
From Coquelicot Require Import Coquelicot.
From Verif Require Import Base Gauss Sums M_Opt M_Recip Spec_Opt Spec_Expect Spec_Dist Spec_Cev Spec_Recip P_Bsm P_Expect P_Gmom P_Half P_Gamma P_Gamma2 P_Cev5 P_Cev6 P_Dist P_Dist2 P_Dist3 P_Black P_Recip.
Open Scope R_scope.

(** ** inverse Gaussian of mean one *)
Lemma ig_recip c y : 0 < c -> 0 < y -> y * ig_density 1 c y = ig_density 1 c (/ y) / y ^ 2.
Proof.
  intros Hc Hy. pose proof PI_RGT_0 as Hp. unfold ig_density.
  replace (- (c * (/ y - 1) ^ 2) / (2 * 1 ^ 2 * / y)) with (- (c * (y - 1) ^ 2) / (2 * 1 ^ 2 * y)) by (field; lra).
  replace (sqrt (c / (2 * PI * (/ y) ^ 3))) with (y ^ 3 * sqrt (c / (2 * PI * y ^ 3))); [field; lra|].
  assert (H3 : 0 < y ^ 3) by (apply pow_lt; lra).
  rewrite <- (sqrt_pow2 (y ^ 3)) at 1 by lra. rewrite <- sqrt_mult_alt by (apply pow2_ge_0). f_equal. field. repeat split; lra.
Qed.
Lemma lim_scal_gen (g : R -> R) (k l : R) : filterlim g (at_right 0) (locally l) -> filterlim (fun y => k * g y) (at_right 0) (locally (k * l)).
Proof. intros H. exact (filterlim_comp _ _ _ g (fun z => k * z) _ _ _ H (filterlim_scal_r (K := R_AbsRing) (V := R_NormedModule) k l)). Qed.
Section IGA.
Variables (c : R) (P : R -> R).
Hypothesis (Hc : 0 < c) (HP : cdf_of (ig_density 1 c) P).
Let f := ig_density 1 c.
Variable F : R.
Hypothesis HF : 0 < F.
Lemma f_cont x : 0 < x -> continuous f x.
Proof using Hc. intros Hx. apply ig_density_cont; lra. Qed.
Lemma A_derive k x : 0 < x -> is_derive (fun y => F * (- P (/ y) - k * P y)) x (F * (x - k) * f x).
Proof using HP Hc.
  intros Hx. destruct HP as (D & _). assert (Hi : 0 < / x) by now apply Rinv_0_lt_compat.
  assert (Di : is_derive Rinv x (- / x ^ 2)) by (auto_derive; [lra|Req; field; lra]).
  pose proof (is_derive_comp P Rinv x _ _ (D (/ x) Hi) Di) as E.
  pose proof (is_derive_scal_R _ F _ _ (is_derive_minus_R _ _ _ _ _ (is_derive_scal_R _ (-1) _ _ E) (is_derive_scal_R _ k _ _ (D x Hx)))) as G.
  eapply is_derive_ext; [|eapply is_derive_eq; [exact G|]].
  - intros t. cbv beta. Req. ring.
  - pose proof (ig_recip c x Hc Hx) as Q. fold f in Q |- *. unfold scal; cbn; unfold mult; cbn.
    replace (F * (x - k) * f x) with (F * (x * f x - k * f x)) by ring. rewrite Q. change (x * (x * 1)) with (x ^ 2). field. lra.
Qed.
Lemma A_cont k x : 0 < x -> continuous (fun x => F * (x - k) * f x) x.
Proof using Hc.
  intros Hx. apply (continuous_mult (K := R_AbsRing) (fun x => F * (x - k)) f).
  - apply ex_derive_continuous_R. auto_derive. trivial.
  - now apply f_cont.
Qed.
Lemma inv_lim_0 : filterlim (fun y => P (/ y)) (at_right 0) (locally 1).
Proof using HP.
  destruct HP as (_ & _ & L). apply (filterlim_comp _ _ _ Rinv P (at_right 0) (Rbar_locally p_infty) (locally 1)); [|exact L].
  exact filterlim_Rinv_0_right.
Qed.
Lemma inv_lim_inf : is_lim (fun y => P (/ y)) p_infty 0.
Proof using HP.
  destruct HP as (_ & L & _). apply (filterlim_comp _ _ _ Rinv P (Rbar_locally p_infty) (at_right 0) (locally 0)); [|exact L].
  intros Q [e He]. exists (/ e). intros x Hx. assert (0 < / e) by (apply Rinv_0_lt_compat, cond_pos). apply He.
  - change (Rabs (/ x - 0) < e). rewrite Rminus_0_r, Rabs_right by (left; apply Rinv_0_lt_compat; lra). rewrite <- (Rinv_inv e).
    apply Rinv_lt_contravar; [apply Rmult_lt_0_compat; lra|exact Hx].
  - apply Rinv_0_lt_compat. lra.
Qed.
Lemma A_0 k : filterlim (fun y => F * (- P (/ y) - k * P y)) (at_right 0) (locally (- F)).
Proof using HP.
  replace (- F) with (F * (-1) * 1 + (F * - k) * 0) by ring.
  apply (filterlim_ext (fun y => (F * (-1)) * P (/ y) + (F * - k) * P y)); [intros; ring|].
  apply lim_plus_at0; apply lim_scal_gen; [apply inv_lim_0|apply HP].
Qed.
Lemma A_inf k : is_lim (fun y => F * (- P (/ y) - k * P y)) p_infty (- (F * k)).
Proof using HP.
  replace (- (F * k)) with (F * (- 0 - k * 1)) by ring.
  apply (is_lim_scal_l (fun y => - P (/ y) - k * P y) F p_infty (- 0 - k * 1)). apply is_lim_minus'; [exact (is_lim_opp _ _ _ inv_lim_inf)|exact (is_lim_scal_l _ k _ _ (proj2 (proj2 HP)))].
Qed.
Lemma iga_call K : 0 < K -> let k := K / F in pos_expect f (fun y => payoff 1 K (F * y)) (F * (P (1 / k) - k * (1 - P k))).
Proof using HP Hc HF.
  intros HK k. assert (Hk : 0 < k) by (apply Rdiv_lt_0_compat; assumption). assert (EK : K = F * k) by (unfold k; field; lra). clearbody k. subst K. unfold pos_expect.
  replace (F * (P (1 / k) - k * (1 - P k))) with (- (F * k) - F * (- P (/ k) - k * P k)) by (unfold Rdiv; rewrite Rmult_1_l; ring).
  apply (half_above (fun y => F * (- P (/ y) - k * P y)) (fun x => F * (x - k) * f x)); [exact Hk|intros; now apply A_derive|intros; now apply A_cont|apply A_inf| |].
  - intros x Hx. unfold payoff. rewrite Rmax_left; [ring|]. nra.
  - intros x H0 Hx. unfold payoff. rewrite Rmax_right; [ring|]. nra.
Qed.
Lemma iga_put K : 0 < K -> let k := K / F in pos_expect f (fun y => payoff (-1) K (F * y)) (F * (k * P k - (1 - P (1 / k)))).
Proof using HP Hc HF.
  intros HK k. assert (Hk : 0 < k) by (apply Rdiv_lt_0_compat; assumption). assert (EK : K = F * k) by (unfold k; field; lra). clearbody k. subst K. unfold pos_expect.
  replace (F * (k * P k - (1 - P (1 / k)))) with (- (F * (- P (/ k) - k * P k)) - F) by (unfold Rdiv; rewrite Rmult_1_l; ring).
  apply (half_below (fun y => - (F * (- P (/ y) - k * P y))) (fun x => - (F * (x - k) * f x))); [exact Hk| | | | |].
  - intros x Hx. apply (is_derive_opp (V := R_NormedModule)). now apply A_derive.
  - intros x Hx. apply (continuous_opp (V := R_NormedModule)). now apply A_cont.
  - pose proof (filterlim_comp _ _ _ _ Ropp _ _ _ (A_0 k) (filterlim_opp (V := R_NormedModule) (- F))) as L. assert (E : opp (- F : R_NormedModule) = (F : R)) by (unfold opp; cbn; ring). rewrite E in L. exact L.
  - intros x H0 Hx. unfold payoff. rewrite Rmax_left; [ring|]. nra.
  - intros x Hx. unfold payoff. rewrite Rmax_right; [ring|]. nra.
Qed.
Lemma iga_above K : 0 < K -> pos_expect f (fun y => above K (F * y)) (1 - P (K / F)).
Proof using HP Hc HF.
  intros HK. set (k := K / F). assert (Hk : 0 < k) by (apply Rdiv_lt_0_compat; assumption). assert (EK : K = F * k) by (unfold k; field; lra). clearbody k. subst K. unfold pos_expect.
  destruct HP as (D & _ & L). apply (half_above P f); [exact Hk|exact D|intros; now apply f_cont|exact L| |].
  - intros x Hx. unfold above. destruct (Rlt_dec (F * k) (F * x)); [ring|]. nra.
  - intros x H0 Hx. unfold above. destruct (Rlt_dec (F * k) (F * x)); [nra|ring].
Qed.
End IGA.
Lemma ig_m12 c F : 0 < c -> half_line (ig_density 1 c) 1 /\ pos_expect (ig_density 1 c) (fun y => F * y) F /\
  pos_expect (ig_density 1 c) (fun y => (F * y) ^ 2) (F ^ 2 * (1 + / c)).
Proof.
  intros Hc. pose proof (ig_moment 1 c ltac:(lra) Hc) as M. refine (conj _ (conj _ _)).
  - exact (proj2 (ig_is_density 1 c ltac:(lra) Hc)).
  - pose proof (half_line_scal _ _ F (M 1%nat)) as H. unfold pos_expect.
    replace (F * (1 ^ 1 * pmean (fst (igpoly (/ 2 * 1 / c) 1)))) with F in H by (cbn; field; lra).
    eapply half_line_ext; [|exact H]. intros x Hx. cbv beta. ring.
  - pose proof (half_line_scal _ _ (F ^ 2) (M 2%nat)) as H. unfold pos_expect.
    replace (1 + / c) with (1 ^ 2 * pmean (fst (igpoly (/ 2 * 1 / c) 2))) by (cbn; field; lra).
    eapply half_line_ext; [|exact H]. intros x Hx. cbv beta. ring.
Qed.

Lemma fdd_FWD m S T : fwd_df_divf m S T = (FWD (intr m) (divr m) (is_fwd m) S T, DF (intr m) T, snd (fwd_df_divf m S T)).
Proof. rewrite fdd_eq. reflexivity. Qed.
Lemma invgauss_law igc igs m K S T : ig_routines igc igs -> 0 < K -> 0 < S -> 0 < sigma m ^ 2 * T ->
  let F := FWD (intr m) (divr m) (is_fwd m) S T in let dens := ig_density 1 (/ (exp (sigma m ^ 2 * T) - 1)) in
  half_line dens 1 /\ pos_expect dens (fun y => F * y) F /\ pos_expect dens (fun y => (F * y) ^ 2) (F ^ 2 * exp (sigma m ^ 2 * T)) /\
  pos_expect dens (fun y => above K (F * y)) (invgauss_cdf igc igs m K S T 1) /\ invgauss_cdf igc igs m K S T (-1) = 1 - invgauss_cdf igc igs m K S T 1 /\
  forall cp, call_or_put cp -> exists c, pos_expect dens (fun y => payoff cp K (F * y)) c /\ invgauss_price igc igs m K S T cp = DF (intr m) T * c.
Proof.
  intros HR HK HS Hv F dens. pose proof (expm1_pos _ Hv) as E. change (exp (sigma m ^ 2 * T) - 1) with (expm1 (sigma m ^ 2 * T)) in dens.
  assert (HF : 0 < F) by exact (mF_pos m S T HS). set (s := expm1 (sigma m ^ 2 * T)) in *. assert (Hc : 0 < / s) by now apply Rinv_0_lt_compat.
  assert (ES : exp (sigma m ^ 2 * T) = 1 + / (/ s)) by (rewrite Rinv_inv; unfold s, expm1; ring).
  destruct (HR s (1 / s) E ltac:(unfold Rdiv; lra)) as (HP & HQ). replace (s * (1 / s)) with 1 in HP by (field; lra).
  replace (1 / s) with (/ s) in HP, HQ by (field; lra). fold dens in HP.
  assert (Hk : 0 < K / F) by (apply Rdiv_lt_0_compat; assumption). assert (Hk' : 0 < 1 / (K / F)) by (apply Rdiv_lt_0_compat; lra).
  destruct (ig_m12 (/ s) F Hc) as (M0 & M1 & M2). unfold invgauss_cdf, invgauss_price. rewrite fdd_FWD. fold F. cbv zeta. change (expm1 (sigma m ^ 2 * T)) with s.
  replace (1 / s) with (/ s) by (field; lra). destruct (Rlt_dec 0 1); [|lra]. destruct (Rlt_dec 0 (-1)); [lra|].
  rewrite (HQ _ Hk), (HQ _ Hk').
  split; [exact M0|]. split; [exact M1|]. split; [rewrite ES; exact M2|]. split; [apply iga_above; assumption|]. split; [ring|].
  intros cp [->| ->].
  - eexists. split; [apply (iga_call (/ s) (igc s (/ s)) Hc HP F HF K HK)|]. destruct (Rlt_dec 0 1); [|lra]. ring.
  - eexists. split; [apply (iga_put (/ s) (igc s (/ s)) Hc HP F HF K HK)|]. destruct (Rlt_dec 0 (-1)); [lra|]. ring.
Qed.
Lemma invgauss_par igc igs m K S T : ig_routines igc igs -> 0 < K -> 0 < S -> 0 < sigma m ^ 2 * T ->
  invgauss_price igc igs m K S T 1 - invgauss_price igc igs m K S T (-1) = DF (intr m) T * (FWD (intr m) (divr m) (is_fwd m) S T - K).
Proof.
  intros HR HK HS Hv. pose proof (expm1_pos _ Hv) as E. assert (HF : 0 < FWD (intr m) (divr m) (is_fwd m) S T) by exact (mF_pos m S T HS).
  unfold invgauss_price. rewrite fdd_FWD. set (F := FWD _ _ _ _ _) in *. cbv zeta. set (s := expm1 (sigma m ^ 2 * T)) in *.
  destruct (HR s (1 / s) E ltac:(apply Rdiv_lt_0_compat; lra)) as (_ & HQ).
  assert (Hk : 0 < K / F) by (apply Rdiv_lt_0_compat; assumption). assert (Hk' : 0 < 1 / (K / F)) by (apply Rdiv_lt_0_compat; lra).
  rewrite (HQ _ Hk), (HQ _ Hk'). destruct (Rlt_dec 0 1); [|lra]. destruct (Rlt_dec 0 (-1)); [lra|]. field. lra.
Qed.

(** ** the routines exist: the closed form of the inverse Gaussian distribution function *)
Definition ig_cdf (m l x : R) : R := Phi (sqrt (l / x) * (x / m - 1)) + exp (2 * l / m) * Phi (- (sqrt (l / x) * (x / m + 1))).
Section CDF.
Variables (m l : R).
Hypothesis (Hm : 0 < m) (Hl : 0 < l).
Let a (x : R) := sqrt (l / x) * (x / m - 1).
Let b (x : R) := - (sqrt (l / x) * (x / m + 1)).
Lemma ab_npdf x : 0 < x -> exp (2 * l / m) * npdf (b x) = npdf (a x).
Proof using Hm Hl.
  intros Hx. unfold npdf. assert (H : 0 <= l / x) by (left; apply Rdiv_lt_0_compat; assumption). unfold Rdiv at 2. rewrite <- Rmult_assoc, <- exp_plus. change (exp (- (a x * a x) / 2) / sqrt (2 * PI)) with (exp (- (a x * a x) / 2) * / sqrt (2 * PI)). f_equal. f_equal. unfold a, b.
  replace (- (sqrt (l / x) * (x / m + 1)) * - (sqrt (l / x) * (x / m + 1))) with (sqrt (l / x) ^ 2 * (x / m + 1) ^ 2) by ring.
  replace (sqrt (l / x) * (x / m - 1) * (sqrt (l / x) * (x / m - 1))) with (sqrt (l / x) ^ 2 * (x / m - 1) ^ 2) by ring. rewrite pow2_sqrt by exact H. field. lra.
Qed.
Lemma q_derive x : 0 < x -> is_derive (fun x => sqrt (l / x)) x (- sqrt (l / x) / (2 * x)).
Proof using Hl.
  intros Hx. assert (H : 0 < l / x) by (apply Rdiv_lt_0_compat; assumption). pose proof (sqrt_lt_R0 _ H) as Q. auto_derive; [split; [lra|split; [exact H|trivial]]|].
  change (l * / x) with (l / x). set (q := sqrt (l / x)) in *. assert (E : l = q * q * x) by (unfold q; rewrite sqrt_sqrt by lra; field; lra). Req. rewrite E. clearbody q. field. lra.
Qed.
Lemma ig_cdf_derive x : 0 < x -> is_derive (ig_cdf m l) x (ig_density m l x).
Proof using Hm Hl.
  intros Hx. assert (H : 0 < l / x) by (apply Rdiv_lt_0_compat; assumption). pose proof (sqrt_lt_R0 _ H) as Q.
  assert (Da : is_derive a x (- sqrt (l / x) / (2 * x) * (x / m - 1) + sqrt (l / x) * / m)).
  { apply (is_derive_mult_R (fun x => sqrt (l / x)) (fun x => x / m - 1)); [now apply q_derive|auto_derive; [lra|Req; field; lra]]. }
  assert (Db : is_derive (fun x => sqrt (l / x) * (x / m + 1)) x (- sqrt (l / x) / (2 * x) * (x / m + 1) + sqrt (l / x) * / m)).
  { apply (is_derive_mult_R (fun x => sqrt (l / x)) (fun x => x / m + 1)); [now apply q_derive|auto_derive; [lra|Req; field; lra]]. }
  apply (is_derive_opp (V := R_NormedModule)) in Db.
  pose proof (is_derive_plus _ _ _ _ _ (is_derive_comp Phi a x _ _ (is_derive_Phi (a x)) Da)
     (is_derive_scal_R _ (exp (2 * l / m)) _ _ (is_derive_comp Phi b x _ _ (is_derive_Phi (b x)) Db))) as D.
  eapply is_derive_eq; [exact D|]. clear D Da Db. unfold plus, scal, opp; cbn; unfold mult; cbn.
  match goal with |- ?u * npdf (a x) + exp (2 * l / m) * (?v * npdf (b x)) = _ => replace (u * npdf (a x) + exp (2 * l / m) * (v * npdf (b x))) with (u * npdf (a x) + v * (exp (2 * l / m) * npdf (b x))) by ring end.
  rewrite ab_npdf by exact Hx. unfold ig_density, npdf.
  replace (- (a x * a x) / 2) with (- (l * (x - m) ^ 2) / (2 * m ^ 2 * x)).
  2:{ unfold a. replace (sqrt (l / x) * (x / m - 1) * (sqrt (l / x) * (x / m - 1))) with (sqrt (l / x) ^ 2 * (x / m - 1) ^ 2) by ring. rewrite pow2_sqrt by lra. field. lra. }
  pose proof PI_RGT_0 as Hp. replace (sqrt (l / (2 * PI * x ^ 3))) with (sqrt (l / x) / x / sqrt (2 * PI)).
  - set (w := sqrt (2 * PI)). assert (0 < w) by (apply sqrt_lt_R0; lra). field. repeat split; lra.
  - replace (l / (2 * PI * x ^ 3)) with ((l / x) / (x ^ 2 * (2 * PI))) by (field; lra).
    rewrite (sqrt_div_alt (l / x) (x ^ 2 * (2 * PI))) by (apply Rmult_lt_0_compat; [apply pow_lt; lra|lra]). rewrite (sqrt_mult_alt (x ^ 2)) by apply pow2_ge_0. rewrite sqrt_pow2 by lra. field.
    split; [|lra]. apply Rgt_not_eq, sqrt_lt_R0. lra.
Qed.
Lemma sq_gt B x : 0 < B -> 0 < x -> x < l / B ^ 2 -> B < sqrt (l / x).
Proof using Hl.
  intros HB Hx H. rewrite <- (sqrt_pow2 B) at 1 by lra. apply sqrt_lt_1_alt. split; [apply pow2_ge_0|]. assert (0 < B ^ 2) by (apply pow_lt; lra).
  apply (Rmult_lt_reg_r x); [exact Hx|]. replace (l / x * x) with l by (field; lra). apply (Rmult_lt_compat_l (B ^ 2)) in H; [|assumption].
  replace (B ^ 2 * (l / B ^ 2)) with l in H by (field; lra). exact H.
Qed.
Lemma a_0 : filterlim a (at_right 0) (Rbar_locally m_infty).
Proof using Hm Hl.
  intros Q [M HM]. set (B := 2 * (Rabs M + 1)). assert (HB : 0 < B) by (unfold B; pose proof (Rabs_pos M); lra).
  assert (He : 0 < Rmin (m / 2) (l / B ^ 2)) by (apply Rmin_pos; [lra|apply Rdiv_lt_0_compat; [assumption|now apply pow_lt]]).
  exists (mkposreal _ He). intros x Hx Hx0. change (Rabs (x - 0) < Rmin (m / 2) (l / B ^ 2)) in Hx. rewrite Rminus_0_r, Rabs_right in Hx by lra.
  apply HM. pose proof (Rmin_l (m / 2) (l / B ^ 2)). pose proof (Rmin_r (m / 2) (l / B ^ 2)). pose proof (sq_gt B x HB Hx0 ltac:(lra)) as G.
  assert (x / m <= / 2). { apply (Rmult_le_reg_r m); [exact Hm|]. unfold Rdiv. rewrite Rmult_assoc, Rinv_l by lra. lra. }
  unfold a. pose proof (Rle_abs (- M)) as RM. rewrite Rabs_Ropp in RM. unfold B in G. set (q := sqrt (l / x)) in *. set (y := x / m) in *. clearbody q y. pose proof (Rabs_pos M). assert (q * (y - 1) <= q * (- / 2)) by (apply Rmult_le_compat_l; lra). lra.
Qed.
Lemma b_0 : filterlim b (at_right 0) (Rbar_locally m_infty).
Proof using Hm Hl.
  intros Q [M HM]. set (B := Rabs M + 1). assert (HB : 0 < B) by (unfold B; pose proof (Rabs_pos M); lra).
  assert (He : 0 < l / B ^ 2) by (apply Rdiv_lt_0_compat; [assumption|now apply pow_lt]).
  exists (mkposreal _ He). intros x Hx Hx0. change (Rabs (x - 0) < l / B ^ 2) in Hx. rewrite Rminus_0_r, Rabs_right in Hx by lra.
  apply HM. pose proof (sq_gt B x HB Hx0 Hx) as G. assert (0 < x / m) by (apply Rdiv_lt_0_compat; assumption).
  unfold b. pose proof (Rle_abs (- M)) as RM. rewrite Rabs_Ropp in RM. unfold B in G. pose proof (Rabs_pos M). set (q := sqrt (l / x)) in *. set (y := x / m) in *. clearbody q y. assert (0 <= q * y) by (apply Rmult_le_pos; lra). lra.
Qed.
Lemma q_inf B x : 0 < B -> 0 < x -> B ^ 2 * m ^ 2 / l < x -> B < sqrt (l / x) * (x / m).
Proof using Hm Hl.
  intros HB Hx H. apply (Rmult_lt_compat_r l) in H; [|exact Hl]. replace (B ^ 2 * m ^ 2 / l * l) with ((B * m) ^ 2) in H by (field; lra).
  assert (E : sqrt (l / x) * (x / m) = sqrt (x * l) / m).
  { replace (x / m) with (sqrt (x ^ 2) / m) by (rewrite sqrt_pow2 by lra; reflexivity). unfold Rdiv at 2 3. rewrite <- Rmult_assoc, <- sqrt_mult_alt by (left; apply Rdiv_lt_0_compat; assumption). f_equal. f_equal. field. lra. }
  rewrite E. assert (0 < B * m) by (apply Rmult_lt_0_compat; assumption). assert (G : B * m < sqrt (x * l)). { rewrite <- (sqrt_pow2 (B * m)) by lra. apply sqrt_lt_1_alt. split; [apply pow2_ge_0|exact H]. }
  apply (Rmult_lt_reg_r m); [exact Hm|]. replace (sqrt (x * l) / m * m) with (sqrt (x * l)) by (field; lra). exact G.
Qed.
Lemma a_inf : filterlim a (Rbar_locally p_infty) (Rbar_locally p_infty).
Proof using Hm Hl.
  intros Q [M HM]. set (B := 2 * (Rabs M + 1)). assert (HB : 0 < B) by (unfold B; pose proof (Rabs_pos M); lra).
  exists (Rmax (2 * m) (B ^ 2 * m ^ 2 / l)). intros x Hx. pose proof (Rmax_l (2 * m) (B ^ 2 * m ^ 2 / l)). pose proof (Rmax_r (2 * m) (B ^ 2 * m ^ 2 / l)).
  apply HM. pose proof (q_inf B x HB ltac:(lra) ltac:(lra)) as G.
  assert (2 <= x / m). { apply (Rmult_le_reg_r m); [exact Hm|]. unfold Rdiv. rewrite Rmult_assoc, Rinv_l by lra. lra. }
  unfold a. pose proof (Rle_abs M). pose proof (sqrt_pos (l / x)). unfold B in G. pose proof (Rabs_pos M). set (q := sqrt (l / x)) in *. set (y := x / m) in *. clearbody q y. nra.
Qed.
Lemma b_inf : filterlim b (Rbar_locally p_infty) (Rbar_locally m_infty).
Proof using Hm Hl.
  intros Q [M HM]. set (B := Rabs M + 1). assert (HB : 0 < B) by (unfold B; pose proof (Rabs_pos M); lra).
  exists (Rmax 0 (B ^ 2 * m ^ 2 / l)). intros x Hx. pose proof (Rmax_l 0 (B ^ 2 * m ^ 2 / l)). pose proof (Rmax_r 0 (B ^ 2 * m ^ 2 / l)).
  apply HM. pose proof (q_inf B x HB ltac:(lra) ltac:(lra)) as G. unfold b. pose proof (Rle_abs (- M)) as RM. rewrite Rabs_Ropp in RM. pose proof (sqrt_pos (l / x)). unfold B in G. pose proof (Rabs_pos M). set (q := sqrt (l / x)) in *. set (y := x / m) in *. clearbody q y. nra.
Qed.
Lemma ig_cdf_of : cdf_of (ig_density m l) (ig_cdf m l).
Proof using Hm Hl.
  split; [exact ig_cdf_derive|]. split.
  - pose proof (filterlim_comp _ _ _ a Phi _ _ _ a_0 Phi_lim_m) as L1. pose proof (filterlim_comp _ _ _ b Phi _ _ _ b_0 Phi_lim_m) as L2.
    pose proof (lim_plus_at0 _ _ _ _ L1 (lim_scal_gen _ (exp (2 * l / m)) _ L2)) as L. rewrite Rmult_0_r, Rplus_0_r in L. exact L.
  - pose proof (filterlim_comp _ _ _ a Phi _ _ _ a_inf Phi_lim_p) as L1. pose proof (filterlim_comp _ _ _ b Phi _ _ _ b_inf Phi_lim_m) as L2.
    replace 1 with (1 + exp (2 * l / m) * 0) by ring. apply (is_lim_plus' (fun x => Phi (a x)) (fun x => exp (2 * l / m) * Phi (b x))); [exact L1|].
    exact (is_lim_scal_l (fun x => Phi (b x)) (exp (2 * l / m)) p_infty 0 L2).
Qed.
End CDF.
Lemma ig_routines_exist : ig_routines (fun mu c => ig_cdf (mu * c) c) (fun mu c x => 1 - ig_cdf (mu * c) c x).
Proof. intros mu c Hm Hc. split; [|reflexivity]. apply ig_cdf_of; [now apply Rmult_lt_0_compat|exact Hc]. Qed.
