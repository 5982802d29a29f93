(** NSVh simulation: the simulated point has the transition density of the diffusion. *)
From Coq Require Import Reals Lra Lia List Psatz.
From Coquelicot Require Import Coquelicot.
From Verif Require Import Base Gauss Sums M_Opt M_Fd M_Sabr M_Dist M_NsvhQuad Spec_Expect Spec_Dist Spec_NsvhQuad P_Half P_Expect P_Dist P_NsvhQuad P_NsvhQuad2 P_NsvhQuad3.
Import ListNotations.
Open Scope R_scope.

(** F(c) = (L/S) exp(-L^2/(2t)), S = sqrt(c^2-1), L = ln(c+S) *)
Section F.
Variable t : R. Hypothesis Ht : 0 < t.
Definition hS (c : R) : R := sqrt (c ^ 2 - 1).
Definition hL (c : R) : R := ln (c + hS c).
Definition hF (c : R) : R := hL c / hS c * exp (- hL c ^ 2 / (2 * t)).
Definition hF1 (c : R) : R := exp (- hL c ^ 2 / (2 * t)) * (/ hS c ^ 2 - hL c * c / hS c ^ 3 - hL c ^ 2 / (t * hS c ^ 2)).
Definition hF2 (c : R) : R := exp (- hL c ^ 2 / (2 * t)) * (- hL c / (t * hS c ^ 2) * (/ hS c - hL c * c / hS c ^ 2 - hL c ^ 2 / (t * hS c))
   - 2 * c / hS c ^ 4 - c / hS c ^ 4 - hL c / hS c ^ 3 + 3 * hL c * c ^ 2 / hS c ^ 5 - 2 * hL c / (t * hS c ^ 3) + 2 * hL c ^ 2 * c / (t * hS c ^ 4)).
Lemma hS_pos c : 1 < c -> 0 < hS c. Proof. intros H. apply sqrt_lt_R0. nra. Qed.
Lemma hS_sq c : 1 < c -> hS c ^ 2 = c ^ 2 - 1. Proof. intros H. unfold hS. rewrite pow2_sqrt; [reflexivity|nra]. Qed.
Lemma dS c : 1 < c -> is_derive hS c (c / hS c).
Proof.
  intros H. pose proof (hS_pos c H) as P. unfold hS at 1. eapply is_derive_eq.
  { apply (is_derive_comp_R sqrt (fun c => c ^ 2 - 1)); [apply is_derive_Reals; apply derivable_pt_lim_sqrt; nra|auto_derive; [exact I|reflexivity]]. }
  cbv beta. fold (hS c). field. lra.
Qed.
Lemma dL c : 1 < c -> is_derive hL c (/ hS c).
Proof.
  intros H. pose proof (hS_pos c H). unfold hL. eapply is_derive_eq. { apply (is_derive_comp_R ln (fun c => c + hS c)); [apply is_derive_ln; lra|apply is_derive_plus_R; [apply is_derive_id_R|apply dS, H]]. }
  cbv beta. field. split; lra.
Qed.
Lemma dF c : 1 < c -> is_derive hF c (hF1 c).
Proof.
  intros H. pose proof (hS_pos c H) as P. pose proof (dS c H) as D1. pose proof (dL c H) as D2. unfold hF.
  assert (X1 : ex_derive hS c) by (eexists; exact D1). assert (X2 : ex_derive hL c) by (eexists; exact D2).
  auto_derive; [repeat split; auto; lra|]. Req. rewrite (is_derive_unique _ _ _ D1 : Derive (fun x => hS x) c = _), (is_derive_unique _ _ _ D2 : Derive (fun x => hL x) c = _). unfold hF1.
  replace (- (hL c * (hL c * 1)) * / (2 * t)) with (- hL c ^ 2 / (2 * t)) by (field; lra). set (E := exp (- hL c ^ 2 / (2 * t))). clearbody E. field. lra.
Qed.
Lemma dF1 c : 1 < c -> is_derive hF1 c (hF2 c).
Proof.
  intros H. pose proof (hS_pos c H) as P. pose proof (dS c H) as D1. pose proof (dL c H) as D2. unfold hF1.
  assert (X1 : ex_derive hS c) by (eexists; exact D1). assert (X2 : ex_derive hL c) by (eexists; exact D2).
  auto_derive.
  { assert (0 < hS c * (hS c * 1)) by nra. assert (0 < hS c * (hS c * (hS c * 1))) by nra. repeat split; auto; nra. }
  Req. rewrite (is_derive_unique _ _ _ D1 : Derive (fun x => hS x) c = _), (is_derive_unique _ _ _ D2 : Derive (fun x => hL x) c = _). unfold hF2.
  replace (- (hL c * (hL c * 1)) * / (2 * t)) with (- hL c ^ 2 / (2 * t)) by (field; lra). set (E := exp (- hL c ^ 2 / (2 * t))). clearbody E. field. lra.
Qed.
(** the radial equation *)
Lemma hF_ode c : 1 < c -> / 2 * (c ^ 2 - 1) * hF2 c + 3 / 2 * c * hF1 c + / 2 * hF c = (hL c ^ 2 / (2 * t ^ 2) - 3 / (2 * t)) * hF c.
Proof.
  intros H. pose proof (hS_pos c H) as P. rewrite <- (hS_sq c H). unfold hF, hF1, hF2. set (E := exp (- hL c ^ 2 / (2 * t))). clearbody E. set (S := hS c) in *. set (L := hL c).
  assert (Hc : c * c = S * S + 1) by (pose proof (hS_sq c H) as Q; fold S in Q; lra). clearbody S L.
  field_simplify_eq [Hc]; [|lra]. ring [Hc].
Qed.
End F.
(** ** the density in half-space coordinates *)
Lemma sinh_hL c : 1 < c -> sinh (hL c) = hS c.
Proof.
  intros H. pose proof (hS_pos c H). pose proof (hS_sq c H) as Q. unfold hL, sinh. rewrite exp_Ropp, exp_ln by lra. replace (/ (c + hS c)) with (c - hS c); [field|].
  apply (Rmult_eq_reg_r (c + hS c)); [|lra]. rewrite Rinv_l by lra. nra.
Qed.
Definition nN (lam t : R) : R := / (2 * PI * t * sqrt (2 * PI * t)) * exp (- ((lam - 1) ^ 2 * t / 8)).
Lemma density_hF lam t x y z : 1 < hyp_cosh x y z -> hyp_density lam t x y z = nN lam t * hF t (hyp_cosh x y z) * Rpower z ((lam - 1) / 2 - 2).
Proof.
  intros H. unfold hyp_density, hyp_dist. cbv zeta. fold (hS (hyp_cosh x y z)). fold (hL (hyp_cosh x y z)). rewrite sinh_hL by exact H. unfold hF, nN.
  replace (- hL (hyp_cosh x y z) ^ 2 / (2 * t) - (lam - 1) ^ 2 * t / 8) with (- hL (hyp_cosh x y z) ^ 2 / (2 * t) + - ((lam - 1) ^ 2 * t / 8)) by ring. rewrite exp_plus. ring.
Qed.
Lemma hyp_cosh_gt1 x y z : 0 < z -> ~ (x = 0 /\ y = 0 /\ z = 1) -> 1 < hyp_cosh x y z.
Proof.
  intros Hz N. unfold hyp_cosh. apply (Rmult_lt_reg_r (2 * z)); [lra|]. unfold Rdiv. rewrite Rmult_assoc, Rinv_l by lra. rewrite Rmult_1_r, Rmult_1_l.
  pose proof (pow2_ge_0 x). pose proof (pow2_ge_0 y). pose proof (pow2_ge_0 (z - 1)).
  destruct (Req_dec x 0) as [Ex|Nx]; [|assert (0 < x ^ 2) by (apply pow2_gt_0; exact Nx); lra]. destruct (Req_dec y 0) as [Ey|Ny]; [|assert (0 < y ^ 2) by (apply pow2_gt_0; exact Ny); lra].
  destruct (Req_dec z 1) as [Ez|Nz]; [elim N; auto|]. assert (0 < (z - 1) ^ 2) by (apply pow2_gt_0; lra). lra.
Qed.
Lemma loc_gt (f : R -> R) x a : ex_derive f x -> a < f x -> locally x (fun y => a < f y).
Proof.
  intros E H. pose proof (ex_derive_continuous (K := R_AbsRing) (V := R_NormedModule) f x E) as C. apply (C (fun v => a < v)). exists (mkposreal (f x - a) ltac:(lra)). intros v Hv. change (Rabs (v - f x) < f x - a) in Hv. apply Rabs_def2 in Hv. lra.
Qed.
Lemma dcx x y z : z <> 0 -> is_derive (fun x => hyp_cosh x y z) x (x / z).
Proof. intros Hz. unfold hyp_cosh. auto_derive; [exact I|]. Req. field. exact Hz. Qed.
Lemma dcz x y z : 0 < z -> is_derive (fun z => hyp_cosh x y z) z (1 - hyp_cosh x y z / z).
Proof. intros Hz. unfold hyp_cosh. auto_derive; [lra|]. Req. field. lra. Qed.
Lemma cosh_sym x y z : hyp_cosh x y z = hyp_cosh y x z.
Proof. unfold hyp_cosh. f_equal. ring. Qed.
Lemma density_sym lam t x y z : hyp_density lam t x y z = hyp_density lam t y x z.
Proof. unfold hyp_density, hyp_dist. now rewrite cosh_sym. Qed.
Section D.
Variables (lam t x y z : R).
Hypothesis (Ht : 0 < t) (Hz : 0 < z) (Hc : 1 < hyp_cosh x y z).
Let b := (lam - 1) / 2.
Let c := hyp_cosh x y z.
Let K := nN lam t * Rpower z b.
Lemma Rp_b zz : 0 < zz -> zz ^ 2 * Rpower zz (b - 2) = Rpower zz b.
Proof. intros H. rewrite <- (Rpower_pow 2 zz H), <- Rpower_plus. f_equal. cbn. ring. Qed.
Lemma d2x : deriv2 (fun x => z ^ 2 * hyp_density lam t x y z) x (K * (hF2 t c * (x / z) ^ 2 + hF1 t c / z)).
Proof.
  assert (L : locally x (fun x' => 1 < hyp_cosh x' y z)) by (apply loc_gt; [eexists; apply dcx; lra|exact Hc]).
  exists (fun x' => K * (hF1 t (hyp_cosh x' y z) * (x' / z))). split.
  - apply locally_locally in L. revert L. apply filter_imp. intros x' L. apply (is_derive_ext_loc (fun x' => K * hF t (hyp_cosh x' y z))).
    + revert L. apply filter_imp. intros v Hv. rewrite density_hF by exact Hv. fold b. unfold K. rewrite <- (Rp_b z Hz). Req. ring.
    + apply locally_singleton in L. eapply is_derive_eq. { apply is_derive_scal_R. apply (is_derive_comp_R (hF t) (fun x => hyp_cosh x y z)); [apply dF; [exact Ht|exact L]|apply dcx; lra]. } cbv beta. ring.
  - eapply is_derive_eq. { apply is_derive_scal_R. apply is_derive_mult_R; [apply (is_derive_comp_R (hF1 t) (fun x => hyp_cosh x y z)); [apply dF1; [exact Ht|exact Hc]|apply dcx; lra]|]. instantiate (1 := / z). auto_derive; [exact I|]. Req. field. lra. } cbv beta. fold c. field. lra.
Qed.
Definition zA1 (z' : R) : R := nN lam t * (Rpower z' b * (b / z' * hF t (hyp_cosh x y z') + hF1 t (hyp_cosh x y z') * (1 - hyp_cosh x y z' / z'))).
Lemma dRp zz e : 0 < zz -> is_derive (fun v => Rpower v e) zz (e / zz * Rpower zz e).
Proof. intros H. unfold Rpower. auto_derive; [exact H|]. Req. field. lra. Qed.
Lemma dzA e zz : 0 < zz -> 1 < hyp_cosh x y zz ->
  is_derive (fun v => nN lam t * (Rpower v e * hF t (hyp_cosh x y v))) zz (nN lam t * (Rpower zz e * (e / zz * hF t (hyp_cosh x y zz) + hF1 t (hyp_cosh x y zz) * (1 - hyp_cosh x y zz / zz)))).
Proof.
  intros H1 H2. eapply is_derive_eq. { apply is_derive_scal_R. apply is_derive_mult_R; [apply dRp; exact H1|apply (is_derive_comp_R (hF t) (fun v => hyp_cosh x y v)); [apply dF; [exact Ht|exact H2]|apply dcz; exact H1]]. }
  cbv beta. ring.
Qed.
Lemma d2z : deriv2 (fun z => z ^ 2 * hyp_density lam t x y z) z
  (K * (b / z * (b / z * hF t c + hF1 t c * (1 - c / z)) - b / z ^ 2 * hF t c + b / z * (hF1 t c * (1 - c / z)) + hF2 t c * (1 - c / z) ^ 2 + hF1 t c * (- ((1 - c / z) / z) + c / z ^ 2))).
Proof.
  assert (L : locally z (fun v => 0 < v /\ 1 < hyp_cosh x y v)).
  { apply filter_and; [|apply loc_gt; [eexists; apply dcz; exact Hz|exact Hc]]. exists (mkposreal z Hz). intros v Hv. change (Rabs (v - z) < z) in Hv. apply Rabs_def2 in Hv. lra. }
  exists zA1. split.
  - apply locally_locally in L. revert L. apply filter_imp. intros v L. apply (is_derive_ext_loc (fun v => nN lam t * (Rpower v b * hF t (hyp_cosh x y v)))).
    + revert L. apply filter_imp. intros w [W1 W2]. rewrite density_hF by exact W2. fold b. rewrite <- (Rp_b w W1). Req. ring.
    + apply locally_singleton in L. destruct L as [L1 L2]. now apply dzA.
  - unfold zA1. eapply is_derive_eq.
    { apply is_derive_scal_R. apply is_derive_mult_R; [apply dRp; exact Hz|]. apply is_derive_plus_R.
      - apply is_derive_mult_R; [instantiate (1 := - (b / z ^ 2)); auto_derive; [lra|]; Req; field; lra|]. apply (is_derive_comp_R (hF t) (fun v => hyp_cosh x y v)); [apply dF; [exact Ht|exact Hc]|apply dcz; exact Hz].
      - apply is_derive_mult_R; [apply (is_derive_comp_R (hF1 t) (fun v => hyp_cosh x y v)); [apply dF1; [exact Ht|exact Hc]|apply dcz; exact Hz]|].
        apply is_derive_minus_R; [apply is_derive_const_R|]. unfold Rdiv. apply is_derive_mult_R; [apply dcz; exact Hz|]. instantiate (1 := - / z ^ 2). auto_derive; [lra|]. Req. field. lra. }
    cbv beta. fold c. unfold K. field. lra.
Qed.
Lemma d1z : is_derive (fun z => z * hyp_density lam t x y z) z (K / z * ((b - 1) / z * hF t c + hF1 t c * (1 - c / z))).
Proof.
  assert (L : locally z (fun v => 0 < v /\ 1 < hyp_cosh x y v)).
  { apply filter_and; [|apply loc_gt; [eexists; apply dcz; exact Hz|exact Hc]]. exists (mkposreal z Hz). intros v Hv. change (Rabs (v - z) < z) in Hv. apply Rabs_def2 in Hv. lra. }
  apply (is_derive_ext_loc (fun v => nN lam t * (Rpower v (b - 1) * hF t (hyp_cosh x y v)))).
  - revert L. apply filter_imp. intros w [W1 W2]. rewrite density_hF by exact W2. fold b. replace (b - 1) with (1 + (b - 2)) by ring. rewrite Rpower_plus, Rpower_1 by exact W1. Req. ring.
  - eapply is_derive_eq; [apply dzA; [exact Hz|exact Hc]|]. fold c. unfold K. replace (Rpower z b) with (z * Rpower z (b - 1)). 2:{ replace b with (1 + (b - 1)) at 2 by ring. now rewrite Rpower_plus, Rpower_1. } field. lra.
Qed.
Lemma dt1 : is_derive (fun t => hyp_density lam t x y z) t ((hL c ^ 2 / (2 * t ^ 2) - 3 / (2 * t) - b ^ 2 / 2) * hyp_density lam t x y z).
Proof.
  pose proof PI_RGT_0 as HP. rewrite density_hF by exact Hc. fold b c.
  apply (is_derive_ext (fun t => nN lam t * hF t c * Rpower z (b - 2))). { intros v. rewrite density_hF by exact Hc. reflexivity. }
  unfold nN, hF. assert (P : 0 < 2 * PI * t) by nra. assert (PS : 0 < sqrt (2 * PI * t)) by now apply sqrt_lt_R0.
  assert (G1 : is_derive (fun t => / (2 * PI * t * sqrt (2 * PI * t))) t (- (3 / (2 * t)) * / (2 * PI * t * sqrt (2 * PI * t)))).
  { eapply is_derive_eq. { apply (is_derive_comp_R Rinv (fun t => 2 * PI * t * sqrt (2 * PI * t))).
      - apply (is_derive_inv (fun x => x) _ 1); [apply is_derive_id_R|]. assert (0 < 2 * PI * t * sqrt (2 * PI * t)) by (apply Rmult_lt_0_compat; lra). cbv beta. lra.
      - apply (is_derive_mult_R (fun t => 2 * PI * t) (fun t => sqrt (2 * PI * t))); [instantiate (1 := 2 * PI); auto_derive; [exact I|Req; ring]|].
        apply (is_derive_comp_R sqrt (fun t => 2 * PI * t)); [apply is_derive_Reals; apply derivable_pt_lim_sqrt; exact P|instantiate (1 := 2 * PI); auto_derive; [exact I|Req; ring]]. }
    cbv beta. set (w := sqrt (2 * PI * t)) in *. assert (EP : PI = w * w / (2 * t)). { unfold w. rewrite sqrt_sqrt by lra. field. lra. }
    clearbody w. rewrite EP. field. repeat split; lra. }
  assert (G2 : is_derive (fun t => exp (- ((lam - 1) ^ 2 * t / 8))) t (- (b ^ 2 / 2) * exp (- ((lam - 1) ^ 2 * t / 8)))).
  { eapply is_derive_eq. { apply (is_derive_comp_R exp (fun t => - ((lam - 1) ^ 2 * t / 8))); [apply is_derive_exp|instantiate (1 := - ((lam - 1) ^ 2 / 8)); auto_derive; [exact I|Req; field]]. } cbv beta. unfold b. field. }
  assert (G3 : is_derive (fun t => exp (- hL c ^ 2 / (2 * t))) t (hL c ^ 2 / (2 * t ^ 2) * exp (- hL c ^ 2 / (2 * t)))).
  { eapply is_derive_eq. { apply (is_derive_comp_R exp (fun t => - hL c ^ 2 / (2 * t))); [apply is_derive_exp|instantiate (1 := hL c ^ 2 / (2 * t ^ 2)); auto_derive; [lra|Req; field; lra]]. } cbv beta. ring. }
  eapply is_derive_eq.
  { apply is_derive_mult_R; [|apply is_derive_const_R]. apply is_derive_mult_R; [apply is_derive_mult_R; [exact G1|exact G2]|apply is_derive_mult_R; [apply is_derive_const_R|exact G3]]. }
  cbv beta. ring.
Qed.
Lemma fwd_eq : / 2 * (K * (hF2 t c * (x / z) ^ 2 + hF1 t c / z) + K * (hF2 t c * (y / z) ^ 2 + hF1 t c / z) +
   K * (b / z * (b / z * hF t c + hF1 t c * (1 - c / z)) - b / z ^ 2 * hF t c + b / z * (hF1 t c * (1 - c / z)) + hF2 t c * (1 - c / z) ^ 2 + hF1 t c * (- ((1 - c / z) / z) + c / z ^ 2)))
   - lam / 2 * (K / z * ((b - 1) / z * hF t c + hF1 t c * (1 - c / z))) =
  (hL c ^ 2 / (2 * t ^ 2) - 3 / (2 * t) - b ^ 2 / 2) * hyp_density lam t x y z.
Proof.
  rewrite density_hF by exact Hc. fold b c. pose proof (hF_ode t Ht c Hc) as O. replace (Rpower z (b - 2)) with (Rpower z b / z ^ 2) by (rewrite <- (Rp_b z Hz); field; lra).
  replace ((hL c ^ 2 / (2 * t ^ 2) - 3 / (2 * t) - b ^ 2 / 2) * (nN lam t * hF t c * (Rpower z b / z ^ 2))) with (K / z ^ 2 * ((hL c ^ 2 / (2 * t ^ 2) - 3 / (2 * t)) * hF t c - b ^ 2 / 2 * hF t c)) by (unfold K; field; lra).
  rewrite <- O. assert (El : lam = 2 * b + 1) by (unfold b; field). assert (Ex : x ^ 2 = 2 * z * c - 1 - y ^ 2 - z ^ 2) by (unfold c, hyp_cosh; field; lra). clearbody K. clearbody c. clearbody b. rewrite El.
  set (A := hF t c). set (B := hF1 t c). set (D := hF2 t c). clearbody A B D. clear O. 
  replace ((x / z) ^ 2) with (x ^ 2 / z ^ 2) by (field; lra). rewrite Ex. field. lra.
Qed.
End D.
Lemma forward_equation lam t x y z : 0 < t -> 0 < z -> ~ (x = 0 /\ y = 0 /\ z = 1) ->
  exists qt axx ayy azz bz, is_derive (fun t => hyp_density lam t x y z) t qt /\
    deriv2 (fun x => z ^ 2 * hyp_density lam t x y z) x axx /\ deriv2 (fun y => z ^ 2 * hyp_density lam t x y z) y ayy /\
    deriv2 (fun z => z ^ 2 * hyp_density lam t x y z) z azz /\ is_derive (fun z => z * hyp_density lam t x y z) z bz /\
    qt = / 2 * (axx + ayy + azz) - lam / 2 * bz.
Proof.
  intros Ht Hz N. pose proof (hyp_cosh_gt1 x y z Hz N) as Hc. assert (Hc' : 1 < hyp_cosh y x z) by now rewrite cosh_sym.
  pose proof (d2x lam t x y z Ht Hz Hc) as A1. pose proof (d2x lam t y x z Ht Hz Hc') as A2. rewrite (cosh_sym y x z) in A2. pose proof (d2z lam t x y z Ht Hz Hc) as A3. pose proof (d1z lam t x y z Ht Hz Hc) as A4. pose proof (dt1 lam t x y z Ht Hc) as A5.
  eexists _, _, _, _, _. split; [exact A5|]. split; [exact A1|]. split.
  - destruct A2 as [f' [F1 F2]]. exists f'. split; [|exact F2]. revert F1. apply filter_imp. intros v Hv. eapply is_derive_ext; [|exact Hv]. intros w. cbv beta. now rewrite density_sym.
  - split; [exact A3|]. split; [exact A4|]. symmetry. apply (fwd_eq lam t x y z Ht Hz Hc).
Qed.
