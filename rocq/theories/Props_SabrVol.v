(** C89: equivalent CEV volatilities SabrChoiWu2021H / SabrChoiWu2021P, any base beta. *)
From Coq Require Import Reals Lra Lia List.
From Coquelicot Require Import Coquelicot.
From Verif Require Import Base P_SabrTight M_Opt M_Fd M_Sabr M_Cev M_SabrVol Spec_Opt Spec_Cev Spec_Sabr P_OptRefute P_Gamma2 P_Ncx3 P_Bsm P_Sabr3 P_Sabr4 P_SabrVol2 P_SabrVol4 P_SabrVol5 P_SabrVol6 Spec_SabrVol.
Open Scope R_scope.
(** Both functions raise exactly when the strike is not positive; so does everything evaluated at strike zero. *)
Theorem C89_domain : forall mo p base order K S T, 0 < S -> (h_vol mo p base order K S T = None <-> K <= 0) /\ (p_vol mo p base order K S T = None <-> K <= 0).
Proof. exact hp_domain. Qed.
Print Assumptions C89_domain.
(** mass_zero evaluates the volatility at strike zero: it can never return. *)
Theorem C89_mass_zero_refuted : forall gsf mo p order S T, 0 < S -> h_mass_zero gsf mo p order S T = None.
Proof. exact h_mass_none. Qed.
Print Assumptions C89_mass_zero_refuted.
(** Leading order: the two methods agree, and the choice of the base beta changes the volatility only by the ratio of the two
    integrals of x^-b between forward and strike. *)
Theorem C89_order0 : forall mo p base K S T, h_vol mo p base 0 K S T = p_vol mo p base 0 K S T.
Proof. exact hp_order0. Qed.
Print Assumptions C89_order0.
Theorem C89_base_invariant : forall mo p b K S T v v', 0 < S -> 0 < K -> b_beta p < 1 -> b <> 1 -> let F := FWD (intr mo) (divr mo) (is_fwd mo) S T in
  h_vol mo p (Some b) 0 K S T = Some v -> h_vol mo p None 0 K S T = Some v' ->
  v * ((Rpower K (1 - b_beta p) - Rpower F (1 - b_beta p)) / (1 - b_beta p)) = v' * ((Rpower K (1 - b) - Rpower F (1 - b)) / (1 - b)).
Proof. exact h_base_invariant. Qed.
Print Assumptions C89_base_invariant.
(** At the money both give the second-order expansion; the base beta only moves the curvature term. *)
Theorem C89_atm : forall mo p base S T, 0 < S -> base_ok p base ->
  let F := FWD (intr mo) (divr mo) (is_fwd mo) S T in let alpha := b_sigma p / Rpower F (1 - b_beta p) in
  let b := match base with None => b_beta p | Some b => b end in
  let v := alpha * Rpower F (1 - b) * (1 + T * (((1 - b_beta p) ^ 2 - (1 - b) ^ 2) / 24 * alpha ^ 2 + b_rho p * b_beta p / 4 * b_vov p * alpha + (2 - 3 * b_rho p ^ 2) / 24 * b_vov p ^ 2)) in
  h_vol mo p base 1 F S T = Some v /\ p_vol mo p base 1 F S T = Some v.
Proof.
  intros mo p base S T HS Hb F alpha b v. pose proof (h_atm mo p base S T HS Hb) as A. pose proof (p_atm mo p base S T HS) as B. cbv zeta in A, B. fold F in A, B. fold alpha in A, B. rewrite A, B.
  assert (E : alpha * Rpower F (1 - vol_beta p base) * (1 + T * p_order1_atm p base alpha) = v). { unfold v, p_order1_atm, b, vol_beta. destruct base; field. }
  rewrite E. split; reflexivity.
Qed.
Print Assumptions C89_atm.
(** Without a base beta, H is the function verified in C38. *)
Theorem C89_no_base : forall mo p order K S T, 0 < S -> 0 < K -> h_vol mo p None order K S T = Some (choiwu_h_vol mo p order K S T).
Proof. exact h_none. Qed.
Print Assumptions C89_no_base.
(** P away from the money (|z| >= 1e-6) uses the exact expression, whose limit at the money is the value used there. *)
Theorem C89_p_formula : forall p base alpha kk z, / 10 ^ 6 <= Rabs z -> p_order1 p base alpha kk z = p_order1_den p base alpha kk z (z ^ 2).
Proof. exact p_den_eq. Qed.
Print Assumptions C89_p_formula.
Theorem C89_p_atm_limit : forall p base F, 0 < F -> -1 < b_rho p < 1 -> 0 < b_vov p -> 0 < b_sigma p -> base_ok p base -> / 10 ^ 3 <= 1 - b_beta p ->
  let alpha := b_sigma p / Rpower F (1 - b_beta p) in
  let eta0 := b_vov p * sqrt (1 - b_rho p ^ 2) / ((1 - b_beta p) * alpha) in
  / 10 ^ 6 < eta0 * eta0 - 1 \/ (eta0 * eta0 - 1 < - / 10 ^ 6 /\ eta0 <> sqrt (1 - b_rho p ^ 2) /\ / 10 ^ 6 < eta0) ->
  is_lim (fun K => let z := b_vov p / alpha * (powrel (K / F - 1) (1 - b_beta p) * (K / F - 1)) in p_order1_den p base alpha (K / F) z (z ^ 2)) F (p_order1_atm p base alpha).
Proof. exact p_atm_limit. Qed.
Print Assumptions C89_p_atm_limit.
(** The correction term is, whichever branch computes it, one and the same integral. *)
Theorem C89_p_integral : forall p alpha kk zz, -1 < b_rho p < 1 -> / 10 ^ 3 <= Rabs (1 - b_beta p) ->
  let rho := b_rho p in let rhoc := sqrt (1 - rho ^ 2) in let eta := p_eta p alpha kk zz in
  let t1 := (vv zz rho + rho + zz) / rhoc in let t2 := (1 + rho) / rhoc in
  0 < eta -> / 10 ^ 6 < eta * eta - 1 \/ (eta * eta - 1 < - / 10 ^ 6 /\ eta <> rhoc /\ / 10 ^ 6 < eta) \/ (eta = 1 /\ rho <> 0) ->
  (forall t, Rmin t2 t1 <= t <= Rmax t2 t1 -> (eta + rhoc) + 2 * rho * t + (eta - rhoc) * t ^ 2 <> 0) ->
  is_RInt (fun t => rho * b_beta p / (rhoc * (1 - b_beta p)) * (eta / ((eta + rhoc) + 2 * rho * t + (eta - rhoc) * t ^ 2) - / (1 + t ^ 2))) t2 t1 (p_gg_diff p alpha kk zz).
Proof. exact p_gg_integral. Qed.
Print Assumptions C89_p_integral.
(** beta near 1: the limit at the money misses the value used there by rho beta/4 vov (vov - alpha) ... *)
Theorem C89_p_lognormal_limit : forall p base F, 0 < F -> -1 < b_rho p < 1 -> 0 < b_vov p -> 0 < b_sigma p -> base_ok p base -> Rabs (1 - b_beta p) < / 10 ^ 3 ->
  let alpha := b_sigma p / Rpower F (1 - b_beta p) in
  is_lim (fun K => let z := b_vov p / alpha * (powrel (K / F - 1) (1 - b_beta p) * (K / F - 1)) in p_order1_den p base alpha (K / F) z (z ^ 2)) F
    (p_order1_atm p base alpha + b_rho p * b_beta p / 4 * b_vov p * (b_vov p - alpha)).
Proof. exact p_log_limit. Qed.
Print Assumptions C89_p_lognormal_limit.
(** ... which is not zero. *)
Theorem C89_p_lognormal_refuted : exists p F, let alpha := b_sigma p / Rpower F (1 - b_beta p) in
  0 < F /\ 0 < b_sigma p /\ 0 < b_vov p /\ -1 < b_rho p < 1 /\ b_beta p = 1 /\
  is_lim (fun K => let z := b_vov p / alpha * (powrel (K / F - 1) (1 - b_beta p) * (K / F - 1)) in p_order1_den p None alpha (K / F) z (z ^ 2)) F (p_order1_atm p None alpha + / 16).
Proof. exact p_log_bad. Qed.
Print Assumptions C89_p_lognormal_refuted.
(** H with a base beta: the curvature term vanishes next to the money but not at the money, so the volatility jumps: by more than
    0.04 between two strikes 1e-6 apart for sigma = 1. *)
Theorem C89_h_base_limit : forall p b F, 0 < F -> let alpha := b_sigma p / Rpower F (1 - b_beta p) in
  is_lim (fun K => let kk := K / F in h_term20_off p b alpha kk (powrel (kk - 1) (1 - b_beta p) * (kk - 1)) (qq_ratio p (Some b) kk)) F 0.
Proof. exact h_base_limit. Qed.
Print Assumptions C89_h_base_limit.
Theorem C89_h_base_refuted : let mo := mkOpt 0 0 0 true in let p := mkSabr 1 0 0 0 in
  exists v1 v2, h_vol mo p (Some 1) 1 1 1 1 = Some v1 /\ h_vol mo p (Some 1) 1 (1 + / 10 ^ 6) 1 1 = Some v2 /\ v1 - v2 > / 25.
Proof. exact h_base_jump. Qed.
Print Assumptions C89_h_base_refuted.
(** mass_zero_t0 is the short-time rate of the mass that mass_zero aims at: with v(T) the limit of the volatility at strike zero,
    -T log(CEV mass at zero for volatility v(T)) tends to mass_zero_t0. *)
Theorem C89_mass_zero_t0 : forall Gam gcdf gsf mo p S, gamma_function Gam -> gamma_routines Gam gcdf gsf -> is_fwd mo = true -> 0 < S -> 0 < b_beta p < 1 -> -1 < b_rho p < 1 ->
  let alpha := b_sigma p / Rpower S (1 - b_beta p) in eps <= alpha -> Rabs (b_vov p / (alpha * (1 - b_beta p))) <> / 10 ^ 3 ->
  exists v, (forall T, filterlim (fun K => match h_vol mo p None 1 K S T with Some w => w | None => 0 end) (at_right 0) (locally (v T))) /\
    forall Te, filterlim (fun T => - T * ln (cev_mass_zero gsf (b_beta p) (mkOpt (v T) 0 0 false) S T)) (at_right 0) (locally (h_mass_zero_t0 mo p S Te)).
Proof. exact h_t0. Qed.
Print Assumptions C89_mass_zero_t0.

Definition ex_sv : sabrp := mkSabr (/ 5) 1 (3 / 5) (/ 2).
Lemma ex_sv_pow : / 5 / Rpower 1 (1 - / 2) = / 5. Proof. unfold Rpower. rewrite ln_1, Rmult_0_r, exp_0. field. Qed.
Lemma ex_rc : sqrt (1 - (3 / 5) ^ 2) = 4 / 5. Proof. replace (1 - (3 / 5) ^ 2) with ((4 / 5) * (4 / 5)) by field. apply sqrt_square. lra. Qed.
(** the limit theorem applies with eta0 = 8, and its value is not the uncorrelated one *)
Example C89_ex_limit : is_lim (fun K => let z := 1 / (/ 5) * (powrel (K / 1 - 1) (1 - / 2) * (K / 1 - 1)) in p_order1_den ex_sv None (/ 5) (K / 1) z (z ^ 2)) 1 (p_order1_atm ex_sv None (/ 5)).
Proof.
  pose proof (C89_p_atm_limit ex_sv None 1 ltac:(lra)) as L. unfold ex_sv in *. cbn [b_rho b_vov b_sigma b_beta] in L. cbv zeta in L. rewrite !ex_sv_pow, ex_rc in L. apply L; try lra; try exact I.
Qed.
Example C89_ex_t0 : exists Gam gcdf gsf, gamma_function Gam /\ gamma_routines Gam gcdf gsf /\ exists v,
    (forall T, filterlim (fun K => match h_vol (mkOpt 0 0 0 true) ex_sv None 1 K 1 T with Some w => w | None => 0 end) (at_right 0) (locally (v T))) /\
    forall Te, filterlim (fun T => - T * ln (cev_mass_zero gsf (/ 2) (mkOpt (v T) 0 0 false) 1 T)) (at_right 0) (locally (h_mass_zero_t0 (mkOpt 0 0 0 true) ex_sv 1 Te)).
Proof.
  destruct gamma_exists as [Gam HG]. exists Gam, (fun x a => Hn Gam a 0 x), (fun x a => 1 - Hn Gam a 0 x). split; [exact HG|].
  assert (R : gamma_routines Gam (fun x a => Hn Gam a 0 x) (fun x a => 1 - Hn Gam a 0 x)). { intros a Ha. split; [now apply Hn_0|]. reflexivity. }
  split; [exact R|]. pose proof (C89_mass_zero_t0 Gam _ _ (mkOpt 0 0 0 true) ex_sv 1 HG R eq_refl ltac:(lra)) as L. cbn [ex_sv b_rho b_vov b_sigma b_beta] in L. cbv zeta in L. rewrite !ex_sv_pow in L. apply L; try lra.
  - pose proof eps_small. lra.
  - replace (1 / (/ 5 * (1 - / 2))) with 10 by field. rewrite Rabs_right by lra. intros E. assert (/ 10 ^ 3 < / 1) by (apply Rinv_lt_contravar; cbn [pow]; lra). lra.
Qed.
Example C89_ex_base : exists v v', h_vol (mkOpt 0 0 0 true) ex_sv (Some 0) 0 2 1 1 = Some v /\ h_vol (mkOpt 0 0 0 true) ex_sv None 0 2 1 1 = Some v' /\
  v * ((Rpower 2 (1 - / 2) - Rpower 1 (1 - / 2)) / (1 - / 2)) = v' * ((Rpower 2 (1 - 0) - Rpower 1 (1 - 0)) / (1 - 0)).
Proof.
  destruct (h_vol (mkOpt 0 0 0 true) ex_sv (Some 0) 0 2 1 1) as [v|] eqn:E; [|apply C89_domain in E; lra]. destruct (h_vol (mkOpt 0 0 0 true) ex_sv None 0 2 1 1) as [v'|] eqn:E'; [|apply C89_domain in E'; lra].
  exists v, v'. split; [reflexivity|]. split; [reflexivity|]. apply (C89_base_invariant (mkOpt 0 0 0 true) ex_sv 0 2 1 1 v v'); cbn [ex_sv b_beta]; try lra; assumption.
Qed.

(** Near eta = 1 the series branch of the correction has the exact slope of its neighbour up to the relative error (e / num^2)^2. *)
Theorem C89_p_series : forall rho rc eta t sk, rho ^ 2 + rc ^ 2 = 1 -> Rabs (eta * eta - 1) <= / 10 ^ 6 ->
  let e := eta * eta - 1 in let num := rho + (eta - rc) * t in let Qd := (eta + rc) + 2 * rho * t + (eta - rc) * t ^ 2 in
  num <> 0 -> Qd <> 0 -> num ^ 2 + e <> 0 ->
  is_derive (fun u => p_gg rho rc eta u sk) t (/ (1 + t ^ 2) - eta / Qd * (1 - (e / num ^ 2) ^ 2)).
Proof. exact gg_series. Qed.
Print Assumptions C89_p_series.
Example C89_p_series_ex : is_derive (fun u => p_gg (3 / 5) (4 / 5) 1 u true) 0 (4 / 9).
Proof.
  replace (4 / 9) with (/ (1 + 0 ^ 2) - 1 / ((1 + 4 / 5) + 2 * (3 / 5) * 0 + (1 - 4 / 5) * 0 ^ 2) * (1 - ((1 * 1 - 1) / (3 / 5 + (1 - 4 / 5) * 0) ^ 2) ^ 2)) by field.
  apply C89_p_series; try lra. replace (1 * 1 - 1) with 0 by ring. rewrite Rabs_R0. lra.
Qed.
