(** Normal SABR through elliptic integrals: the closed form is the integral of the second-order approximation. *)
From Coq Require Import Reals Lra Lia Psatz List.
From Coquelicot Require Import Coquelicot.
From Verif Require Import Base Gauss Sums M_Opt M_Fd M_Sabr M_Ellipe Spec_Ellipe P_Black P_Gmom P_Gmom2 P_Newton P_Cev5.
Open Scope R_scope.

Lemma nphi_derive (u : R) : is_derive (fun u => Phi (- u)) u (- npdf u).
Proof.
  eapply is_derive_eq; [apply (is_derive_comp_R Phi (fun u => - u) u); [apply is_derive_Phi|]|].
  - instantiate (1 := -1). auto_derive; [trivial|ring].
  - rewrite npdf_even. ring.
Qed.
(** n(u) R(u + c) *)
Definition nR (c u : R) : R := npdf u * mills (u + c).
Lemma mills_derive (x : R) : is_derive mills x (x * mills x - 1).
Proof.
  unfold mills. pose proof (npdf_pos x). pose proof (is_derive_npdf x) as D. pose proof (nphi_derive x) as E.
  assert (I : is_derive (fun x => / npdf x) x (x / npdf x)). { eapply is_derive_eq; [apply (is_derive_inv npdf x (- x * npdf x) D); lra|]. field. lra. }
  pose proof (is_derive_mult_R _ _ _ _ _ E I) as M. cbv beta in M. apply (is_derive_ext _ (fun x => Phi (- x) / npdf x)) in M; [|intros; reflexivity].
  eapply is_derive_eq; [exact M|]. field. lra.
Qed.
Lemma nR_derive c (u : R) : is_derive (nR c) u (c * nR c u - npdf u).
Proof.
  unfold nR. pose proof (is_derive_npdf u) as D.
  assert (E : is_derive (fun u => mills (u + c)) u ((u + c) * mills (u + c) - 1)). { eapply is_derive_eq; [apply (is_derive_comp_R mills (fun u => u + c) u); [apply mills_derive|]|]. { instantiate (1 := 1). auto_derive; [trivial|ring]. } ring. }
  eapply is_derive_eq; [apply (is_derive_mult_R _ _ _ _ _ D E)|]. cbv beta. ring.
Qed.
Lemma mills_pos x : 0 < mills x.
Proof. unfold mills. apply Rdiv_lt_0_compat; [apply Phi_pos|apply npdf_pos]. Qed.
Lemma mills_decr x z : x <= z -> mills z <= mills x.
Proof. intros [H| ->]; [|lra]. unfold mills. pose proof (Mills_incr (- z) (- x) ltac:(lra)) as M. rewrite !npdf_even in M. lra. Qed.
Lemma nR_lim c k : is_lim (fun u => u ^ k * nR c u) p_infty 0.
Proof.
  apply (is_lim_le_le_loc (fun _ => 0) (fun u => mills 0 * (u ^ k * npdf u))).
  - exists (Rmax 0 (- c)). intros u Hu. pose proof (Rmax_l 0 (- c)). pose proof (Rmax_r 0 (- c)). assert (0 < u ^ k) by (apply pow_lt; lra). pose proof (npdf_pos u). pose proof (mills_pos (u + c)).
    pose proof (mills_decr 0 (u + c) ltac:(lra)). unfold nR. assert (0 < u ^ k * npdf u) by (apply Rmult_lt_0_compat; assumption). split; [rewrite <- Rmult_assoc; left; apply Rmult_lt_0_compat; assumption|]. rewrite <- Rmult_assoc, (Rmult_comm (mills 0)). apply Rmult_le_compat_l; lra.
  - apply is_lim_const.
  - evar_last; [apply is_lim_scal_l, pow_npdf_lim_all|]. cbn. f_equal. ring.
Qed.
Section G.
Variables (xi u0 al be : R).
Hypothesis Hxi : xi <> 0.
Let q u := 1 + al * (u - u0) + be * (u - u0) ^ 2.
Let G1 u := nR (- xi) u - nR xi u.
Let G2 u := nR (- xi) u + nR xi u - 2 * nR 0 u.
Let G3 u := G1 u / xi - 2 * (npdf u - u * nR 0 u).
Definition QQ u := - (q u * G1 u / xi + (al + 2 * be * (u - u0)) * G2 u / xi ^ 2 + 2 * be * G3 u / xi ^ 2).
Lemma QQ_derive (u : R) : is_derive QQ u (q u * (nR (- xi) u + nR xi u)).
Proof using Hxi.
  pose proof (nR_derive (- xi) u) as D1. pose proof (nR_derive xi u) as D2. pose proof (nR_derive 0 u) as D3. pose proof (is_derive_npdf u) as D4. pose proof (idd u) as DI.
  assert (E1 : is_derive G1 u (- xi * (nR (- xi) u + nR xi u))). { eapply is_derive_eq; [apply (is_derive_minus_R _ _ _ _ _ D1 D2)|]. ring. }
  assert (E2 : is_derive G2 u (- xi * G1 u)). { eapply is_derive_eq; [exact (is_derive_minus_R _ _ _ _ _ (is_derive_plus_R _ _ _ _ _ D1 D2) (is_derive_scal_R _ 2 _ _ D3))|]. unfold G1. cbv beta. ring. }
  assert (E3 : is_derive G3 u (- G2 u)).
  { apply (is_derive_ext (fun u => / xi * G1 u - 2 * (npdf u - u * nR 0 u))); [intros t; unfold G3; Req; unfold Rdiv; ring|].
    eapply is_derive_eq; [exact (is_derive_minus_R _ _ _ _ _ (is_derive_scal_R _ (/ xi) _ _ E1) (is_derive_scal_R _ 2 _ _ (is_derive_minus_R _ _ _ _ _ D4 (is_derive_mult_R _ _ _ _ _ DI D3))))|].
    cbv beta. unfold G2. field. exact Hxi. }
  assert (Dq : is_derive q u (al + 2 * be * (u - u0))). { unfold q. auto_derive; [trivial|Req; ring]. }
  assert (Dq' : is_derive (fun u => al + 2 * be * (u - u0)) u (2 * be)). { auto_derive; [trivial|Req; ring]. }
  apply (is_derive_ext (fun u => (- / xi) * (q u * G1 u) + (- / xi ^ 2) * ((al + 2 * be * (u - u0)) * G2 u + 2 * be * G3 u))).
  { intros t. unfold QQ. Req. field. exact Hxi. }
  eapply is_derive_eq.
  - exact (is_derive_plus_R _ _ _ _ _ (is_derive_scal_R _ (- / xi) _ _ (is_derive_mult_R _ _ _ _ _ Dq E1)) (is_derive_scal_R _ (- / xi ^ 2) _ _ (is_derive_plus_R _ _ _ _ _ (is_derive_mult_R _ _ _ _ _ Dq' E2) (is_derive_scal_R _ (2 * be) _ _ E3)))).
  - cbv beta. unfold G1. field. exact Hxi.
Qed.
Lemma QQ_lim : is_lim QQ p_infty 0.
Proof using.
  assert (P : forall c a0 a1 a2, is_lim (fun u => (a0 + a1 * u + a2 * u ^ 2) * nR c u) p_infty 0).
  { intros c a0 a1 a2. apply (is_lim_ext (fun u => a0 * (u ^ 0 * nR c u) + a1 * (u ^ 1 * nR c u) + a2 * (u ^ 2 * nR c u))); [intros; ring|].
    assert (S : forall a k, is_lim (fun u => a * (u ^ k * nR c u)) p_infty 0). { intros a k. evar_last; [apply is_lim_scal_l, nR_lim|]. cbn. f_equal. ring. }
    replace 0 with (0 + 0 + 0) by ring. apply is_lim_plus'; [apply is_lim_plus'|]; apply S. }
  apply (is_lim_ext (fun u =>
     ((- (1 - al * u0 + be * u0 ^ 2) / xi - (al - 2 * be * u0) / xi ^ 2 - 2 * be / xi ^ 2 / xi) + (- (al - 2 * be * u0) / xi - 2 * be / xi ^ 2) * u + (- be / xi) * u ^ 2) * nR (- xi) u +
     ((- - (1 - al * u0 + be * u0 ^ 2) / xi - (al - 2 * be * u0) / xi ^ 2 + 2 * be / xi ^ 2 / xi) + (- - (al - 2 * be * u0) / xi - 2 * be / xi ^ 2) * u + (be / xi) * u ^ 2) * nR xi u +
     (2 * (al - 2 * be * u0) / xi ^ 2 + (4 * be / xi ^ 2 - 4 * be / xi ^ 2) * u + 0 * u ^ 2) * nR 0 u + 4 * be / xi ^ 2 * (u ^ 0 * npdf u))).
  { intros u. unfold QQ, q, G3, G2, G1. unfold Rdiv. ring. }
  assert (Z : Finite 0 = Finite (0 + 0 + 0 + 0)) by (f_equal; ring). rewrite Z. clear Z. apply is_lim_plus'; [apply is_lim_plus'; [apply is_lim_plus'|]; apply P|].
  evar_last; [apply is_lim_scal_l, pow_npdf_lim_all|]. cbn. f_equal. ring.
Qed.
Lemma nR_cont c (u : R) : continuous (nR c) u.
Proof using. apply (ex_derive_continuous (K := R_AbsRing) (V := R_NormedModule)). eexists. apply nR_derive. Qed.
Lemma q_int : int_from u0 (fun u => (1 + al * (u - u0) + be * (u - u0) ^ 2) * nsi_weight u xi)
  (npdf u0 / xi * ((mills (u0 - xi) - mills (u0 + xi)) + al / xi * (mills (u0 - xi) + mills (u0 + xi) - 2 * mills u0) + 2 * (be / xi ^ 2) * (mills (u0 - xi) - mills (u0 + xi) - 2 * xi * (1 - u0 * mills u0)))).
Proof using Hxi.
  unfold int_from. apply (is_RInt_gen_ext (V := R_NormedModule) (fun u => q u * (nR (- xi) u + nR xi u))).
  { apply filter_forall. intros x u _. unfold q, nR, nsi_weight. change (u + - xi) with (u - xi). Req. ring. }
  assert (E : npdf u0 / xi * ((mills (u0 - xi) - mills (u0 + xi)) + al / xi * (mills (u0 - xi) + mills (u0 + xi) - 2 * mills u0) + 2 * (be / xi ^ 2) * (mills (u0 - xi) - mills (u0 + xi) - 2 * xi * (1 - u0 * mills u0))) = 0 - QQ u0).
  { unfold QQ, q, G3, G2, G1, nR. replace (u0 + - xi) with (u0 - xi) by ring. rewrite Rplus_0_r. field. exact Hxi. }
  rewrite E. intros P [e He]. pose proof QQ_lim as L. apply is_lim_spec in L. destruct (L e) as [B HB].
  apply (Filter_prod _ _ _ (fun a => a = u0) (fun b => B < b)); [reflexivity|exists B; auto|]. intros a b -> Hb. cbn [fst snd].
  exists (QQ b - QQ u0). split.
  - apply (is_RInt_derive (V := R_CompleteNormedModule) QQ (fun u => q u * (nR (- xi) u + nR xi u))); intros x _; [apply QQ_derive|].
    apply (continuous_mult q (fun u => nR (- xi) u + nR xi u)); [apply (ex_derive_continuous (K := R_AbsRing) (V := R_NormedModule)); unfold q; auto_derive; trivial|].
    apply (continuous_plus (V := R_NormedModule) (nR (- xi)) (nR xi)); apply nR_cont.
  - apply He. unfold ball; cbn. unfold AbsRing_ball; cbn. unfold abs, minus, plus, opp; cbn. specialize (HB b Hb). replace (QQ b - QQ u0 + - (0 - QQ u0)) with (QQ b - 0) by ring. exact HB.
Qed.
End G.
(** the closed form is the integral of the approximated integrand *)
Lemma tv_integral p K F T : b_vov p <> 0 -> 0 < T -> b_rho p ^ 2 < 1 -> exists v,
  int_from (nsi_u0 (b_rho p) (nsi_k p K F) (nsi_xi p T)) (fun u => hh_xi_approx u (nsi_k p K F) (nsi_xi p T) (b_rho p) * nsi_weight u (nsi_xi p T)) v /\
  norm_analytic_tv p K F T = v * (b_sigma p * sqrt T / PI * exp (- (/ 2) * nsi_xi p T ^ 2)).
Proof.
  intros Hv HT Hr. unfold norm_analytic_tv. fold (nsi_k p K F). replace (b_vov p * sqrt T / 2) with (nsi_xi p T) by (unfold nsi_xi; field).
  assert (Hx : nsi_xi p T <> 0). { unfold nsi_xi. pose proof (sqrt_lt_R0 T HT). apply Rmult_integral_contrapositive. split; [|lra]. apply Rmult_integral_contrapositive. split; lra. }
  unfold nsi_u0, hh_xi_approx. cbv zeta. set (k := nsi_k p K F). set (xi := nsi_xi p T) in *. clearbody xi. set (rho := b_rho p) in *. clearbody rho k.
  set (V := sqrt (k ^ 2 + (1 - rho ^ 2))). set (u0 := arcsinh_np _ / (2 * xi)). clearbody u0. assert (HV : 0 <= V) by apply sqrt_pos. clearbody V.
  set (A := 3 / 4 * Rabs (rho - k / V)). set (B := 3 / 4 * (1 - rho * k / V - 5 / 16 * Rabs (rho - k / V) ^ 2)). clearbody A B.
  pose proof (q_int xi u0 (A * xi) (B * xi ^ 2) Hx) as H.
  apply (is_RInt_gen_scal (V := R_NormedModule) _ (sqrt V * PI / 2)) in H. eexists. split.
  - eapply is_RInt_gen_ext; [|exact H]. apply filter_forall. intros x u _. unfold scal; cbn. unfold mult; cbn. Req. ring.
  - rewrite (sqrt_mult_alt T V) by lra. unfold scal; cbn. unfold mult; cbn. pose proof PI_RGT_0. field. split; lra.
Qed.
