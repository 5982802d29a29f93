(** NSVh simulation: every point is reached, the forward is a martingale, sampled parity. *)
From Coq Require Import Reals Lra Lia List Psatz.
From Coquelicot Require Import Coquelicot.
From Verif Require Import Base Gauss Sums M_Opt M_Fd M_Sabr M_Dist M_NsvhQuad Spec_Expect Spec_Dist Spec_NsvhQuad P_Half P_Expect P_Dist P_NsvhQuad P_NsvhQuad2 P_NsvhQuad3 P_NsvhQuad4 P_NsvhMc P_NsvhMc2.
Import ListNotations.
Open Scope R_scope.

(** every point of the half-space off the axis is the image of exactly one normal triple; here: of some triple *)
Lemma mc_onto lam s x y z : 0 < s -> 0 < z -> 0 < x ^ 2 + y ^ 2 -> exists z0 z1 z2, 0 < z0 ^ 2 + z1 ^ 2 /\ nmc_dfw s z0 z1 (nmc_z lam s z2) = (x, y) /\ nmc_dfz s (nmc_z lam s z2) = z.
Proof.
  intros Hs Hz Hn. set (u := ln z / s). set (c := hyp_cosh x y z). assert (Cu : cosh (s * u) = (1 + z ^ 2) / (2 * z)).
  { unfold u. replace (s * (ln z / s)) with (ln z) by (field; lra). unfold cosh. rewrite exp_Ropp, exp_ln by exact Hz. field. lra. }
  assert (Cc : c = cosh (s * u) + (x ^ 2 + y ^ 2) / (2 * z)) by (rewrite Cu; unfold c, hyp_cosh; field; lra).
  assert (Cg : cosh (s * u) < c). { rewrite Cc. assert (0 < (x ^ 2 + y ^ 2) / (2 * z)) by (apply Rdiv_lt_0_compat; lra). lra. }
  pose proof (cosh_ge1 (s * u)). set (d := arccosh c). assert (Cd : cosh d = c) by (apply cosh_arccosh; lra). assert (Hd : 0 < d) by (apply arccosh_pos; lra).
  assert (Dg : Rabs (s * u) < d). { destruct (Rlt_le_dec (Rabs (s * u)) d) as [L|L]; [exact L|]. exfalso. pose proof (cosh_le d (Rabs (s * u)) ltac:(lra) L) as B. rewrite cosh_abs, Cd in B. lra. }
  set (r := (d / s) ^ 2 - u ^ 2). assert (Hr : 0 < r).
  { rewrite Rabs_mult, (Rabs_right s) in Dg by lra. assert (E : Rabs u < d / s). { apply (Rmult_lt_reg_l s); [exact Hs|]. replace (s * (d / s)) with d by (field; lra). exact Dg. } pose proof (Rabs_pos u). unfold r. rewrite <- (pow2_abs u). nra. }
  assert (Er : s * sqrt (r + u ^ 2) = d). { unfold r. replace ((d / s) ^ 2 - u ^ 2 + u ^ 2) with ((d / s) ^ 2) by ring. rewrite sqrt_pow2 by (left; now apply Rdiv_lt_0_compat). field. lra. }
  set (n := x ^ 2 + y ^ 2) in *. set (f := sqrt (r / n)). assert (F2 : f ^ 2 = r / n). { unfold f. rewrite pow2_sqrt; [reflexivity|]. left. now apply Rdiv_lt_0_compat. } assert (F0 : 0 < f) by (apply sqrt_lt_R0; now apply Rdiv_lt_0_compat).
  assert (ER : (f * x) ^ 2 + (f * y) ^ 2 = r). { replace ((f * x) ^ 2 + (f * y) ^ 2) with (f ^ 2 * n) by (unfold n; ring). rewrite F2. field. lra. }
  exists (f * x), (f * y), (u - / 2 * (lam - 1) * s). replace (nmc_z lam s (u - / 2 * (lam - 1) * s)) with u by (unfold nmc_z; ring). split; [lra|]. split.
  - unfold nmc_dfw, nmc_phi. cbv zeta. rewrite ER. replace (sqrt (r + u ^ 2) * s) with d by (rewrite <- Er; ring). rewrite Cd. replace (u * s) with (s * u) by ring.
    replace (c - cosh (s * u)) with (n / (2 * z)) by (rewrite Cc; ring). rewrite <- sqrt_mult_alt by (left; apply Rdiv_lt_0_compat; lra).
    assert (E1 : exp (/ 2 * s * u) = sqrt z). { symmetry. apply sqrt_lem_1; [lra|left; apply exp_pos|]. rewrite <- exp_plus. replace (/ 2 * s * u + / 2 * s * u) with (ln z) by (unfold u; field; lra). now apply exp_ln. }
    rewrite E1. replace (2 / r * (n / (2 * z))) with (/ (r / n) * / z) by (field; repeat split; lra). rewrite sqrt_mult_alt by (left; apply Rinv_0_lt_compat; now apply Rdiv_lt_0_compat). rewrite !sqrt_inv. fold f.
    assert (0 < sqrt z) by now apply sqrt_lt_R0. f_equal; field; lra.
  - rewrite dfz_exp. unfold u. replace (s * (ln z / s)) with (ln z) by (field; lra). now apply exp_ln.
Qed.
(** the normal density integrates to one *)
Lemma line_one : line_expect (fun _ => 1) 1.
Proof.
  intros P [e He]. assert (E2 : 0 < e / 2) by (pose proof (cond_pos e); lra). pose proof Phi_lim_p as Lp. pose proof Phi_lim_m as Lm. apply is_lim_spec in Lp. apply is_lim_spec in Lm. destruct (Lp (mkposreal _ E2)) as [M1 H1]. destruct (Lm (mkposreal _ E2)) as [M2 H2].
  apply (Filter_prod _ _ _ (fun a => a < M2) (fun b => M1 < b)); [exists M2; auto|exists M1; auto|]. intros a b Ha Hb. cbn [fst snd]. exists (Phi b - Phi a). split.
  - apply (is_RInt_ext npdf). { intros x _. cbv beta. Req. rewrite Rmult_1_l. reflexivity. } apply (is_RInt_derive (V := R_CompleteNormedModule) Phi npdf); [intros; apply is_derive_Phi|intros; apply continuous_npdf].
  - apply He. specialize (H1 b Hb). specialize (H2 a Ha). cbn in H1, H2. change (Rabs (Phi b - Phi a - 1) < e). replace (Phi b - Phi a - 1) with ((Phi b - 1) - (Phi a - 0)) by ring. eapply Rle_lt_trans; [apply Rabs_triang|]. rewrite Rabs_Ropp. lra.
Qed.
Lemma line_scal f v k : line_expect f v -> line_expect (fun z => k * f z) (k * v).
Proof. intros H. unfold line_expect in *. pose proof (is_RInt_gen_scal (V := R_NormedModule) _ k _ H) as K. eapply is_RInt_gen_ext; [|exact K]. apply filter_forall. intros [a b] x _. cbv beta. unfold scal; cbn; unfold mult; cbn. Req. ring. Qed.
Lemma line_plus f g u v : line_expect f u -> line_expect g v -> line_expect (fun z => f z + g z) (u + v).
Proof. intros H1 H2. unfold line_expect in *. pose proof (is_RInt_gen_plus (V := R_NormedModule) _ _ _ _ H1 H2) as K. eapply is_RInt_gen_ext; [|exact K]. apply filter_forall. intros [a b] x _. cbv beta. unfold plus; cbn. Req. ring. Qed.
Lemma line_ext f g v : (forall z, f z = g z) -> line_expect f v -> line_expect g v.
Proof. intros E H. unfold line_expect in *. eapply is_RInt_gen_ext; [|exact H]. apply filter_forall. intros [a b] x _. cbv beta. now rewrite E. Qed.
Lemma line_exp h : line_expect (fun z => exp (h * z)) (exp (h ^ 2 / 2)).
Proof.
  pose proof (line_scal _ _ (exp (h ^ 2 / 2)) (line_shift (- h) _ _ line_one)) as K. rewrite Rmult_1_r in K. eapply line_ext; [|exact K]. intros z. cbv beta. unfold shifted. rewrite Rmult_1_l, <- exp_plus. f_equal. field.
Qed.
Lemma dfz_mean p lam T : 0 <= T -> line_expect (fun z2 => nmc_dfz (nmc_std p T) (nmc_z lam (nmc_std p T) z2)) (exp (/ 2 * lam * (b_vov p ^ 2 * T))).
Proof.
  intros HT. set (s := nmc_std p T). rewrite <- (nmc_std_sq p T HT). fold s. pose proof (line_scal _ _ (exp (/ 2 * (lam - 1) * s ^ 2)) (line_exp s)) as K. rewrite <- exp_plus in K. replace (/ 2 * (lam - 1) * s ^ 2 + s ^ 2 / 2) with (/ 2 * lam * s ^ 2) in K by field.
  eapply line_ext; [|exact K]. intros z. cbv beta. rewrite dfz_exp, <- exp_plus. f_equal. unfold nmc_z. ring.
Qed.
Lemma pos_one : pos_expect (fun r => / 2 * exp (- r / 2)) (fun _ => 1) 1.
Proof.
  unfold pos_expect. eapply half_line_ext; [intros x _; symmetry; apply Rmult_1_l|]. replace 1 with (0 - (- (1))) by ring. apply (half_line_anti (fun r => - exp (- r / 2))).
  - intros x _. auto_derive; [exact I|]. Req. unfold Rdiv. rewrite !Ropp_mult_distr_l. field.
  - intros x _. apply (ex_derive_continuous (K := R_AbsRing) (V := R_NormedModule)). auto_derive. exact I.
  - assert (C0 : continuous (fun r => - exp (- r / 2)) 0) by (apply (ex_derive_continuous (K := R_AbsRing) (V := R_NormedModule)); auto_derive; exact I).
    intros P HP0. unfold continuous in C0. replace (- exp (- 0 / 2)) with (- (1)) in C0 by (rewrite Ropp_0; unfold Rdiv; rewrite Rmult_0_l, exp_0; reflexivity). specialize (C0 P HP0). destruct C0 as [e0 He0]. exists e0. intros y Hy _. now apply He0.
  - replace (Finite 0) with (Rbar_opp 0) by (cbn; f_equal; ring). apply is_lim_opp. eapply is_lim_ext; [|apply (exp_lim_m (/ 2)); lra]. intros y. cbv beta. f_equal. field.
Qed.
Lemma circle_lin a b : circle_mean (fun t => a + b * cos t) a.
Proof.
  unfold circle_mean. replace (2 * PI * a) with ((a * (2 * PI) + b * sin (2 * PI)) - (a * 0 + b * sin 0)) by (rewrite sin_2PI, sin_0; ring).
  apply (is_RInt_derive (fun t => a * t + b * sin t) (fun t => a + b * cos t)).
  - intros x _. auto_derive; [exact I|]. Req. ring.
  - intros x _. apply (ex_derive_continuous (K := R_AbsRing) (V := R_NormedModule)). auto_derive. exact I.
Qed.
Lemma circle_lin_s a b : circle_mean (fun t => a + b * sin t) a.
Proof.
  unfold circle_mean. replace (2 * PI * a) with ((a * (2 * PI) - b * cos (2 * PI)) - (a * 0 - b * cos 0)) by (rewrite cos_2PI, cos_0; ring).
  apply (is_RInt_derive (fun t => a * t - b * cos t) (fun t => a + b * sin t)).
  - intros x _. auto_derive; [exact I|]. Req. ring.
  - intros x _. apply (ex_derive_continuous (K := R_AbsRing) (V := R_NormedModule)). auto_derive. exact I.
Qed.
Lemma mc_martingale p lam T : 0 <= T -> space_expect (fun x y z => fst (nmc_prices p lam T x y z)) 0 /\ space_expect (fun x y z => snd (nmc_prices p lam T x y z)) 0.
Proof.
  intros HT. set (s := nmc_std p T). set (A := fun z2 => b_sigma p / b_vov p * (b_rho p * (nmc_dfz s (nmc_z lam s z2) - exp (/ 2 * lam * (b_vov p ^ 2 * T))))).
  assert (LA : line_expect A 0).
  { pose proof (line_plus _ _ _ _ (dfz_mean p lam T HT) (line_scal _ _ (- exp (/ 2 * lam * (b_vov p ^ 2 * T))) line_one)) as K. fold s in K.
    pose proof (line_scal _ _ (b_sigma p / b_vov p * b_rho p) K) as K2. replace (b_sigma p / b_vov p * b_rho p * (exp (/ 2 * lam * (b_vov p ^ 2 * T)) + - exp (/ 2 * lam * (b_vov p ^ 2 * T)) * 1)) with 0 in K2 by ring. eapply line_ext; [|exact K2]. intros z. unfold A. cbv beta. ring. }
  assert (PA : forall z, pos_expect (fun r => / 2 * exp (- r / 2)) (fun _ => A z) (A z)).
  { intros z. pose proof (pos_scal _ _ _ (A z) pos_one) as K. rewrite Rmult_1_r in K. unfold pos_expect in *. eapply half_line_ext; [|exact K]. intros. cbv beta. ring. }
  split; exists A; (split; [|exact LA]); intros z; exists (fun _ => A z); (split; [|apply PA]); intros r Pr.
  - set (f := b_sigma p / b_vov p * (sqrt (1 - b_rho p ^ 2) * (exp (/ 2 * s * nmc_z lam s z) * sqrt r * (sqrt (2 / r) * sqrt (cosh (sqrt (r + nmc_z lam s z ^ 2) * s) - cosh (nmc_z lam s z * s)))))).
    eapply circle_ext; [|apply (circle_lin (A z) f)]. intros t. unfold nmc_prices, nmc_dfw, nmc_phi. cbv zeta. rewrite (sc r t) by lra. cbn [fst]. fold s. unfold A, f. ring.
  - set (f := b_sigma p / b_vov p * (sqrt (1 - b_rho p ^ 2) * (exp (/ 2 * s * nmc_z lam s z) * sqrt r * (sqrt (2 / r) * sqrt (cosh (sqrt (r + nmc_z lam s z ^ 2) * s) - cosh (nmc_z lam s z * s)))))).
    eapply circle_ext; [|apply (circle_lin_s (A z) f)]. intros t. unfold nmc_prices, nmc_dfw, nmc_phi. cbv zeta. rewrite (sc r t) by lra. cbn [snd]. fold s. unfold A, f. ring.
Qed.
(** the two price components have the same conditional expectation of every payoff *)
(** ** the sampled price *)
Lemma price_sample mo p lam z ks spot T cp : let '(fwd, df, _) := fwd_df_divf mo spot T in
  nmc_price mo p lam z (Some ks) spot T cp = Some (map (fun k => df * mean (map (fun x => Rmax (cp * (fwd + x - k)) 0) (nmc_sample p lam T z))) ks).
Proof.
  destruct (fwd_df_divf mo spot T) as [[fwd df] dv] eqn:E. unfold nmc_price. rewrite E. f_equal. apply map_ext. intros k. f_equal. unfold mean, lsum, nmc_sample, nmc_rows.
  set (rows := flat_map _ z). assert (EQ : flat_map (fun '(a, b, c) => let '(x, y) := nmc_prices p lam T a b c in [Rmax (cp * (x - (k - fwd))) 0; Rmax (cp * (y - (k - fwd))) 0]) rows = map (fun x => Rmax (cp * (fwd + x - k)) 0) (flat_map (fun '(a, b, c) => [fst (nmc_prices p lam T a b c); snd (nmc_prices p lam T a b c)]) rows)).
  { clearbody rows. induction rows as [|[[a b] c] l IH]; [reflexivity|]. cbn [flat_map]. rewrite map_app, <- IH. destruct (nmc_prices p lam T a b c) as [x y]. cbn [fst snd map app]. replace (x - (k - fwd)) with (fwd + x - k) by ring. replace (y - (k - fwd)) with (fwd + y - k) by ring. reflexivity. }
  rewrite EQ. reflexivity.
Qed.
Lemma mean_parity l fwd k : l <> nil -> mean (map (fun x => Rmax (1 * (fwd + x - k)) 0) l) - mean (map (fun x => Rmax (- (1) * (fwd + x - k)) 0) l) = fwd + mean l - k.
Proof.
  intros Hn. unfold mean. rewrite !map_length. assert (P : 0 < INR (length l)) by (destruct l; [now elim Hn|apply lt_0_INR; cbn; lia]).
  assert (E : fold_right Rplus 0 (map (fun x => Rmax (1 * (fwd + x - k)) 0) l) - fold_right Rplus 0 (map (fun x => Rmax (- (1) * (fwd + x - k)) 0) l) = fold_right Rplus 0 l + INR (length l) * (fwd - k)).
  { clear. induction l as [|x l IH]; [cbn; ring|]. change (length (x :: l)) with (S (length l)). rewrite S_INR. cbn [map fold_right]. set (a := fold_right Rplus 0 (map (fun x => Rmax (1 * (fwd + x - k)) 0) l)) in *. set (b := fold_right Rplus 0 (map (fun x => Rmax (- (1) * (fwd + x - k)) 0) l)) in *.
    assert (Rmax (1 * (fwd + x - k)) 0 - Rmax (- (1) * (fwd + x - k)) 0 = fwd + x - k) by (unfold Rmax; repeat destruct Rle_dec; lra). lra. }
  apply (Rmult_eq_reg_r (INR (length l))); [|lra]. field_simplify; [|lra|lra]. lra.
Qed.
