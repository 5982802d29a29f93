(** CEV Monte Carlo step: law of the step, mass at zero, prices from simulated terminal values. *)
From Coq Require Import Reals Lra Lia Psatz Arith List.
From Coquelicot Require Import Coquelicot.
From Verif Require Import Base Sums Spec_Opt Spec_Cev Spec_Dist Spec_Recip Spec_CevMc M_Opt M_Heston M_Cev P_Bsm P_Gamma P_Gamma2 P_Half P_Ncx2 P_Ncx3 P_Cev P_Cev5 P_Cev6 P_Cev7 P_Recip P_CevMc P_CevMc2.
Open Scope R_scope.

Lemma half_line_0 : half_line (fun _ => 0) 0.
Proof. apply (gen_zero (fun _ => 0) 0). apply filter_forall. intros; reflexivity. Qed.
Section Step.
Variable Gam : R -> R.
Hypothesis HG : gamma_function Gam.
Variables (beta : R) (m : opt) (S T : R).
Hypothesis (Hb : beta < 1) (Hs : sigma m <> 0) (HS : 0 < S) (HT : 0 < T).
Let bc := 1 - beta.
Let F := exp ((intr m - divr m) * T) * S.
Let var := cevmc_var beta m T.
Let X := Rpower F (2 * bc) / var / 2.
Let y K := Rpower K (2 * bc) / var / 2.
Lemma mc_var_pos : 0 < var.
Proof using Hb Hs HT.
  unfold var, cevmc_var. apply Rmult_lt_0_compat; [apply Rmult_lt_0_compat; [|exact HT]|apply exprel_gt0].
  assert (N : (1 - beta) * sigma m <> 0) by (apply Rmult_integral_contrapositive; split; [lra|exact Hs]). cbn. rewrite Rmult_1_r. now apply Rsqr_pos_lt.
Qed.
Lemma mc_X_pos : 0 < X.
Proof using Hb Hs HT. unfold X. pose proof mc_var_pos. apply Rdiv_lt_0_compat; [apply Rdiv_lt_0_compat; [apply exp_pos|assumption]|lra]. Qed.
Lemma mc_y_pos K : 0 < y K.
Proof using Hb Hs HT. unfold y. pose proof mc_var_pos. apply Rdiv_lt_0_compat; [apply Rdiv_lt_0_compat; [apply exp_pos|assumption]|lra]. Qed.
Lemma mc_lam g : cevmc_lam beta m g S T = X - g.
Proof using. unfold cevmc_lam, X, F, bc. fold var. set (z := Rpower _ _ / var). clearbody z. field. Qed.
Lemma mc_step g x : cevmc_step beta m g (fun _ => x) S T = if Rle_dec (X - g) 0 then 0 else Rpower (var * (2 * x)) (1 / (2 * bc)).
Proof using HS. unfold cevmc_step. destruct (Rlt_dec 0 S); [|lra]. cbv zeta. rewrite mc_lam. reflexivity. Qed.
Lemma mc_above g K x : 0 < K -> 0 < x -> above K (cevmc_step beta m g (fun _ => x) S T) = if Rle_dec (X - g) 0 then 0 else above (y K) x.
Proof using Hb Hs HT HS.
  intros HK Hx. rewrite mc_step. destruct (Rle_dec (X - g) 0); unfold above; [destruct (Rlt_dec K 0); lra|]. pose proof mc_var_pos as Hv. assert (Hbc : 0 < 2 * bc) by (unfold bc; lra).
  assert (E : K < Rpower (var * (2 * x)) (1 / (2 * bc)) <-> y K < x).
  { unfold y. transitivity (Rpower K (2 * bc) < var * (2 * x)).
    - assert (P0 : 0 < var * (2 * x)) by (apply Rmult_lt_0_compat; lra).
      assert (EK : K = Rpower (Rpower K (2 * bc)) (1 / (2 * bc))) by (rewrite Rpower_mult; replace (2 * bc * (1 / (2 * bc))) with 1 by (field; lra); symmetry; now apply Rpower_1).
      assert (Hi : 0 < 1 / (2 * bc)) by (apply Rdiv_lt_0_compat; lra). rewrite EK at 1. unfold Rpower at 1 3. split; intros H.
      + apply exp_lt_inv in H. apply Rmult_lt_reg_l in H; [|exact Hi]. apply ln_lt_inv; [apply exp_pos|exact P0|exact H].
      + apply exp_increasing. apply Rmult_lt_compat_l; [exact Hi|]. apply ln_increasing; [apply exp_pos|exact H].
    - split; intros H.
      + apply (Rmult_lt_reg_l (2 * var)); [lra|]. replace (2 * var * (Rpower K (2 * bc) / var / 2)) with (Rpower K (2 * bc)) by (field; lra). lra.
      + apply (Rmult_lt_compat_l (2 * var)) in H; [|lra]. replace (2 * var * (Rpower K (2 * bc) / var / 2)) with (Rpower K (2 * bc)) in H by (field; lra). lra. }
  destruct (Rlt_dec K (Rpower (var * (2 * x)) (1 / (2 * bc)))), (Rlt_dec (y K) x); tauto.
Qed.
Lemma mc_cond g K n : 0 < K -> pos_expect (gamma_pdf Gam (INR n + 1)) (fun x => above K (cevmc_step beta m g (fun _ => x) S T)) (if Rle_dec (X - g) 0 then 0 else 1 - Hn Gam (INR n + 1) 0 (y K)).
Proof using HG Hb Hs HT HS.
  intros HK. unfold pos_expect. destruct (Rle_dec (X - g) 0) as [L|L].
  - apply (half_line_ext (fun _ => 0)); [|apply half_line_0]. intros x Hx. rewrite mc_above by assumption. destruct (Rle_dec (X - g) 0); [ring|contradiction].
  - assert (Hn1 : 0 < INR n + 1) by (pose proof (pos_INR n); lra). destruct (Hn_0 Gam HG (INR n + 1) Hn1) as (D & L0 & L1).
    apply (half_above (Hn Gam (INR n + 1) 0) (gamma_pdf Gam (INR n + 1)) _ (y K) 1); [apply mc_y_pos|exact D|intros; now apply gpdf_cont|exact L1| |].
    + intros x Hx. pose proof (mc_y_pos K). rewrite mc_above by lra. destruct (Rle_dec (X - g) 0); [contradiction|]. unfold above. destruct (Rlt_dec (y K) x); [ring|lra].
    + intros x H0 Hx. rewrite mc_above by lra. destruct (Rle_dec (X - g) 0); [contradiction|]. unfold above. destruct (Rlt_dec (y K) x); [lra|ring].
Qed.
Lemma mc_law K u : 0 < K ->
  (forall g n, 0 < g -> pos_expect (gamma_pdf Gam (INR n + 1)) (fun x => above K (cevmc_step beta m g (fun _ => x) S T)) (u g n)) ->
  pos_expect (gamma_pdf Gam (1 / (2 * (1 - beta)))) (fun g => Series (fun n => pois (cevmc_lam beta m g S T) n * u g n)) (Hn Gam (1 / (2 * bc)) (y K) X).
Proof using HG Hb Hs HT HS.
  intros HK Hu. assert (Eu : forall g n, 0 < g -> u g n = if Rle_dec (X - g) 0 then 0 else 1 - Hn Gam (INR n + 1) 0 (y K)).
  { intros g n Hg. exact (half_line_unique _ _ _ (Hu g n Hg) (mc_cond g K n HK)). }
  unfold pos_expect. change (1 / (2 * (1 - beta))) with (1 / (2 * bc)).
  apply (mix_law Gam HG X mc_X_pos (1 / (2 * bc)) ltac:(apply Rdiv_lt_0_compat; unfold bc; lra) (y K) (mc_y_pos K)).
  - intros g Hg HgX. rewrite Rmult_comm. f_equal. apply is_series_unique. rewrite mc_lam.
    apply (is_series_ext (fun n => pois (X - g) n - pois (X - g) n * Hn Gam (1 + INR n) 0 (y K))).
    + intros n. rewrite Eu by exact Hg. destruct (Rle_dec (X - g) 0); [lra|]. replace (1 + INR n) with (INR n + 1) by ring. Req. ring.
    + apply (is_series_minus (V := R_NormedModule)); [apply pois_series1|]. apply (Hn_series Gam HG); [lra|lra|apply mc_y_pos].
  - intros g Hg. pose proof mc_X_pos. rewrite (Series_ext _ (fun _ => 0)).
    + rewrite Series_zero. ring.
    + intros n. rewrite Eu by lra. destruct (Rle_dec (X - g) 0); [ring|lra].
Qed.
Hypothesis Hf : is_fwd m = false.
Lemma mc_F : 0 < F.
Proof using HS. unfold F. apply Rmult_lt_0_compat; [apply exp_pos|exact HS]. Qed.
Lemma mc_fwd : forward m S T = F.
Proof using Hf. unfold forward. rewrite Hf. unfold F. ring. Qed.
Lemma mc_F2 : Rpower F (2 * bc) = Rpower F bc ^ 2.
Proof using. rewrite <- Rpower_pow by apply exp_pos. rewrite Rpower_mult. f_equal. cbn [INR]. ring. Qed.
Lemma mc_var_eq : (bc * (sigma m / Rpower F bc)) ^ 2 * T * exprel (2 * (intr m - divr m) * bc * T) = var / Rpower F (2 * bc).
Proof using. rewrite mc_F2. unfold var, cevmc_var. fold bc. assert (0 < Rpower F bc) by apply exp_pos. set (p := Rpower F bc) in *. clearbody p. set (e := exprel _). clearbody e. field. lra. Qed.
Lemma mc_z0 : 1 / (var / Rpower F (2 * bc)) = 2 * X.
Proof using Hb Hs HT. unfold X. pose proof mc_var_pos. assert (0 < Rpower F (2 * bc)) by apply exp_pos. field. lra. Qed.
Lemma mc_zK K : 0 < K -> Rpower (K / F) (2 * bc) * (2 * X) = 2 * y K.
Proof using Hb Hs HT HS.
  intros HK. pose proof mc_F as H. unfold Rdiv at 1. rewrite Rpower_mult_distr_inv by assumption. unfold X, y. pose proof mc_var_pos. assert (0 < Rpower F (2 * bc)) by apply exp_pos. field. lra.
Qed.
Lemma mc_cdf cdf sf pdf K : ncx2_routines Gam cdf sf pdf -> 0 < K -> cev_cdf cdf sf beta m K S T 1 = Hn Gam (1 / (2 * bc)) (y K) X.
Proof using HG Hb Hs HT HS Hf.
  intros HR HK. unfold cev_cdf. rewrite mc_fwd. unfold cev_variables. fold bc. cbv zeta. rewrite mc_var_eq, mc_z0, mc_zK by exact HK. destruct (Rlt_dec 0 1); [|lra].
  pose proof (mc_y_pos K). pose proof mc_X_pos. assert (0 < 1 / bc) by (apply Rdiv_lt_0_compat; unfold bc; lra).
  rewrite (ncx2_cdf_eq Gam cdf sf pdf (2 * X) (1 / bc) (2 * y K) HG HR) by lra.
  replace (1 / bc / 2) with (1 / (2 * bc)) by (field; unfold bc; lra). replace (2 * y K / 2) with (y K) by field. replace (2 * X / 2) with X by field. reflexivity.
Qed.
Lemma mc_zero pg gcdf gsf : gamma_routines Gam gcdf gsf -> (forall l, 0 < l -> 0 < pg l) ->
  pos_expect (gamma_pdf Gam (1 / (2 * (1 - beta)))) (fun g => 1 - above 0 (cevmc_step beta m g pg S T)) (cev_mass_zero gsf beta m S T).
Proof using HG Hb Hs HT HS Hf.
  intros HR Hpg. assert (Ha : 0 < 1 / (2 * bc)) by (apply Rdiv_lt_0_compat; unfold bc; lra).
  assert (E : cev_mass_zero gsf beta m S T = gsf X (1 / (2 * bc))).
  { unfold cev_mass_zero. rewrite mc_fwd. fold bc. cbv zeta. rewrite mc_var_eq. f_equal; [|field; unfold bc; lra]. pose proof mc_z0 as E. unfold Rdiv in *. rewrite Rmult_1_l in E. rewrite E. field. }
  destruct (HR (1 / (2 * bc)) Ha) as [(D & L0 & L1) Hsf]. rewrite E, (Hsf X mc_X_pos). unfold pos_expect. change (1 - beta) with bc.
  assert (A : forall g, above 0 (cevmc_step beta m g pg S T) = if Rlt_dec g X then 1 else 0).
  { intros g. unfold cevmc_step. destruct (Rlt_dec 0 S); [|lra]. cbv zeta. rewrite mc_lam. unfold above. destruct (Rle_dec (X - g) 0), (Rlt_dec g X); try lra.
    - destruct (Rlt_dec 0 0); lra.
    - destruct Rlt_dec as [_|N]; [reflexivity|]. exfalso. apply N, exp_pos. }
  apply (half_above (fun x => gcdf x (1 / (2 * bc))) (gamma_pdf Gam (1 / (2 * bc))) _ X 1 mc_X_pos D); [intros; now apply gpdf_cont|exact L1| |].
  - intros x Hx. rewrite A. destruct (Rlt_dec x X); [lra|ring].
  - intros x H0 Hx. rewrite A. destruct (Rlt_dec x X); [ring|lra].
Qed.
End Step.

Lemma mc_absorbed beta m g pg dt : cevmc_step beta m g pg 0 dt = 0.
Proof. unfold cevmc_step. destruct (Rlt_dec 0 0); [lra|ring]. Qed.
Lemma mc_step_nonneg beta m g pg S dt : 0 <= S -> 0 <= cevmc_step beta m g pg S dt.
Proof.
  intros H. unfold cevmc_step. destruct (Rlt_dec 0 S).
  - cbv zeta. destruct Rle_dec; [lra|left; apply exp_pos].
  - apply Rmult_le_pos; [left; apply exp_pos|exact H].
Qed.
Lemma mc_path_nonneg beta m steps : forall S, 0 <= S -> 0 <= cevmc_path beta m steps S.
Proof. induction steps as [|[[dt g] pg] r IH]; intros S H; cbn [cevmc_path]; [exact H|]. apply IH. now apply mc_step_nonneg. Qed.
Lemma mc_path_0 beta m steps : cevmc_path beta m steps 0 = 0.
Proof. induction steps as [|[[dt g] pg] r IH]; cbn [cevmc_path]; [reflexivity|]. now rewrite mc_absorbed. Qed.
Lemma mc_path_app beta m s1 s2 S : cevmc_path beta m (s1 ++ s2) S = cevmc_path beta m s2 (cevmc_path beta m s1 S).
Proof. revert S. induction s1 as [|[[dt g] pg] r IH]; intros S; cbn [cevmc_path app]; [reflexivity|apply IH]. Qed.
Lemma mc_path_absorb beta m s1 s2 S : cevmc_path beta m s1 S = 0 -> cevmc_path beta m (s1 ++ s2) S = 0.
Proof. intros H. rewrite mc_path_app, H. apply mc_path_0. Qed.
Lemma lsum_id l : lsum (map (fun s : R => s) l) = lsum l.
Proof. now rewrite map_id. Qed.
Lemma mc_parity m l K T : l <> nil -> cevmc_price m l K T 1 - cevmc_price m l K T (-1) = DF (intr m) T * (lmean l - K).
Proof.
  intros Hl. unfold cevmc_price, DF, lmean. replace (- intr m * T) with (- (intr m * T)) by ring.
  assert (HN : 0 < INR (length l)) by (destruct l; [congruence|apply lt_0_INR; cbn; lia]).
  assert (E : lsum (map (fun s => Rmax (1 * (s - K)) 0) l) - lsum (map (fun s => Rmax (-1 * (s - K)) 0) l) = lsum l - INR (length l) * K).
  { rewrite <- lsum_map_minus, <- (lsum_map_const K l). transitivity (lsum (map (fun s : R => s) l) - lsum (map (fun _ => K) l)); [|now rewrite lsum_id]. rewrite <- lsum_map_minus. apply lsum_map_ext. intros s _.
    unfold Rmax. destruct Rle_dec, Rle_dec; lra. }
  set (n := INR (length l)) in *. clearbody n. set (e := exp _). clearbody e.
  set (A := lsum (map _ l)) in *. set (B := lsum (map (fun s => Rmax (-1 * (s - K)) 0) l)) in *. replace A with (B + (lsum l - n * K)) by lra. field. lra.
Qed.
Lemma mc_price_put m l K T : l <> nil -> 0 < K -> (forall s, In s l -> 0 <= s) ->
  DF (intr m) T * K * cevmc_mass_zero l <= cevmc_price m l K T (-1) <= DF (intr m) T * K.
Proof.
  intros Hl HK Hp. unfold cevmc_price, cevmc_mass_zero, DF. replace (- intr m * T) with (- (intr m * T)) by ring. pose proof (exp_pos (- (intr m * T))) as He.
  assert (HN : 0 < INR (length l)) by (destruct l; [congruence|apply lt_0_INR; cbn; lia]).
  assert (A : K * lsum (map (fun s => if Rle_dec s 0 then 1 else 0) l) <= lsum (map (fun s => Rmax (-1 * (s - K)) 0) l)).
  { rewrite <- lsum_map_scal. apply lsum_map_le. intros s Hs. specialize (Hp s Hs). destruct (Rle_dec s 0); [eapply Rle_trans; [|apply Rmax_l]; lra|eapply Rle_trans; [|apply Rmax_r]; lra]. }
  assert (B : lsum (map (fun s => Rmax (-1 * (s - K)) 0) l) <= INR (length l) * K).
  { rewrite <- (lsum_map_const K l). apply lsum_map_le. intros s Hs. specialize (Hp s Hs). apply Rmax_lub; lra. }
  set (n := INR (length l)) in *. clearbody n. set (e := exp _) in *. clearbody e. set (a := lsum _) in *. set (b := lsum _) in *. clearbody a b.
  split.
  - rewrite Rmult_assoc. apply Rmult_le_compat_l; [lra|]. unfold Rdiv. rewrite <- Rmult_assoc. apply Rmult_le_compat_r; [left; now apply Rinv_0_lt_compat|exact A].
  - apply Rmult_le_compat_l; [lra|]. apply (Rmult_le_reg_r n); [exact HN|]. unfold Rdiv. rewrite Rmult_assoc, Rinv_l by lra. lra.
Qed.
Lemma mc_call_0 m l T : l <> nil -> (forall s, In s l -> 0 <= s) -> cevmc_price m l 0 T 1 = DF (intr m) T * lmean l.
Proof.
  intros Hl Hp. pose proof (mc_parity m l 0 T Hl) as E. assert (Z : cevmc_price m l 0 T (-1) = 0); [|lra].
  unfold cevmc_price. rewrite (lsum_map_ext _ (fun _ => 0)), lsum_map_const; [unfold Rdiv; ring|]. intros s Hs. specialize (Hp s Hs). rewrite Rmax_right; lra.
Qed.
