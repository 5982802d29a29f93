(** Consequences for chi2_cdf_appr and for the simulated terminal price. *)
From Coq Require Import Reals Lra Lia Psatz Arith Bool.
From Coquelicot Require Import Coquelicot.
From Verif Require Import Base Gauss Sums Spec_Cev Spec_CevMc M_Opt M_Heston M_Cev P_Black P_Gamma P_Gamma2 P_Ncx2 P_Ncx3 P_CevMc P_CevMc3 M_SabrCai P_SabrCai.
Open Scope R_scope.
Lemma cdf_unique f P Q x : cdf_of f P -> cdf_of f Q -> 0 < x -> P x = Q x.
Proof. intros (A1 & A2 & _) (B1 & B2 & _). exact (half_unique P Q f 0 A1 B1 A2 B2 x). Qed.
Lemma near_branch Gam fuel x sg l : x <= 500 -> l <= 500 -> chi2_cdf_appr Gam fuel x sg l = ding_loop Gam x sg l fuel 0 0 0 0 0.
Proof. intros A B. unfold chi2_cdf_appr. destruct (Rle_dec x 500); [|contradiction]. destruct (Rle_dec l 500); [|contradiction]. reflexivity. Qed.
Lemma near_cdf Gam P x sg l : gamma_function Gam -> 0 < sg -> 0 < x <= 500 -> 0 <= l <= 500 -> cdf_of (ncx2_pdf Gam sg l) P ->
  exists v N, (forall fuel, (N <= fuel)%nat -> chi2_cdf_appr Gam fuel x sg l = Some v) /\ P x - / 10 ^ 7 <= v < P x.
Proof.
  intros HG Hs Hx Hl HP. destruct (ding_correct Gam HG x sg l ltac:(lra) Hs) as (k & N & St & E). exists (dsum Gam x sg l (S k)), N.
  split; [intros fuel Hf; rewrite near_branch by lra; now apply E|]. rewrite (cdf_unique _ P _ x HP (Hn_cdf Gam HG sg l Hs ltac:(lra))) by lra.
  destruct St as [A B]. pose proof (ding_tail Gam HG x sg l ltac:(lra) Hs ltac:(lra) k A) as T. cbv zeta in T. lra.
Qed.
Lemma fuel_same Gam x sg l n1 n2 v1 v2 : 0 < x -> 0 < sg -> ding_loop Gam x sg l n1 0 0 0 0 0 = Some v1 -> ding_loop Gam x sg l n2 0 0 0 0 0 = Some v2 -> v1 = v2.
Proof.
  intros _ _ A B. pose proof (ding_fuel Gam x sg l n1 _ _ _ _ _ _ A (n1 + n2)%nat ltac:(lia)) as A'. pose proof (ding_fuel Gam x sg l n2 _ _ _ _ _ _ B (n1 + n2)%nat ltac:(lia)) as B'. rewrite A' in B'. now injection B'.
Qed.
Lemma dY_mono l1 l2 j : 0 <= l1 -> l1 < l2 -> dY l2 j <= dY l1 j.
Proof.
  intros H1 H2. unfold dY. pose proof (ptail_sum (S j) (l1 / 2)) as A. pose proof (ptail_sum (S j) (l2 / 2)) as B.
  assert (ptail (S j) (l1 / 2) <= ptail (S j) (l2 / 2)); [|lra].
  apply (nondecreasing_on (ptail (S j)) (fun l => pois l j)); [lra|intros; apply ptail_derive|intros; apply pois_pos; lra].
Qed.
(** the number of terms does not depend on the non-centrality *)
Fixpoint first_stop (p : nat -> bool) (fuel k : nat) : option nat := match fuel with O => None | S f => if p k then Some k else first_stop p f (S k) end.
Definition stopb Gam x sg (k : nat) : bool := (Nat.leb 1 k) && (if Rlt_dec x (sg + 2 * INR k) then true else false) && (if Rle_dec (dT Gam x sg (pred k) * x / (sg + 2 * INR k - x)) (/ 10 ^ 7) then true else false).
Lemma loop_first Gam x sg l fuel : gamma_function Gam -> 0 < x -> 0 < sg -> forall k,
  ding_loop Gam x sg l fuel (S k) (dT Gam x sg k) (pois (l / 2) k) (dY l k) (dsum Gam x sg l (S k)) = option_map (dsum Gam x sg l) (first_stop (stopb Gam x sg) fuel (S k)).
Proof.
  intros HG Hx Hs. induction fuel as [|f IH]; intros k; [reflexivity|]. cbn [ding_loop first_stop]. unfold stopb at 1. cbn [pred]. destruct (_ && _)%bool; [reflexivity|].
  rewrite <- (dT_S Gam HG x sg) by assumption. rewrite <- dU_S, <- dY_S. change (dsum Gam x sg l (S k) + dY l (S k) * dT Gam x sg (S k)) with (dsum Gam x sg l (S (S k))). apply IH.
Qed.
Lemma loop_start Gam x sg l fuel : ding_loop Gam x sg l (S fuel) 0 0 0 0 0 = ding_loop Gam x sg l fuel 1 (dT Gam x sg 0) (pois (l / 2) 0) (dY l 0) (dsum Gam x sg l 1).
Proof.
  change (ding_loop Gam x sg l (S fuel) 0 0 0 0 0) with (ding_loop Gam x sg l fuel 1 (1 / Gam (sg / 2 + 1) * Rpower (x / 2) (sg / 2) * exp (- x / 2)) (exp (- l / 2)) (exp (- l / 2)) (0 + exp (- l / 2) * (1 / Gam (sg / 2 + 1) * Rpower (x / 2) (sg / 2) * exp (- x / 2)))).
  rewrite <- dT_0. assert (P : exp (- l / 2) = pois (l / 2) 0) by (rewrite pois_0; f_equal; field). rewrite P. unfold dsum. cbn [rsum]. replace (dY l 0) with (pois (l / 2) 0) by (rewrite dY_0, P; reflexivity). reflexivity.
Qed.
Lemma near_decr Gam x sg l1 l2 n1 n2 v1 v2 : gamma_function Gam -> 0 < sg -> 0 < x <= 500 -> 0 <= l1 -> l1 < l2 -> l2 <= 500 ->
  chi2_cdf_appr Gam n1 x sg l1 = Some v1 -> chi2_cdf_appr Gam n2 x sg l2 = Some v2 -> v2 < v1.
Proof.
  intros HG Hs Hx H1 H2 H3 A B. rewrite near_branch in A, B by lra.
  apply (fun H => ding_fuel Gam x sg l1 n1 _ _ _ _ _ _ H (S (n1 + n2)) ltac:(lia)) in A. apply (fun H => ding_fuel Gam x sg l2 n2 _ _ _ _ _ _ H (S (n1 + n2)) ltac:(lia)) in B.
  rewrite loop_start, loop_first in A, B by (try assumption; lra). destruct (first_stop _ _ 1) as [k|] eqn:F; [|discriminate]. cbn [option_map] in A, B. injection A as <-. injection B as <-.
  assert (Hk : (1 <= k)%nat). { clear - F. revert F. generalize (n1 + n2)%nat. assert (G : forall p f j r, first_stop p f j = Some r -> (j <= r)%nat). { intros p f. induction f as [|f IH]; intros j r E; [discriminate|]. cbn [first_stop] in E. destruct (p j); [injection E as <-; lia|]. apply IH in E. lia. } intros n E. now apply G in E. }
  destruct k as [|k]; [lia|]. unfold dsum. rewrite !(rsum_shift k).
  assert (rsum k (fun j => dY l2 (S j) * dT Gam x sg (S j)) <= rsum k (fun j => dY l1 (S j) * dT Gam x sg (S j))).
  { apply rsum_le. intros j _. apply Rmult_le_compat_r; [left; apply dT_pos; [exact HG|lra]|now apply dY_mono]. }
  assert (dY l2 0 < dY l1 0) by (rewrite !dY_0; apply exp_increasing; lra). pose proof (dT_pos Gam HG x sg Hs 0). nra.
Qed.
(** the far branch: which side of the mean *)
Lemma pr_s_root x sg l : 0 < x -> 0 < sg -> 0 < l -> 0 < pr_s x sg l /\ l / sg * pr_s x sg l ^ 2 + pr_s x sg l = x / sg.
Proof.
  intros Hx Hs Hl. unfold pr_s. cbv zeta. assert (Hm : 0 < l / sg) by (apply Rdiv_lt_0_compat; lra). replace (sqrt (l / sg) ^ 2) with (l / sg) by (rewrite <- (sqrt_sqrt (l / sg)) at 1 by lra; ring).
  set (mu := l / sg) in *. assert (Hy : 0 < x / sg) by (apply Rdiv_lt_0_compat; lra). replace (4 * x * mu / sg) with (4 * (x / sg) * mu) by (field; lra). set (y := x / sg) in *. clearbody mu y.
  assert (Hp : 0 < 4 * y * mu) by nra. pose proof (sqrt_sqrt (1 + 4 * y * mu) ltac:(lra)) as Q. pose proof (sqrt_lt_1 1 (1 + 4 * y * mu) ltac:(lra) ltac:(lra) ltac:(lra)) as L. rewrite sqrt_1 in L.
  set (q := sqrt _) in *. clearbody q. split; [apply Rdiv_lt_0_compat; lra|]. apply (Rmult_eq_reg_l (4 * mu)); [|lra]. replace (4 * mu * (mu * ((q - 1) / (2 * mu)) ^ 2 + (q - 1) / (2 * mu))) with (q * q - 1) by (field; lra). rewrite Q. ring.
Qed.
Lemma pr_side x sg l : 0 < x -> 0 < sg -> 0 < l -> (x < sg + l -> pr_cdf x sg l <= / 2) /\ (sg + l < x -> / 2 <= pr_cdf x sg l).
Proof.
  intros Hx Hs Hl. destruct (pr_s_root x sg l Hx Hs Hl) as [P E]. unfold pr_cdf. cbv zeta. set (s := pr_s x sg l) in *. clearbody s.
  assert (M : 0 < l / sg) by (apply Rdiv_lt_0_compat; lra). assert (E2 : l * s ^ 2 + sg * s = x). { apply (Rmult_eq_reg_r (/ sg)); [|apply Rinv_neq_0_compat; lra]. unfold Rdiv in E. rewrite <- E. field. lra. }
  pose proof Phi_0 as P0.
  set (v := sqrt _). assert (Hv : 0 <= v) by apply sqrt_pos. clearbody v. unfold np_sign. split; intros H.
  - assert (s < 1). { destruct (Rlt_dec s 1) as [|N]; [assumption|]. exfalso. assert (1 <= s ^ 2) by nra. assert (l * 1 <= l * s ^ 2) by (apply Rmult_le_compat_l; lra). assert (sg * 1 <= sg * s) by (apply Rmult_le_compat_l; lra). lra. } destruct (Rlt_dec 0 (s - 1)); [lra|]. destruct (Rlt_dec (s - 1) 0); [|lra]. rewrite <- P0. apply Phi_le. lra.
  - assert (1 < s). { destruct (Rlt_dec 1 s) as [|N]; [assumption|]. exfalso. assert (s ^ 2 <= 1) by nra. assert (l * s ^ 2 <= l * 1) by (apply Rmult_le_compat_l; lra). assert (sg * s <= sg * 1) by (apply Rmult_le_compat_l; lra). lra. } destruct (Rlt_dec 0 (s - 1)); [|lra]. rewrite <- P0. apply Phi_le. lra.
Qed.
(** the terminal price *)
Section Draw.
Variable Gam : R -> R.
Hypothesis HG : gamma_function Gam.
Variables beta sg T S : R.
Hypothesis Hb : beta < 1.
Hypothesis Hs : 0 < sg.
Hypothesis HT : 0 < T.
Hypothesis HS : 0 < S.
Let m := mkOpt sg 0 0 false.
Let VT := sg ^ 2 * T.
Let bc := 1 - beta.
Lemma VT_pos : 0 < VT. Proof. unfold VT. assert (0 < sg ^ 2) by (apply pow_lt; lra). nra. Qed.
Lemma draw_var : cevmc_var beta m T = bc ^ 2 * VT.
Proof. unfold cevmc_var, m. cbn [sigma intr divr]. replace (2 * (0 - 0) * (1 - beta) * T) with 0 by ring. unfold exprel. destruct (Req_EM_T 0 0); [|lra]. unfold VT, bc. ring. Qed.
Lemma draw_A0 : cai_A0 beta VT S = Rpower (exp ((intr m - divr m) * T) * S) (2 * bc) / cevmc_var beta m T.
Proof.
  rewrite draw_var. unfold m; cbn [intr divr]. replace ((0 - 0) * T) with 0 by ring. rewrite exp_0, Rmult_1_l. unfold cai_A0. fold bc. replace (Rpower S (2 * bc)) with (Rpower S bc ^ 2).
  - pose proof VT_pos. field. unfold bc; lra.
  - rewrite <- Rpower_pow by apply exp_pos. rewrite Rpower_mult. f_equal. cbn [INR]. ring.
Qed.
Lemma draw_C0 K : cai_C0 VT beta K = Rpower K (2 * bc) / cevmc_var beta m T.
Proof. rewrite draw_var. unfold cai_C0. fold bc. pose proof VT_pos. field. unfold bc; lra. Qed.
Lemma A0_pos : 0 < cai_A0 beta VT S.
Proof. rewrite draw_A0. apply Rdiv_lt_0_compat; [apply exp_pos|]. rewrite draw_var. pose proof VT_pos. assert (0 < bc ^ 2) by (apply pow_lt; unfold bc; lra). now apply Rmult_lt_0_compat. Qed.
Lemma C0_pos K : 0 < cai_C0 VT beta K.
Proof. rewrite draw_C0. apply Rdiv_lt_0_compat; [apply exp_pos|]. rewrite draw_var. pose proof VT_pos. assert (0 < bc ^ 2) by (apply pow_lt; unfold bc; lra). now apply Rmult_lt_0_compat. Qed.
Lemma draw_cdf cdf sf pdf K : ncx2_routines Gam cdf sf pdf -> 0 < K -> cev_cdf cdf sf beta m K S T (-1) = 1 - cdf (cai_A0 beta VT S) (1 / bc) (cai_C0 VT beta K).
Proof.
  intros HR HK. assert (B : 0 < 1 / bc) by (apply Rdiv_lt_0_compat; unfold bc; lra).
  assert (E : cev_cdf cdf sf beta m K S T (-1) = sf (cai_A0 beta VT S) (1 / bc) (cai_C0 VT beta K)).
  { unfold cev_cdf. assert (Hsn : sigma m <> 0) by (cbn; lra). rewrite (mc_fwd m S T eq_refl). unfold cev_variables. cbv zeta. rewrite (mc_var_eq beta m S T), (mc_z0 beta m S T Hb Hsn HT), (mc_zK beta m S T Hb Hsn HS HT K HK).
    destruct (Rlt_dec 0 (-1)); [lra|]. fold bc. rewrite draw_A0, draw_C0. assert (V : cevmc_var beta m T <> 0). { rewrite draw_var. pose proof VT_pos. assert (0 < bc ^ 2) by (apply pow_lt; unfold bc; lra). apply Rgt_not_eq. now apply Rmult_lt_0_compat. } f_equal; unfold bc; field; exact V. }
  rewrite E. apply (HR (1 / bc) (cai_C0 VT beta K) B (C0_pos K)). apply A0_pos.
Qed.
Lemma chi2_gamma gcdf gsf chi2cdf k x : gamma_routines Gam gcdf gsf -> (forall k, 0 < k -> cdf_of (chi2_pdf Gam k) (fun x => chi2cdf x k)) -> 0 < k -> 0 < x -> 1 - chi2cdf x k = gsf (x / 2) (k / 2).
Proof.
  intros HR HC Hk Hx. destruct (HR (k / 2) ltac:(lra)) as [(D & L0 & L1) Hsf]. rewrite Hsf by lra. f_equal.
  apply (cdf_unique (chi2_pdf Gam k) (fun x => chi2cdf x k) (fun x => gcdf (x / 2) (k / 2)) x); [now apply HC| |exact Hx]. split; [|split].
  - intros y Hy. eapply is_derive_eq; [apply (is_derive_comp_R (fun y => gcdf y (k / 2)) (fun y => y / 2) y (gamma_pdf Gam (k / 2) (y / 2)) (/ 2)); [apply D; lra|auto_derive; [exact I|field]]|].
    unfold gamma_pdf, chi2_pdf. pose proof (Gam_pos Gam HG (k / 2) ltac:(lra)). field. lra.
  - apply (filterlim_comp _ _ _ (fun y => y / 2) (fun y => gcdf y (k / 2)) (at_right 0) (at_right 0)); [|exact L0].
    intros Q [d Hd]. exists d. intros y Hy Hy0. apply Hd; [|lra]. change (Rabs (y - 0) < d) in Hy. change (Rabs (y / 2 - 0) < d). rewrite Rminus_0_r, Rabs_right in * by lra. lra.
  - apply is_lim_spec. apply is_lim_spec in L1. intros e. destruct (L1 e) as [M HM]. exists (2 * M). intros y Hy. apply HM. lra.
Qed.
Lemma draw_mass gcdf gsf chi2cdf : gamma_routines Gam gcdf gsf -> (forall k, 0 < k -> cdf_of (chi2_pdf Gam k) (fun x => chi2cdf x k)) ->
  1 - central_chi2_cdf chi2cdf beta VT S = cev_mass_zero gsf beta m S T.
Proof.
  intros HR HC. assert (B : 0 < 1 / bc) by (apply Rdiv_lt_0_compat; unfold bc; lra). unfold central_chi2_cdf. fold bc. rewrite (chi2_gamma gcdf gsf chi2cdf _ _ HR HC B A0_pos).
  unfold cev_mass_zero. assert (Hsn : sigma m <> 0) by (cbn; lra). rewrite (mc_fwd m S T eq_refl). cbv zeta. rewrite (mc_var_eq beta m S T). rewrite draw_A0. fold bc.
  assert (V : 0 < cevmc_var beta m T). { rewrite draw_var. pose proof VT_pos. assert (0 < bc ^ 2) by (apply pow_lt; unfold bc; lra). now apply Rmult_lt_0_compat. }
  assert (0 < Rpower (exp ((intr m - divr m) * T) * S) (2 * bc)) by apply exp_pos. f_equal; [|field; unfold bc; lra]. change (1 - beta) with bc. field. lra.
Qed.
Lemma draw_thm cdf sf pdf gcdf gsf chi2cdf appr root u : ncx2_routines Gam cdf sf pdf -> gamma_routines Gam gcdf gsf ->
  (forall k, 0 < k -> cdf_of (chi2_pdf Gam k) (fun x => chi2cdf x k)) ->
  (forall x k l, 0 < x <= 500 -> 0 < k -> 0 <= l <= 500 -> exists n, chi2_cdf_appr Gam n x k l = Some (appr x k l)) ->
  cai_A0 beta VT S <= 500 -> let s := simu_ST appr chi2cdf root beta VT S u in
  (u <= cev_mass_zero gsf beta m S T -> s = 0) /\
  (cev_mass_zero gsf beta m S T < u -> 0 < s -> cai_C0 VT beta s <= 500 -> 1 - sabr_chi2_cdf appr beta VT S s = u ->
   cev_cdf cdf sf beta m s S T (-1) <= u <= cev_cdf cdf sf beta m s S T (-1) + / 10 ^ 7).
Proof.
  intros HR HGR HC HA HA0 s. split.
  - intros Hu. unfold s, simu_ST. cbv zeta. rewrite (draw_mass gcdf gsf chi2cdf HGR HC). destruct (Rle_dec u _); [reflexivity|contradiction].
  - intros _ Hp HC0 E. rewrite (draw_cdf cdf sf pdf s HR Hp). unfold sabr_chi2_cdf in E. fold bc in E. pose proof A0_pos. pose proof (C0_pos s). assert (B : 0 < 1 / bc) by (apply Rdiv_lt_0_compat; unfold bc; lra).
    destruct (HA (cai_A0 beta VT S) (1 / bc) (cai_C0 VT beta s) ltac:(lra) B ltac:(lra)) as [n En].
    destruct (HR (1 / bc) (cai_C0 VT beta s) B (C0_pos s)) as [Cd _].
    destruct (near_cdf Gam _ (cai_A0 beta VT S) (1 / bc) (cai_C0 VT beta s) HG B ltac:(lra) ltac:(lra) Cd) as (v & N & Ev & Bv). cbv beta in Bv.
    assert (v = appr (cai_A0 beta VT S) (1 / bc) (cai_C0 VT beta s)).
    { rewrite near_branch in En by lra. specialize (Ev N (le_n N)). rewrite near_branch in Ev by lra. exact (fuel_same Gam _ _ _ N n _ _ A0_pos B Ev En). }
    subst v. lra.
Qed.
End Draw.
