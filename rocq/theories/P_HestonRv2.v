(** Realised variance: assembly; the drawn and the conditional estimator. *)
From Coq Require Import Reals Lra Lia List Arith Psatz FunctionalExtensionality.
From Coquelicot Require Import Coquelicot.
From Verif Require Import Base Sums M_Opt M_Mgf M_Heston M_Mc P_Mc P_Cir P_Cir2 P_Cir3 Spec_Sde M_HestonMc M_HestonMc2 Spec_Dist Spec_Cev Spec_CevMc Spec_HestonMc Spec_HestonMc2 Spec_Expect P_Expect P_Gmom P_HestonMc5 P_HestonRv P_Conv P_Conv2 P_RoughMc7.
Import ListNotations.
Open Scope R_scope.

Lemma td_var_swap (Gam : R -> R) : gamma_function Gam -> forall (ive : R -> R -> R) (m : opt) (p : svp) (d T : R) (z : nat -> R),
  0 < v_sigma p -> 0 < v_vov p -> 0 < v_mr p -> 0 < v_theta p -> 0 < d -> 0 < T ->
  exists (n : nat) (dt : R), (1 <= n)%nat /\ 0 < dt <= d /\ INR n * dt = T /\ diff_from 0 (tobs (Some d) T) = repeat dt n /\
  (1 / 10 <= v_mr p * dt / 2 ->
   pg_expect Gam (fst (fst (cir_pois_gamma_args (heston_cir p) dt (v_sigma p)))) (snd (fst (cir_pois_gamma_args (heston_cir p) dt (v_sigma p))))
     (fun v => snd (cir_pois_gamma_args (heston_cir p) dt v)) n 0 (v_sigma p)
     (fun w => hmc_return_var m p true true (poistd_rv_step ive (heston_cir p) w) z (Some d) T)
     (heston_var_swap p (intr m) (divr m) T dt)).
Proof.
  intros HG ive m p d T z H0 H1 H2 H3 H4 HT. destruct (tobs_diff d T H4 HT) as (n & dt & Hn & Hdt & HnT & E).
  exists n, dt. split; [exact Hn|]. split; [exact Hdt|]. split; [exact HnT|]. split; [exact E|]. intros Hb.
  assert (Pn : 0 < INR n) by (apply lt_0_INR; lia). assert (Edt : T / INR n = dt) by (rewrite <- HnT; field; lra).
  destruct (var_swap_sum p (intr m) (divr m) T n H2 ltac:(lra) HT ltac:(lia)) as (a0 & a1 & a2 & Hq & HS). rewrite Edt in Hq, HS.
  unfold hmc_return_var. rewrite E. rewrite HS.
  pose proof (rv_expect Gam HG ive m p dt H1 H2 H3 ltac:(lra) Hb a0 a1 a2 Hq z n 0%nat (v_sigma p) 0 H0) as P. rewrite Rplus_0_l in P.
  assert (L : forall k i v F x, pg_expect Gam (cir_exp_h (heston_cir p) dt / cir_phi (heston_cir p) dt * 2) (4 * c_mr (heston_cir p) * c_theta (heston_cir p) / c_xi (heston_cir p) ^ 2 / 2)
     (fun v => v * cir_exp_h (heston_cir p) dt * cir_phi (heston_cir p) dt / 2) k i v F x ->
     pg_expect Gam (cir_exp_h (heston_cir p) dt / cir_phi (heston_cir p) dt * 2) (4 * c_mr (heston_cir p) * c_theta (heston_cir p) / c_xi (heston_cir p) ^ 2 / 2)
     (fun v => v * cir_exp_h (heston_cir p) dt * cir_phi (heston_cir p) dt / 2) k i v (fun w => F w / T) (/ T * x)).
  { induction k as [|k IH]; intros i v F x; cbn [pg_expect]; [intros W w; rewrite W; field; lra|]. intros (inner & outer & I1 & I2 & I3).
    exists (fun k g => / T * inner k g), (fun k => / T * outer k). split; [|split].
    - intros k' g Hg. apply (IH (S i) _ (fun w => F (set_draw w i (INR k', g)))). now apply I1.
    - intros k'. specialize (I2 k'). unfold gam_expect, pos_expect in *. eapply P_Half.half_line_ext; [|apply P_Half.half_line_scal; exact I2]. intros y Hy. cbv beta. ring.
    - unfold pois_expect in *. eapply P_KlSum.series_ext; [apply P_KlSum.series_scal; exact I3|]. intros k'. cbv beta. ring. }
  apply (L n 0%nat (v_sigma p)) in P. exact P.
Qed.

(** drawing the log-return instead of its conditional second moment *)
Lemma rv_inc_gauss (m : opt) (p : svp) (corr : bool) (dt v0 vt av : R) (pv : option R) (qe z0 : R) : Rabs (v_rho p) <= 1 -> 0 <= dt -> 0 <= av ->
  gauss_expect (fun z => hmc_rv_inc m p corr false dt v0 vt av pv qe z)
   (hmc_rv_inc m p corr true dt v0 vt av pv qe z0 + (if corr then 2 * qe * hmc_ln_m m p dt v0 vt av + qe ^ 2 else 0)).
Proof.
  intros Hr Hd Ha. unfold hmc_rv_inc. set (X := if corr then match pv with Some e => (hmc_tmp p * dt) ^ 2 * e | None => 0 end else 0). set (q := if corr then qe else 0). set (M := hmc_ln_m m p dt v0 vt av).
  assert (HV : 0 <= hmc_ln_var p dt av).
  { unfold hmc_ln_var. apply Rmult_le_pos; [apply Rmult_le_pos; [|exact Hd]|exact Ha]. assert (v_rho p ^ 2 <= 1); [|lra]. rewrite <- (pow2_abs (v_rho p)). pose proof (Rabs_pos (v_rho p)). nra. }
  set (S := sqrt (hmc_ln_var p dt av)).
  pose proof (gauss_poly4 (X + (M + q) ^ 2) (2 * (M + q) * S) (S ^ 2) 0 0) as G.
  eapply gauss_expect_ext; [|].
  2:{ match type of G with gauss_expect _ ?v => replace (X + hmc_cond_log_return_var m p dt v0 vt av + (if corr then 2 * qe * M + qe ^ 2 else 0)) with v; [exact G|] end.
      unfold hmc_cond_log_return_var. fold M. replace (hmc_ln_var p dt av) with (S ^ 2) by (unfold S; apply pow2_sqrt; exact HV). unfold q. destruct corr; ring. }
  intros z. cbv beta. ring.
Qed.
Lemma rv_loop_acc m p corr cond step z : forall dts i v acc, hmc_rv_loop m p corr cond step z i dts v acc = acc + hmc_rv_loop m p corr cond step z i dts v 0.
Proof.
  induction dts as [|d t IH]; intros i v acc; cbn [hmc_rv_loop]; [ring|]. destruct (step i d v) as [[[a b] c] e]. rewrite (IH _ _ (acc + _)), (IH _ _ (0 + _)). ring.
Qed.
Lemma rv_loop_zext m p corr cond step z1 z2 : forall dts i v acc, (forall j, (i <= j < i + length dts)%nat -> z1 j = z2 j) -> hmc_rv_loop m p corr cond step z1 i dts v acc = hmc_rv_loop m p corr cond step z2 i dts v acc.
Proof.
  induction dts as [|d t IH]; intros i v acc H; cbn [hmc_rv_loop]; [reflexivity|]. destruct (step i d v) as [[[a b] c] e]. rewrite (H i) by (cbn; lia). apply IH. intros j L. apply H. cbn [length]. lia.
Qed.
(** the whole path with no martingale correction in the step *)
Lemma rv_step_true m p corr step z1 z2 : forall dts i v acc, hmc_rv_loop m p corr true step z1 i dts v acc = hmc_rv_loop m p corr true step z2 i dts v acc.
Proof. induction dts as [|d t IH]; intros i v acc; cbn [hmc_rv_loop]; [reflexivity|]. destruct (step i d v) as [[[a b] c] e]. apply IH. Qed.
Lemma rv_snoc m p corr (cond : bool) step (z : nat -> R) : forall dts d i v (acc : R), exists v', (forall cond' z' acc', exists r, hmc_rv_loop m p corr cond' step z' i dts v acc' = r /\
   hmc_rv_loop m p corr cond' step z' i (dts ++ [d]) v acc' = r + (let '(vt, a, pv, qe) := step (i + length dts)%nat d v' in hmc_rv_inc m p corr cond' d v' vt a pv qe (z' (i + length dts)%nat))).
Proof.
  induction dts as [|d' t IH]; intros d i v acc.
  - exists v. intros cond' z' acc'. exists acc'. cbn [hmc_rv_loop app length]. rewrite Nat.add_0_r. split; [reflexivity|]. destruct (step i d v) as [[[a b] c] e]. reflexivity.
  - cbn [hmc_rv_loop app length]. destruct (step i d' v) as [[[a b] c] e]. destruct (IH d (S i) a acc) as [v' H]. exists v'. intros cond' z' acc'. replace (i + S (length t))%nat with (S i + length t)%nat by lia. apply H.
Qed.
Lemma rv_loop_gauss (m : opt) (p : svp) (corr : bool) step (z0 : nat -> R) : Rabs (v_rho p) <= 1 -> (forall i d v, 0 <= snd (fst (fst (step i d v))) /\ snd (step i d v) = 0) ->
  forall dts v acc, List.Forall (fun d => 0 <= d) dts ->
  normals_expect (length dts) (fun z => hmc_rv_loop m p corr false step z 0 dts v acc) (hmc_rv_loop m p corr true step z0 0 dts v acc).
Proof.
  intros Hr Hs dts v acc. induction dts as [|d dts IH] using rev_ind; intros F.
  - cbn [length normals_expect hmc_rv_loop]. reflexivity.
  - apply Forall_app in F. destruct F as [F1 F2]. inversion F2 as [|? ? Hd _]; subst. rewrite app_length. cbn [length]. rewrite Nat.add_1_r. cbn [normals_expect].
    destruct (rv_snoc m p corr true step z0 dts d 0 v acc) as [v' H].
    set (Q := let '(vt, a, pv, qe) := step (0 + length dts)%nat d v' in hmc_rv_inc m p corr true d v' vt a pv qe 0).
    exists (fun z => hmc_rv_loop m p corr false step z 0 dts v acc + Q). split.
    + intros z.
      assert (G : gauss_expect (fun y => let '(vt, a, pv, qe) := step (0 + length dts)%nat d v' in hmc_rv_inc m p corr false d v' vt a pv qe y) Q).
      { unfold Q. pose proof (Hs (0 + length dts)%nat d v') as [K1 K2]. clear H. destruct (step (0 + length dts)%nat d v') as [[[vt a] pv] qe]. cbn [fst snd] in K1, K2. subst qe.
        pose proof (rv_inc_gauss m p corr d v' vt a pv 0 0 Hr Hd K1) as G.
        replace (hmc_rv_inc m p corr true d v' vt a pv 0 0 + (if corr then 2 * 0 * hmc_ln_m m p d v' vt a + 0 ^ 2 else 0)) with (hmc_rv_inc m p corr true d v' vt a pv 0 0) in G by (destruct corr; ring). exact G. }
      eapply gauss_expect_ext; [|apply gauss_expect_plus; [apply gauss_expect_const|exact G]].
      intros y. cbv beta. destruct (H false (upd z (length dts) y) acc) as [r [E1 E2]]. rewrite E2, <- E1.
      rewrite (rv_loop_zext m p corr false step (upd z (length dts) y) z) by (intros j L; apply upd_ne; lia).
      cbn [Nat.add]. rewrite upd_eq. reflexivity.
    + destruct (H true z0 acc) as [r [E1 E2]]. rewrite E2, <- E1.
      replace (let '(vt, a, pv, qe) := step (0 + length dts)%nat d v' in hmc_rv_inc m p corr true d v' vt a pv qe (z0 (0 + length dts)%nat)) with Q by (unfold Q; destruct (step (0 + length dts)%nat d v') as [[[? ?] ?] ?]; reflexivity).
      apply normals_plus; [exact (IH F1)|apply normals_const].
Qed.
(** conditional second moment of a return when the average variance is itself drawn with mean mu and variance s2 *)
Lemma rv_drawn_avgvar (m : opt) (p : svp) (dt v0 vt mu s2 : R) (E : (R -> R) -> R) : v_vov p <> 0 ->
  (forall a b c, E (fun x => a + b * x + c * (x - mu) ^ 2) = a + b * mu + c * s2) ->
  E (fun x => hmc_cond_log_return_var m p dt v0 vt x) = hmc_rv_inc m p true true dt v0 vt mu (Some s2) 0 0.
Proof.
  intros Hv HE. set (t := hmc_tmp p * dt). set (M := hmc_ln_m m p dt v0 vt mu).
  assert (X : (fun x => hmc_cond_log_return_var m p dt v0 vt x) = fun x => (M ^ 2 - 2 * t * M * mu) + (2 * t * M + (1 - v_rho p ^ 2) * dt) * x + t ^ 2 * (x - mu) ^ 2).
  { apply functional_extensionality. intros x. unfold hmc_cond_log_return_var, hmc_ln_var, M, t, hmc_tmp, hmc_ln_m. field. exact Hv. }
  rewrite X, HE. unfold hmc_rv_inc, hmc_cond_log_return_var, hmc_ln_var. fold M. fold t. ring.
Qed.
