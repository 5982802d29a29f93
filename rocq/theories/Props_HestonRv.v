(** C84: Heston realised variance and variance-swap strike by simulation. *)
From Coq Require Import Reals Lra Lia List Arith Psatz.
From Coquelicot Require Import Coquelicot.
From Verif Require Import Base Sums M_Opt M_Mgf M_Heston M_Mc P_Mc M_HestonMc M_HestonMc2 Spec_Dist Spec_Cev Spec_CevMc Spec_HestonMc Spec_HestonMc2 Spec_Expect Spec_Sde P_Expect P_Gamma2 P_Conv2 P_KlLaw P_HestonRv2.
Import ListNotations.
Open Scope R_scope.

(** *** C84: with the Poisson-conditioned time-discretisation, the average of return_var_realized(texp, cond=True) over all
    Poisson and gamma draws of the path is exactly strike_var_swap_analytic for the same observation period (C62: the time
    average of the expected squared log-returns), whatever the rates; no discretisation bias (mean reversion times step
    at least 0.2, where the closed forms are used) *)
Theorem C84_var_swap_unbiased : forall Gam : R -> R, gamma_function Gam ->
  forall (ive : R -> R -> R) (m : opt) (p : svp) (d T : R) (z : nat -> R),
  0 < v_sigma p -> 0 < v_vov p -> 0 < v_mr p -> 0 < v_theta p -> 0 < d -> 0 < T ->
  exists (n : nat) (dt : R), (1 <= n)%nat /\ 0 < dt <= d /\ INR n * dt = T /\ diff_from 0 (tobs (Some d) T) = repeat dt n /\
  (1 / 10 <= v_mr p * dt / 2 ->
   pg_expect Gam (fst (fst (cir_pois_gamma_args (heston_cir p) dt (v_sigma p)))) (snd (fst (cir_pois_gamma_args (heston_cir p) dt (v_sigma p))))
     (fun v => snd (cir_pois_gamma_args (heston_cir p) dt v)) n 0 (v_sigma p)
     (fun w => hmc_return_var m p true true (poistd_rv_step ive (heston_cir p) w) z (Some d) T)
     (heston_var_swap p (intr m) (divr m) T dt)).
Proof. exact td_var_swap. Qed.
Print Assumptions C84_var_swap_unbiased.
(** a three-year swap observed once, mean reversion 1: the hypothesis on the step holds *)
Example C84_ex_unbiased : exists (Gam : R -> R) (n : nat) (dt : R), gamma_function Gam /\ (1 <= n)%nat /\
  let p := mkSv (/ 25) 1 (- / 2) 1 (/ 25) in
  pg_expect Gam (fst (fst (cir_pois_gamma_args (heston_cir p) dt (/ 25)))) (snd (fst (cir_pois_gamma_args (heston_cir p) dt (/ 25))))
     (fun v => snd (cir_pois_gamma_args (heston_cir p) dt v)) n 0 (/ 25)
     (fun w => hmc_return_var (mkOpt 0 (/ 20) 0 false) p true true (poistd_rv_step (fun _ _ => 1) (heston_cir p) w) (fun _ => 0) (Some 3) 3)
     (heston_var_swap p (/ 20) 0 3 dt).
Proof.
  destruct gamma_exists as [Gam HG]. exists Gam. set (p := mkSv (/ 25) 1 (- / 2) 1 (/ 25)).
  destruct (C84_var_swap_unbiased Gam HG (fun _ _ => 1) (mkOpt 0 (/ 20) 0 false) p 3 3 (fun _ => 0)) as (n & dt & Hn & Hd & HT & E & H); try (cbn; lra).
  exists n, dt. split; [exact HG|]. split; [exact Hn|]. apply H.
  unfold tobs in E. destruct (Rle_dec 3 3) as [_|C]; [|lra]. cbn [diff_from] in E. destruct n as [|[|n]]; [lia| |discriminate E]. cbn [INR] in HT. cbn. lra.
Qed.

(** *** simulating the price (cond=False) instead of using the conditional second moment gives the same expectation, path by
    path of the variance, for every scheme whose steps carry no martingale correction of the drift *)
Theorem C84_draw_matches_cond : forall (m : opt) (p : svp) (corr : bool) (step : nat -> R -> R -> R * R * option R * R) (z0 : nat -> R) (d T : R),
  Rabs (v_rho p) <= 1 -> 0 < d -> 0 < T ->
  (forall i d v, let '(_, av, _, qe) := step i d v in 0 <= av /\ qe = 0) ->
  normals_expect (length (tobs (Some d) T)) (fun z => hmc_return_var m p corr false step z (Some d) T)
    (hmc_return_var m p corr true step z0 (Some d) T).
Proof.
  intros m p corr step z0 d T Hr Hd HT Hs. unfold hmc_return_var.
  assert (L : length (diff_from 0 (tobs (Some d) T)) = length (tobs (Some d) T)) by apply diff_from_length. rewrite <- L.
  destruct (tobs_diff d T Hd HT) as (n & h & _ & Hh & _ & E). 
  assert (F : List.Forall (fun x => 0 <= x) (diff_from 0 (tobs (Some d) T))) by (rewrite E; apply Forall_forall; intros x Hx; apply repeat_spec in Hx; subst; lra).
  assert (Hs' : forall i d v, 0 <= snd (fst (fst (step i d v))) /\ snd (step i d v) = 0).
  { intros i d' v. specialize (Hs i d' v). destruct (step i d' v) as [[[a b] c] e]. exact Hs. }
  pose proof (rv_loop_gauss m p corr step z0 Hr Hs' (diff_from 0 (tobs (Some d) T)) (v_sigma p) 0 F) as G.
  pose proof (normals_scal _ _ _ (/ T) G) as K. rewrite Rmult_comm in K. unfold Rdiv.
  eapply normals_ext; [|exact K]. intros z. cbv beta. ring.
Qed.
Print Assumptions C84_draw_matches_cond.

(** *** one period with a martingale correction qe (the QE scheme): the drawn estimator adds it to the log-return, the
    conditional one ignores it, so their expectations differ by 2 qe E(ln) + qe^2 *)
Theorem C84_correction_gap : forall (m : opt) (p : svp) (corr : bool) (dt v0 vt av : R) (pv : option R) (qe z0 : R),
  Rabs (v_rho p) <= 1 -> 0 <= dt -> 0 <= av ->
  gauss_expect (fun z => hmc_rv_inc m p corr false dt v0 vt av pv qe z)
   (hmc_rv_inc m p corr true dt v0 vt av pv qe z0 + (if corr then 2 * qe * hmc_ln_m m p dt v0 vt av + qe ^ 2 else 0)).
Proof. exact rv_inc_gauss. Qed.
Print Assumptions C84_correction_gap.
Theorem C84_cond_is_conditional_mean_refuted :
  ~ (forall (m : opt) (p : svp) (dt v0 vt av : R) (qe z0 : R), Rabs (v_rho p) <= 1 -> 0 <= dt -> 0 <= av ->
     gauss_expect (fun z => hmc_rv_inc m p true false dt v0 vt av None qe z) (hmc_rv_inc m p true true dt v0 vt av None qe z0)).
Proof.
  intros H. set (p := mkSv 1 1 0 1 1). set (m := mkOpt 0 0 0 false).
  assert (A1 : Rabs (v_rho p) <= 1) by (cbn; rewrite Rabs_R0; lra).
  pose proof (H m p 1 1 1 1 2 0 A1 ltac:(lra) ltac:(lra)) as G1. pose proof (rv_inc_gauss m p true 1 1 1 1 None 2 0 A1 ltac:(lra) ltac:(lra)) as G2.
  pose proof (gauss_expect_unique _ _ _ G1 G2) as E. unfold hmc_ln_m in E. cbn in E. lra.
Qed.
Print Assumptions C84_cond_is_conditional_mean_refuted.

(** *** when the average variance is itself random with mean mu and variance s2 (every operator E that knows its first two
    moments), the conditional second moment of the return is the value the loop accumulates at the mean, including the
    "missing variance" term (rho mr / vov - 1/2)^2 dt^2 s2 *)
Theorem C84_missing_variance : forall (m : opt) (p : svp) (dt v0 vt mu s2 : R) (E : (R -> R) -> R), v_vov p <> 0 ->
  (forall a b c, E (fun x => a + b * x + c * (x - mu) ^ 2) = a + b * mu + c * s2) ->
  E (fun x => hmc_cond_log_return_var m p dt v0 vt x) = hmc_rv_inc m p true true dt v0 vt mu (Some s2) 0 0.
Proof. exact rv_drawn_avgvar. Qed.
Print Assumptions C84_missing_variance.
Example C84_ex_missing : let E := fun f : R -> R => (f (2 - 1) + f (2 + 1)) / 2 in
  E (fun x => hmc_cond_log_return_var (mkOpt 0 0 0 false) (mkSv 1 1 0 1 1) 1 1 1 x) =
  hmc_rv_inc (mkOpt 0 0 0 false) (mkSv 1 1 0 1 1) true true 1 1 1 2 (Some 1) 0 0.
Proof. cbv zeta. apply (C84_missing_variance (mkOpt 0 0 0 false) (mkSv 1 1 0 1 1) 1 1 1 2 1 (fun f => (f (2 - 1) + f (2 + 1)) / 2)); [cbn; lra|]. intros. field. Qed.
