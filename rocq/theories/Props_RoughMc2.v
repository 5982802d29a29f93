(** C83: prices of the rough Heston Monte-Carlo. *)
From Coq Require Import Reals List Lra Lia.
From Coquelicot Require Import Coquelicot.
From Verif Require Import Base Sums Spec_Opt Spec_Expect M_Opt M_Rough M_RoughMc Spec_RoughMc P_RoughMc7.
Import ListNotations.
Open Scope R_scope.

(** random_normals: the second draw is standard and has correlation rho with the first *)
Theorem C83_normals : forall p, rh_rho p ^ 2 <= 1 ->
  normals_expect 2 (fun z => snd (rm_normals p (z 0%nat) (z 1%nat))) 0 /\ normals_expect 2 (fun z => snd (rm_normals p (z 0%nat) (z 1%nat)) ^ 2) 1 /\
  normals_expect 2 (fun z => fst (rm_normals p (z 0%nat) (z 1%nat)) * snd (rm_normals p (z 0%nat) (z 1%nat))) (rh_rho p).
Proof. exact rn_moments. Qed.
Print Assumptions C83_normals.
(** price: for every variance scheme that only looks back, the simulated asset after m of the n_ts - 1 steps has mean spot * exp(m intr) ... *)
Theorem C83_price_mean : forall p intr spot dt V, rh_rho p ^ 2 <= 1 -> 0 < spot -> 0 <= dt -> adapted 2 V -> (forall z k, 0 <= V z k) -> forall m,
  normals_expect (2 * m) (fun z => exp (rm_logprice intr spot dt (V z) (fun k => snd (rm_normals p (z (2 * k)%nat) (z (2 * k + 1)%nat))) m)) (spot * exp (INR m * intr)).
Proof. exact price_mean. Qed.
Print Assumptions C83_price_mean.
(** ... so that call minus put is about the forward spot * exp((n_ts - 1) intr) *)
Theorem C83_price_parity : forall p intr spot texp (n : nat) V K, rh_rho p ^ 2 <= 1 -> 0 < spot -> 0 < texp -> (0 < n)%nat -> adapted 2 V -> (forall z k, 0 <= V z k) ->
  normals_expect (2 * (n - 1)) (fun z => rm_payoff intr texp spot n (V z) (fun k => snd (rm_normals p (z (2 * k)%nat) (z (2 * k + 1)%nat))) K 1 -
     rm_payoff intr texp spot n (V z) (fun k => snd (rm_normals p (z (2 * k)%nat) (z (2 * k + 1)%nat))) K (- (1))) (DF intr texp * (spot * exp ((INR n - 1) * intr) - K)).
Proof. exact price_parity. Qed.
Print Assumptions C83_price_parity.
(** which is the market's only when (n_ts - 1) intr = (intr - divr) texp, e.g. with both rates zero *)
Theorem C83_price_parity_refuted : forall intr divr spot texp (n : nat) K, 0 < spot ->
  DF intr texp * (spot * exp ((INR n - 1) * intr) - K) = DF intr texp * (FWD intr divr false spot texp - K) <-> (INR n - 1) * intr = (intr - divr) * texp.
Proof. exact price_parity_right. Qed.
Print Assumptions C83_price_parity_refuted.
(** the payoff ignores the draws and variances of the last step; with one step it is the payoff at spot *)
Theorem C83_last_step_ignored : forall intr texp spot n (V V' W W' : nat -> R) K cp, (forall k, (S k < n)%nat -> V k = V' k /\ W k = W' k) ->
  rm_payoff intr texp spot n V W K cp = rm_payoff intr texp spot n V' W' K cp.
Proof. exact payoff_local. Qed.
Print Assumptions C83_last_step_ignored.
Example C83_price_ex : adapted 2 (fun z k => match k with O => 1 | S i => Rabs (z (2 * i)%nat) end) /\ (forall z k, 0 <= match k with O => 1 | S i => Rabs (z (2 * i)%nat) end) /\
  (INR 1000 - 1) * (1 / 20) <> (1 / 20 - 0) * 1.
Proof.
  split; [|split].
  - intros z z' [|i] H; [reflexivity|]. now rewrite (H (2 * i)%nat ltac:(lia)).
  - intros z [|i]; [lra|apply Rabs_pos].
  - rewrite (INR_IZR_INZ 1000). cbn [Z.of_nat Pos.of_succ_nat Pos.succ]. lra.
Qed.
(** cond_spot_sigma: the conditional forward has mean forward * exp(intr texp), up to the difference between trapezium and left sums *)
Theorem C83_cond_fwd_mean : forall p intr divr texp spot n V, 0 < texp -> (0 < n)%nat -> adapted 1 V -> (forall z k, 0 <= V z k) ->
  normals_expect n (fun z => rm_cond_fwd p intr divr texp spot n (V z) z * exp (rh_rho p ^ 2 * rm_dt texp n * (V z n - V z 0%nat) / 4)) (FWD intr divr false spot texp * exp (intr * texp)).
Proof. exact cond_fwd_mean. Qed.
Print Assumptions C83_cond_fwd_mean.
Theorem C83_cond_fwd_det : forall p intr divr texp spot n (V : nat -> R), 0 < texp -> (0 < n)%nat -> (forall k, 0 <= V k) ->
  normals_expect n (fun z => rm_cond_fwd p intr divr texp spot n V z) (FWD intr divr false spot texp * exp (intr * texp) * exp (rh_rho p ^ 2 * rm_dt texp n * (V 0%nat - V n) / 4)).
Proof. exact cond_fwd_det. Qed.
Print Assumptions C83_cond_fwd_det.
Theorem C83_cond_sigma : forall p texp n V, 0 < texp -> (0 < n)%nat -> rh_rho p ^ 2 <= 1 -> (forall k, (k <= n)%nat -> 0 <= V k) ->
  rm_cond_sigma p texp n V ^ 2 * texp = (1 - rh_rho p ^ 2) * rsum n (fun i => (V i + V (S i)) / 2 * (texp / INR n)).
Proof. exact cond_sigma_var. Qed.
Print Assumptions C83_cond_sigma.
Example C83_cond_ex : adapted 1 (fun z k => match k with O => 1 | S i => z i ^ 2 end) /\ forall z k, 0 <= match k with O => 1 | S i => (z : nat -> R) i ^ 2 end.
Proof. split; [|intros z [|i]; [lra|apply pow2_ge_0]]. intros z z' [|i] H; [reflexivity|]. now rewrite (H i ltac:(lia)). Qed.
(** correct_fwd=True sets the sample mean to that same forward * exp(intr texp) *)
Theorem C83_correct_fwd : forall intr divr texp spot cf, rm_mean cf <> 0 -> rm_mean (rm_scaled intr divr texp spot cf) = FWD intr divr false spot texp * exp (intr * texp).
Proof. exact scaled_mean. Qed.
Print Assumptions C83_correct_fwd.
(** priceCMC: parity about the forward of the mean conditional forward; ... *)
Theorem C83_cmc_parity : forall intr divr isf texp (cf : list (R * R)) ks i, cf <> [] -> (i < length ks)%nat ->
  exists C P, rm_price_cmc intr divr isf texp cf (Some ks) 1 = Some C /\ rm_price_cmc intr divr isf texp cf (Some ks) (-1) = Some P /\
    length C = length ks /\ length P = length ks /\
    nth i C 0 - nth i P 0 = DF intr texp * (FWD intr divr isf (rm_mean (map fst cf)) texp - nth i ks 0).
Proof. exact cmc_parity. Qed.
Print Assumptions C83_cmc_parity.
(** ... with correct_fwd that is spot * exp(2 (intr - divr) texp) - K DF, right only when 2 intr = divr *)
Theorem C83_cmc_corrected_parity : forall intr divr texp spot (cf : list (R * R)) ks i, rm_mean (map fst cf) <> 0 -> (i < length ks)%nat ->
  exists C P, rm_price_cmc intr divr false texp (combine (rm_scaled intr divr texp spot (map fst cf)) (map snd cf)) (Some ks) 1 = Some C /\
    rm_price_cmc intr divr false texp (combine (rm_scaled intr divr texp spot (map fst cf)) (map snd cf)) (Some ks) (-1) = Some P /\
    nth i C 0 - nth i P 0 = spot * exp (2 * (intr - divr) * texp) - nth i ks 0 * DF intr texp.
Proof. exact cmc_scaled_parity. Qed.
Print Assumptions C83_cmc_corrected_parity.
Theorem C83_cmc_parity_refuted : forall intr divr texp spot K, 0 < spot -> 0 < texp ->
  spot * exp (2 * (intr - divr) * texp) - K * DF intr texp = DF intr texp * (FWD intr divr false spot texp - K) <-> 2 * intr = divr.
Proof. exact cmc_parity_right. Qed.
Print Assumptions C83_cmc_parity_refuted.
Example C83_cmc_ex : rm_mean (map fst [(100, 1 / 5); (90, 3 / 10)]) <> 0 /\ 2 * (1 / 20) <> 0.
Proof. split; [unfold rm_mean, lsum; cbn; lra|lra]. Qed.
