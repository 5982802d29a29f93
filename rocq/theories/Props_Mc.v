(** C24-C26, C60, C61: Monte-Carlo and mixture machinery. *)
From Coq Require Import Reals Lra Lia List.
From Coquelicot Require Import Coquelicot.
From Verif Require Import Base Gauss Sums M_Opt M_Mgf M_Mc Spec_Opt Spec_Expect P_Density P_Expect P_Gmom P_Mc P_Mc2.
Import ListNotations.
Open Scope R_scope.

(** *** C24: n equal steps, the fewest whose length does not exceed dt, the last date being texp *)
Theorem C24_grid : forall d T, 0 < d -> 0 < T ->
  let l := tobs (Some d) T in
  (1 <= length l)%nat /\ (forall i, (i < length l)%nat -> nth i l 0 = INR (S i) * (T / INR (length l))) /\ T / INR (length l) <= d
  /\ INR (length l - 1) * d < T.
Proof. exact tobs_nth. Qed.
Print Assumptions C24_grid.
Theorem C24_last : forall dt T d0, (forall d, dt = Some d -> 0 < d) -> 0 < T -> last (tobs dt T) d0 = T.
Proof. exact tobs_last. Qed.
Print Assumptions C24_last.
Theorem C24_steps : forall d T, 0 < d -> 0 < T ->
  exists (n : nat) (h : R), (1 <= n)%nat /\ 0 < h <= d /\ INR n * h = T /\ diff_from 0 (tobs (Some d) T) = repeat h n.
Proof. exact tobs_diff. Qed.
Print Assumptions C24_steps.
Example C24_ex : tobs None 2 = [2] /\ last (tobs (Some (/ 4)) 1) 0 = 1.
Proof. split; [reflexivity|]. apply C24_last; [intros d H; injection H as <-|]; lra. Qed.

(** *** C25 *)
Theorem C25_normal_pairs : forall n z i, (i < n / 2)%nat ->
  nth (2 * i) (rv_normal true n z) 0 = z i /\ nth (2 * i + 1) (rv_normal true n z) 0 = - z i.
Proof. exact rv_normal_pairs. Qed.
Print Assumptions C25_normal_pairs.
Theorem C25_odd_moments_vanish : forall (g : R -> R) n z, (forall x, g (- x) = - g x) -> lsum (map g (rv_normal true n z)) = 0.
Proof. exact rv_normal_odd_fun. Qed.
Print Assumptions C25_odd_moments_vanish.
Theorem C25_normal_length : forall b n z, length (rv_normal b n z) = (if b then 2 * (n / 2) else n)%nat.
Proof. exact rv_normal_length. Qed.
Print Assumptions C25_normal_length.
Theorem C25_uniform_pairs : forall n u i, (i < n / 2)%nat ->
  nth (2 * i) (rv_uniform true n u) 0 = u i /\ nth (2 * i + 1) (rv_uniform true n u) 0 = 1 - u i.
Proof. exact rv_uniform_pairs. Qed.
Print Assumptions C25_uniform_pairs.
Theorem C25_uniform_mean : forall n u, (2 <= n)%nat -> lmean (rv_uniform true n u) = / 2.
Proof. exact rv_uniform_mean. Qed.
Print Assumptions C25_uniform_mean.
Theorem C25_uniform_range : forall n u b, (forall i, 0 <= u i <= 1) -> List.Forall (fun x => 0 <= x <= 1) (rv_uniform b n u).
Proof. exact rv_uniform_range. Qed.
Print Assumptions C25_uniform_range.
(** Brownian increments: row k holds draw(path,k)*sqrt(dt_k) in its first half and the mirror images in the second *)
Theorem C25_bm_entries : forall n g tobs, Nat.Even n -> (0 < n)%nat ->
  exists rows, bm_incr true n g tobs false = Some rows /\ length rows = length tobs /\
    forall k i, (k < length tobs)%nat -> (i < n / 2)%nat ->
      length (nth k rows []) = n /\
      nth i (nth k rows []) 0 = g i k * sqrt (nth k (diff_from 0 tobs) 0) /\
      nth (n / 2 + i) (nth k rows []) 0 = - (g i k * sqrt (nth k (diff_from 0 tobs) 0)).
Proof. exact bm_incr_entries. Qed.
Print Assumptions C25_bm_entries.
Theorem C25_bm_cum : forall n g tobs k i, Nat.Even n -> (0 < n)%nat -> (k < length tobs)%nat ->
  match bm_incr true n g tobs true, bm_incr true n g tobs false with
  | Some c, Some r => length c = length tobs /\ nth i (nth k c []) 0 = rsum (S k) (fun j => nth i (nth j r []) 0)
  | _, _ => False end.
Proof. exact bm_incr_cum. Qed.
Print Assumptions C25_bm_cum.
(** odd path counts raise; without antithetic sampling the routine always raises *)
Theorem C25_bm_odd_refuted : forall n g tobs c, Nat.Odd n -> ~ Nat.divide n (length tobs) -> bm_incr true n g tobs c = None.
Proof. exact bm_incr_none_mod. Qed.
Print Assumptions C25_bm_odd_refuted.
Theorem C25_bm_plain_refuted : forall n g tobs c, bm_incr false n g tobs c = None.
Proof. exact (fun n g tobs c => eq_refl). Qed.
Print Assumptions C25_bm_plain_refuted.
Example C25_ex : rv_normal true 4 (fun i => INR (i + 3)) = [INR 3; - INR 3; INR 4; - INR 4]
  /\ bm_incr true 4 (fun i j => INR (10 * i + j)) [1; 2] false =
     Some [[INR 0 * sqrt (1 - 0); INR 10 * sqrt (1 - 0); - (INR 0 * sqrt (1 - 0)); - (INR 10 * sqrt (1 - 0))];
           [INR 1 * sqrt (2 - 1); INR 11 * sqrt (2 - 1); - (INR 1 * sqrt (2 - 1)); - (INR 11 * sqrt (2 - 1))]]
  /\ bm_incr true 5 (fun i j => 0) [1; 2] false = None.
Proof. repeat split; reflexivity. Qed.

(** *** C26 *)
Theorem C26_mc_parity : forall m (c : bool) sg samples K S T, samples <> [] -> S <> 0 ->
  (c = true -> lmean (map fst samples) <> 0) ->
  cond_mc_price m c sg samples K S T 1 - cond_mc_price m c sg samples K S T (-1) =
  DF (intr m) T * (FWD (intr m) (divr m) (is_fwd m) S T * (if c then 1 else lmean (map fst samples)) - K).
Proof. exact cond_mc_parity. Qed.
Print Assumptions C26_mc_parity.
Theorem C26_mc_bounds : forall m sg samples K S T cp, samples <> [] -> 0 < S -> 0 < K -> call_or_put cp ->
  List.Forall (fun x => 0 < fst x) samples ->
  let P := cond_mc_price m true sg samples K S T cp in
  DF (intr m) T * payoff cp K (FWD (intr m) (divr m) (is_fwd m) S T) <= P
  /\ P <= DF (intr m) T * (if Rlt_dec 0 cp then FWD (intr m) (divr m) (is_fwd m) S T else K).
Proof. exact cond_mc_bounds. Qed.
Print Assumptions C26_mc_bounds.
Theorem C26_mixture_parity : forall m (c : bool) sg samples K S T, S <> 0 ->
  let fwds := lsum (map (fun '(f, _, w) => f * w) samples) in let mass := lsum (map (fun '(_, _, w) => w) samples) in
  (c = true -> fwds <> 0) ->
  mixture_price m c sg samples K S T 1 - mixture_price m c sg samples K S T (-1) =
  DF (intr m) T * (FWD (intr m) (divr m) (is_fwd m) S T * (if c then 1 else fwds) - K * mass).
Proof. exact mixture_parity. Qed.
Print Assumptions C26_mixture_parity.
Theorem C26_mixture_bounds : forall m sg samples K S T cp, 0 < S -> 0 < K -> call_or_put cp ->
  List.Forall (fun '(f, _, w) => 0 < f /\ 0 < w) samples -> lsum (map (fun '(_, _, w) => w) samples) = 1 ->
  let P := mixture_price m true sg samples K S T cp in
  DF (intr m) T * payoff cp K (FWD (intr m) (divr m) (is_fwd m) S T) <= P
  /\ P <= DF (intr m) T * (if Rlt_dec 0 cp then FWD (intr m) (divr m) (is_fwd m) S T else K).
Proof. exact mixture_bounds. Qed.
Print Assumptions C26_mixture_bounds.
Theorem C26_subordinated_quad_parity : forall m o nodes K S T, 0 < S ->
  lsum (map (fun '(x, w) => w * exp ((s_theta o + / 2 * s_sigma o ^ 2) * x)) nodes) <> 0 ->
  subo_quad_price m o nodes K S T 1 - subo_quad_price m o nodes K S T (-1) =
  DF (intr m) T * (FWD (intr m) (divr m) (is_fwd m) S T - K * lsum (map snd nodes)).
Proof. exact subo_quad_parity. Qed.
Print Assumptions C26_subordinated_quad_parity.
Theorem C26_var_option_parity : forall r vars K T, vars <> [] ->
  price_var_opt r vars K T 1 - price_var_opt r vars K T (-1) = (lmean vars - K) * exp (- r * T).
Proof. exact var_opt_parity. Qed.
Print Assumptions C26_var_option_parity.
Example C26_ex : let P := cond_mc_price (mkOpt 1 0 0 false) true (/ 5) [(1.1, 1.2); (0.8, 0.9)] 90 100 2 1 in
  10 <= P <= 100.
Proof.
  pose proof (C26_mc_bounds (mkOpt 1 0 0 false) (/ 5) [(1.1, 1.2); (0.8, 0.9)] 90 100 2 1 ltac:(easy) ltac:(lra) ltac:(lra) (or_introl eq_refl)) as H.
  cbv zeta in *. destruct H as [A B]. { repeat constructor; cbn; lra. }
  unfold DF, FWD, payoff in A, B. cbn [intr divr is_fwd] in A, B.
  replace (- (0 * 2)) with 0 in A, B by ring. replace ((0 - 0) * 2) with 0 in A, B by ring. rewrite exp_0 in A, B.
  split.
  - eapply Rle_trans; [|exact A]. rewrite !Rmult_1_l. eapply Rle_trans; [|apply Rmax_l]. lra.
  - eapply Rle_trans; [exact B|]. destruct (Rlt_dec 0 1); lra.
Qed.

(** *** C60: the conditional spot / volatility used for pricing agree with the stepwise log-return simulation *)
Theorem C60_cond_matches_steps : forall m p step dts T v0, 0 < v0 -> T <> 0 -> lsum dts = T -> v_vov p <> 0 ->
  let '(sc, sg) := hmc_cond_spot_sigma p step dts T v0 in
  let '(M, V, C) := hmc_sum m p step 0 dts v0 in
  ln sc + (intr m - divr m) * T = M + / 2 * V + C /\
  (0 <= V / T -> v0 * sg ^ 2 * T = V).
Proof. exact hmc_consistent. Qed.
Print Assumptions C60_cond_matches_steps.
Theorem C60_cond_second_moment : forall m p dt v0 vt avg, 0 <= hmc_ln_var p dt avg ->
  gauss_expect (fun z => (hmc_ln_m m p dt v0 vt avg + sqrt (hmc_ln_var p dt avg) * z) ^ 2) (hmc_cond_log_return_var m p dt v0 vt avg).
Proof. exact hmc_second_moment. Qed.
Print Assumptions C60_cond_second_moment.
Example C60_ex : let p := mkSv (/ 25) 1 (- / 2) (/ 2) (/ 25) in
  let step := fun (i : nat) (d v : R) => (v + / 100, v + / 200, 0) in
  lsum [1; 1] = 2 /\ (let '(_, V, _) := hmc_sum (mkOpt 1 0 0 false) p step 0 [1; 1] (/ 25) in 0 < V / 2).
Proof. cbv zeta. split; [unfold lsum; cbn; ring|]. unfold hmc_sum, hmc_ln_var; cbn [v_rho]. lra. Qed.

(** *** C61: price_paths *)
Theorem C61_path_mean : forall spot sigma dt, 0 <= dt -> gauss_expect (path_step spot sigma dt) (spot * exp (/ 2 * sigma ^ 2 * dt)).
Proof. exact path_step_mean. Qed.
Print Assumptions C61_path_mean.
Theorem C61_martingale_refuted : exists spot sigma dt v, 0 < spot /\ 0 < sigma /\ 0 < dt /\ gauss_expect (path_step spot sigma dt) v /\ spot < v.
Proof.
  exists 1, 1, 2, (1 * exp (/ 2 * 1 ^ 2 * 2)). repeat split; try lra; try apply (path_step_mean 1 1 2); try lra.
  replace (/ 2 * 1 ^ 2 * 2) with 1 by field. pose proof (exp_ineq1 1 ltac:(lra)). lra.
Qed.
Print Assumptions C61_martingale_refuted.
