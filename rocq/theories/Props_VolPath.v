(** C93: whole volatility paths on a time grid (OUSV and SABR time discretisation). *)
From Coq Require Import Reals Lra Lia List.
From Coquelicot Require Import Coquelicot.
From Verif Require Import Base Sums M_Opt M_Mgf M_Ou M_Sabr M_Mc M_Fd M_VolPath Spec_VolPath P_Dist P_VolPath P_VolPath2 P_VolPath3.
Import ListNotations.
Open Scope R_scope.
(** OUSV: the time-changed Brownian path is, for the same normals, the exact volatility step repeated. *)
Theorem C93_ou_steps : forall p ts zs, 0 < v_mr p -> grid_from 0 ts -> ou_vol_paths p ts zs = v_sigma p :: iterate (ou_vol_step p true) 0 (v_sigma p) ts zs.
Proof. exact ou_paths_steps. Qed.
Print Assumptions C93_ou_steps.
(** Its joint law at the observation times is the Ornstein-Uhlenbeck one. *)
Theorem C93_ou_law : forall p ts, 0 < v_mr p -> grid_from 0 ts ->
  gauss_family (length ts) (fun i zs => nth (S i) (ou_vol_paths p ts zs) 0)
    (fun i => v_theta p + (v_sigma p - v_theta p) * exp (- v_mr p * nth i ts 0))
    (fun i j => v_vov p ^ 2 / (2 * v_mr p) * (exp (- v_mr p * Rabs (nth i ts 0 - nth j ts 0)) - exp (- v_mr p * (nth i ts 0 + nth j ts 0)))).
Proof. exact ou_law. Qed.
Print Assumptions C93_ou_law.
(** cond_states_full: final volatility, average variance v and average volatility u of the path; u^2 <= v, and u lies between the extremes. *)
Theorem C93_ou_averages : forall p ts zs, 0 < v_mr p -> grid_from 0 ts -> ts <> [] -> length zs = length ts ->
  let path := v_sigma p :: iterate (ou_vol_step p true) 0 (v_sigma p) ts zs in
  let '(s, v, u) := ou_full p ts zs in
  s = last path 0 /\ u ^ 2 <= v /\ (forall lo hi, List.Forall (fun x => lo <= x <= hi) path -> lo <= u <= hi).
Proof. exact ou_full_facts. Qed.
Print Assumptions C93_ou_averages.
(** On an even number n of equal intervals the averages are exact for functions of time up to degree three. *)
Theorem C93_simpson_cubic : forall a b c d n, (0 < n)%nat -> Nat.even n = true ->
  is_RInt (fun x => a + b * x + c * x ^ 2 + d * x ^ 3) 0 1 (simps (map (fun i => let x := INR i / INR n in a + b * x + c * x ^ 2 + d * x ^ 3) (seq 0 (S n))) / INR n).
Proof. exact simps_avg_cubic. Qed.
Print Assumptions C93_simpson_cubic.
(** SABR without shift: the exact volatility step repeated, on the grid in years although the path is built in normalised time. *)
Theorem C93_sabr_steps : forall p ts zs, grid_from 0 ts -> 0 < last ts 0 ->
  sabr_vol_paths p 0 ts zs = (1 :: iterate (fun d v z => v * sabr_vol_step p d z) 0 1 ts zs, 0).
Proof. exact sabr_paths_steps. Qed.
Print Assumptions C93_sabr_steps.
(** SABR with shift mu: the path is the unshifted one driven by normals moved by mu sqrt(dt/T), and exp(log_rn_deriv) is exactly the ratio of the
    joint densities, so weighted averages of any function of the path have the unshifted expectation. *)
Theorem C93_sabr_measure : forall p mu ts zs, grid_from 0 ts -> 0 < last ts 0 -> length zs = length ts ->
  let zs' := map (fun dz => snd dz + mu * sqrt (fst dz)) (combine (map (fun d => d / last ts 0) (diff_from 0 ts)) zs) in
  fst (sabr_vol_paths p mu ts zs) = fst (sabr_vol_paths p 0 ts zs') /\ exp (snd (sabr_vol_paths p mu ts zs)) * gauss_weight zs = gauss_weight zs'.
Proof. exact sabr_measure. Qed.
Print Assumptions C93_sabr_measure.
(** The path-based conditional forward and volatility equal those of cond_spot_sigma for the path's terminal volatility and average variance,
    except for beta = 0 where the forward ratio is one unit too small. *)
Theorem C93_sabr_conditional : forall p mu T s0 ts zs F, T <> 0 -> let path := fst (sabr_vol_paths p mu ts zs) in let av := simps (map (fun x => x ^ 2) path) / INR (length ts) in
  sabr_alpha p F = s0 ->
  let '(f, v, w) := sabr_volpath_cond p mu T s0 ts zs in
  (f + (if isclose (b_beta p) 0 then 1 else 0), v) = sabr_cond_spot_sigma p T F (last path 0) (av * T) /\ w = snd (sabr_vol_paths p mu ts zs).
Proof. exact sabr_cond_volpath. Qed.
Print Assumptions C93_sabr_conditional.
(** Refuted for beta = 0: with a flat path (all normals at the drift) the forward ratio is 0 instead of 1. *)
Theorem C93_normal_conditional_refuted : forall vov rho sigma T, 0 < T ->
  fst (fst (sabr_volpath_cond (mkSabr sigma vov rho 0) 0 T sigma [T] [vov * sqrt T / 2])) = 0 /\
  fst (sabr_cond_spot_sigma (mkSabr sigma vov rho 0) T 1 1 T) = 1.
Proof.
  intros vov rho sigma T HT. assert (H0 : isclose 0 0 = true) by apply isclose_refl.
  unfold sabr_volpath_cond, sabr_cond_spot_sigma. cbv zeta. cbn [b_beta fst snd]. rewrite H0. split; [|ring].
  rewrite sabr_paths_steps; [|cbn; lra|cbn; lra]. cbn [fst iterate last]. unfold sabr_vol_step. cbn [b_vov b_rho]. rewrite Rminus_0_r.
  replace (vov * sqrt T * (vov * sqrt T / 2 - vov * sqrt T / 2)) with 0 by (unfold Rminus; rewrite Rplus_opp_r; ring). rewrite exp_0. ring.
Qed.
Print Assumptions C93_normal_conditional_refuted.
(** non-vacuity: a grid of three unequal steps *)
Lemma ex_grid : grid_from 0 [/ 4; 1; 2].
Proof. cbn. lra. Qed.
Example C93_ex_ou : let '(s, v, u) := ou_full (mkSv (/ 5) (/ 2) 0 1 (/ 4)) [/ 4; 1; 2] [1; -1; 2] in u ^ 2 <= v.
Proof.
  pose proof (C93_ou_averages (mkSv (/ 5) (/ 2) 0 1 (/ 4)) [/ 4; 1; 2] [1; -1; 2] ltac:(cbn; lra) ex_grid ltac:(discriminate) eq_refl) as H. cbv zeta in H.
  destruct (ou_full _ _ _) as [[s v] u]. exact (proj1 (proj2 H)).
Qed.
Example C93_ex_measure : exp (snd (sabr_vol_paths (mkSabr (/ 5) (/ 2) 0 1) (/ 3) [1] [0])) * gauss_weight [0] = gauss_weight [/ 3].
Proof.
  destruct (C93_sabr_measure (mkSabr (/ 5) (/ 2) 0 1) (/ 3) [1] [0] ltac:(cbn; lra) ltac:(cbn; lra) eq_refl) as [_ E]. rewrite E. cbn [map combine fst snd last diff_from].
  f_equal. f_equal. replace ((1 - 0) / 1) with 1 by field. rewrite sqrt_1. ring.
Qed.
Example C93_ex_simpson : is_RInt (fun x => 0 + 0 * x + 0 * x ^ 2 + 1 * x ^ 3) 0 1 (simps (map (fun i => let x := INR i / INR 4 in 0 + 0 * x + 0 * x ^ 2 + 1 * x ^ 3) (seq 0 5)) / INR 4).
Proof. apply C93_simpson_cubic; [lia|reflexivity]. Qed.
