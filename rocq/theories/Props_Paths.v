(** C96: OusvMcChoi2025KL.unexplained_var_ratio; C97: HestonMcAndersen2008.vol_paths. *)
From Coq Require Import Reals Lra Lia List Arith.
From Coquelicot Require Import Coquelicot.
From Verif Require Import Base Sums M_Opt M_Mgf M_Heston M_HestonMc M_HestonMc2 M_Ou M_Ratio M_HPath Spec_Dist Spec_Cev Spec_CevMc Spec_HestonMc Spec_Expect Spec_HPath P_Gamma2 P_Ratio P_HPath P_HPath2.
Open Scope R_scope.
(** ** C96.  [x] = mean reversion times the time step *)
(** The ratio is one minus the share of the first ns terms in the sum of the infinite series of a_n^4. *)
Theorem C96_share : forall x n k, 0 < x -> exists total, is_series (fun i => 4 / (x ^ 2 + (INR (S i) * PI) ^ 2) ^ 2) total /\ 0 < total /\
  unexplained_var_ratio x (Some n) k = 1 - rsum n (fun i => 4 / (x ^ 2 + (INR (S i) * PI) ^ 2) ^ 2) / total.
Proof. exact ratio_share. Qed.
Print Assumptions C96_share.
(** It lies in (0, 1], is one without sine terms and strictly decreases with every term added. *)
Theorem C96_range : forall x n k, 0 < x -> 0 < unexplained_var_ratio x (Some n) k <= 1 /\ unexplained_var_ratio x (Some 0%nat) k = 1.
Proof. intros x n k Hx. split; [exact (ratio_range x n k Hx)|exact (ratio_0 x k Hx)]. Qed.
Print Assumptions C96_range.
Theorem C96_decreasing : forall x n m k, 0 < x -> (n < m)%nat -> unexplained_var_ratio x (Some m) k < unexplained_var_ratio x (Some n) k.
Proof. exact ratio_decr. Qed.
Print Assumptions C96_decreasing.
(** It vanishes with the number of terms, at the rate 1/ns^3. *)
Theorem C96_limit : forall x k, 0 < x -> is_lim_seq (fun n => unexplained_var_ratio x (Some n) k) 0.
Proof. exact ratio_lim. Qed.
Print Assumptions C96_limit.
Theorem C96_rate : forall x n k, 0 < x -> (0 < n)%nat -> unexplained_var_ratio x (Some n) k <= (x ^ 2 + PI ^ 2) ^ 2 / (3 * PI ^ 4 * INR n ^ 3).
Proof. exact ratio_rate. Qed.
Print Assumptions C96_rate.
Example C96_ex : 0 < unexplained_var_ratio 1 (Some 2%nat) 0 < unexplained_var_ratio 1 (Some 1%nat) 0 /\ unexplained_var_ratio 1 (Some 1%nat) 0 < 1.
Proof.
  destruct (C96_range 1 2 0 ltac:(lra)) as [[A _] Z]. split; [split; [exact A|apply C96_decreasing; [lra|lia]]|]. eapply Rlt_le_trans; [apply (C96_decreasing 1 0 1 0); [lra|lia]|]. rewrite Z. lra.
Qed.

(** ** C97.  [path i] is the variance at the i-th date (0: the start); [dts i] the time steps, [draws i] the variates *)
(** A path is returned for the schemes 0 to 4 and ValueError raised for any other. *)
Theorem C97_schemes : forall p scheme dts draws, hv_paths p scheme dts draws = None <-> (4 < scheme)%nat.
Proof. exact hv_raises. Qed.
Print Assumptions C97_schemes.
(** Every entry is nonnegative (non-negative draws in the exact schemes 2 and 3, any normals in the others), and the path starts at sigma. *)
Theorem C97_nonneg : forall p scheme dts draws path, 0 <= v_sigma p -> 0 < v_mr p -> 0 < v_theta p -> v_vov p <> 0 -> (forall i, 0 < dts i) ->
  (scheme = 2%nat \/ scheme = 3%nat -> forall i, 0 <= draws i) -> hv_paths p scheme dts draws = Some path -> path 0%nat = v_sigma p /\ forall i, 0 <= path i.
Proof.
  intros p scheme dts draws path A B C D E F G. split; [|exact (hv_nonneg p scheme dts draws path A B C D E F G)].
  unfold hv_paths in G. destruct (hv_step p scheme); [|discriminate]. inversion G. reflexivity.
Qed.
Print Assumptions C97_nonneg.
(** Quadratic-exponential scheme: at every date, on any time grid, the simulated variance has exactly the mean and second moment of the CIR process. *)
Theorem C97_qe_moments : forall p dts n, 0 <= v_sigma p -> 0 < v_mr p -> 0 < v_theta p -> v_vov p <> 0 -> (forall i, 0 < dts i) ->
  exists path, (forall z, hv_paths p 4 dts z = Some (path z)) /\
    normals_expect n (fun z => path z n) (cir_mean (heston_cir p) (rsum n dts) (v_sigma p)) /\
    normals_expect n (fun z => path z n ^ 2) (cir_mean (heston_cir p) (rsum n dts) (v_sigma p) ^ 2 + cir_var (heston_cir p) (rsum n dts) (v_sigma p)).
Proof. exact hv_qe_moments. Qed.
Print Assumptions C97_qe_moments.
(** Exact scheme 3 ([pgpath_expect], Spec_HPath.v: expectation over the Poisson and gamma draws of all steps): the same, on every grid. *)
Theorem C97_exact_moments : forall Gam p dts n, gamma_function Gam -> 0 < v_sigma p -> 0 < v_vov p -> 0 < v_mr p -> 0 < v_theta p -> (forall i, 0 < dts i) ->
  let args j v := cir_pois_gamma_args (heston_cir p) (dts j) v in
  let E F x := pgpath_expect Gam (fun j => fst (fst (args j 0))) (fun j => snd (fst (args j 0))) (fun j v => snd (args j v)) n 0 (v_sigma p) F x in
  exists path, (forall w, hv_paths p 3 dts w = Some (path w)) /\
    E (fun w => path w n) (cir_mean (heston_cir p) (rsum n dts) (v_sigma p)) /\
    E (fun w => path w n ^ 2) (cir_mean (heston_cir p) (rsum n dts) (v_sigma p) ^ 2 + cir_var (heston_cir p) (rsum n dts) (v_sigma p)).
Proof. exact hv_pg_moments. Qed.
Print Assumptions C97_exact_moments.
(** A chi-square variable is twice a gamma variable: scheme 2 is scheme 3 on those draws. *)
Theorem C97_ncx2_same : forall p dts g i path path', hv_paths p 2 dts (fun k => 2 * g k) = Some path -> hv_paths p 3 dts g = Some path' -> path i = path' i.
Proof. exact hv_ncx2. Qed.
Print Assumptions C97_ncx2_same.
(** The path is the one the prices are simulated on. *)
Theorem C97_same_as_pricing : forall p dts draws i path, hv_paths p 4 dts draws = Some path -> path (S i) = fst (fst (qe_step p draws i (dts i) (path i))).
Proof. exact hv_step_pricing. Qed.
Print Assumptions C97_same_as_pricing.
(** Scheme 3 produces the paths of HestonMcChoiKwok2023PoisTd from the same draws. *)
Theorem C97_same_as_poistd : forall p dts dr i path, hv_paths p 3 dts (fun k => snd (dr k)) = Some path -> path i = poistd_vol_path (heston_cir p) dts (v_sigma p) dr i.
Proof. exact hv_poistd. Qed.
Print Assumptions C97_same_as_poistd.
(** Refuted: the Euler path is not the Euler scheme of the CIR equation unless the step is one: the noise is not scaled by the square root of dt. *)
Theorem C97_euler_refuted : forall p d z path, 0 < d -> d <> 1 -> 0 < v_sigma p -> 0 < v_vov p -> z <> 0 ->
  hv_paths p 0 (fun _ => d) (fun _ => z) = Some path -> 0 < path 1%nat ->
  path 1%nat <> v_sigma p + v_mr p * (v_theta p - v_sigma p) * d + v_vov p * sqrt (v_sigma p) * (sqrt d * z).
Proof. exact hv_euler_scaling. Qed.
Print Assumptions C97_euler_refuted.
Example C97_ex_exact : exists (Gam : R -> R) (x : R), gamma_function Gam /\ 0 < x /\ let p := mkSv (/ 25) 1 (- / 2) (/ 2) (/ 25) in
  let args j v := cir_pois_gamma_args (heston_cir p) ((fun i => / INR (S i)) j) v in
  exists path, (forall w, hv_paths p 3 (fun i => / INR (S i)) w = Some (path w)) /\
   pgpath_expect Gam (fun j => fst (fst (args j 0))) (fun j => snd (fst (args j 0))) (fun j v => snd (args j v)) 3 0 (/ 25) (fun w => path w 3%nat) x.
Proof.
  destruct gamma_exists as [Gam HG]. set (p := mkSv (/ 25) 1 (- / 2) (/ 2) (/ 25)).
  assert (D : forall i, 0 < / INR (S i)) by (intros i; apply Rinv_0_lt_compat, lt_0_INR; lia).
  destruct (C97_exact_moments Gam p (fun i => / INR (S i)) 3 HG ltac:(cbn; lra) ltac:(cbn; lra) ltac:(cbn; lra) ltac:(cbn; lra) D) as (path & A & B & _).
  exists Gam, (cir_mean (heston_cir p) (rsum 3 (fun i => / INR (S i))) (/ 25)). split; [exact HG|]. split; [|exists path; split; [exact A|exact B]].
  unfold cir_mean, p. cbn [heston_cir c_theta c_mr v_mr v_theta]. rewrite Rminus_eq_0. lra.
Qed.
Example C97_ex : exists path, hv_paths (mkSv (/ 25) 1 (- / 2) (/ 2) (/ 25)) 4 (fun _ => / 4) (fun _ => 1) = Some path /\ path 0%nat = / 25 /\ 0 <= path 3%nat.
Proof.
  eexists. split; [reflexivity|].
  destruct (C97_nonneg (mkSv (/ 25) 1 (- / 2) (/ 2) (/ 25)) 4 (fun _ => / 4) (fun _ => 1) _ ltac:(cbn; lra) ltac:(cbn; lra) ltac:(cbn; lra) ltac:(cbn; lra) ltac:(intros; lra) ltac:(intros [H|H]; discriminate) eq_refl) as [A B].
  split; [exact A|apply B].
Qed.
