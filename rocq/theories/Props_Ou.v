(** C30, C31, C63-C65: OUSV moments, Karhunen-Loeve simulation, variance swap, conditional pricing. *)
From Coq Require Import Reals Lra Lia List Arith.
From Coquelicot Require Import Coquelicot.
From Verif Require Import Base Gauss Sums M_Opt M_Mgf M_Heston M_Ou Spec_Expect Spec_Ou P_Cir P_Ou P_Ou2 P_Ou3 P_Kl P_KlSum P_KlLaw.
Open Scope R_scope.

(** *** C30.  [ou_expectation k th xi g f] (Spec_Ou.v): f t s u j = E[g(sigma_t, int sigma, int sigma^2)] started at (s, u, j). *)
Theorem C30_avg_vol : forall s0 xi rho k th, k <> 0 ->
  ou_expectation k th xi (fun s u j => u) (fun t s u j => u + t * ou_avgvol (mkSv s0 xi rho k th) true t s).
Proof. exact ou_avgvol_exp. Qed.
Print Assumptions C30_avg_vol.
Theorem C30_avg_var : forall s0 xi rho k th, k <> 0 ->
  ou_expectation k th xi (fun s u j => j) (fun t s u j => j + t * ou_avgvar (mkSv s0 xi rho k th) true t s).
Proof. exact ou_avgvar_exp. Qed.
Print Assumptions C30_avg_var.
(** the simulated terminal volatility has the model's first, second and fourth moments *)
Theorem C30_step_law : forall s0 xi rho k th, 0 < k -> exists m1 m2 m4 : R -> R -> R,
  ou_expectation k th xi (fun s u j => s) (fun t s u j => m1 t s) /\
  ou_expectation k th xi (fun s u j => s ^ 2) (fun t s u j => m2 t s) /\
  ou_expectation k th xi (fun s u j => s ^ 4) (fun t s u j => m4 t s) /\
  forall T s, 0 <= T -> let step z := ou_vol_step (mkSv s0 xi rho k th) true T s z in
    gauss_expect step (m1 T s) /\ gauss_expect (fun z => step z ^ 2) (m2 T s) /\ gauss_expect (fun z => step z ^ 4) (m4 T s).
Proof. exact ou_step_law. Qed.
Print Assumptions C30_step_law.
(** two steps have the Gaussian law of one step over the total time *)
Theorem C30_steps_compose : forall s0 xi rho k th S T s, 0 < k -> 0 <= S -> 0 <= T -> let p := mkSv s0 xi rho k th in
  exists m a b c, (forall z1 z2, ou_vol_step p true T (ou_vol_step p true S s z1) z2 = m + a * z1 + b * z2) /\
    (forall z, ou_vol_step p true (S + T) s z = m + c * z) /\ a ^ 2 + b ^ 2 = c ^ 2.
Proof. exact ou_two_steps. Qed.
Print Assumptions C30_steps_compose.
(** conditional-on-endpoint averages average back to the unconditional ones *)
Theorem C30_tower : forall s0 xi rho k th, 0 < k -> let p := mkSv s0 xi rho k th in forall T s, 0 < T ->
  gauss_expect (fun z => fst (ou_cond p true T s (ou_vol_step p true T s z))) (ou_avgvol p true T s) /\
  gauss_expect (fun z => snd (ou_cond p true T s (ou_vol_step p true T s z))) (ou_avgvar p true T s).
Proof. exact ou_tower. Qed.
Print Assumptions C30_tower.
(** measuring from theta (nz_theta=False) is the same computation shifted *)
Theorem C30_theta_shift : forall p b z i T s0, ou_td_step p true b z i T s0 =
  (let '(vt, va, vu) := ou_td_step p false b z i T (s0 - v_theta p) in (vt + v_theta p, va + v_theta p * (v_theta p + 2 * vu), vu + v_theta p)).
Proof. exact ou_nz_td. Qed.
Print Assumptions C30_theta_shift.
Example C30_ex : 0 < 2 /\ 2 <> 0 /\ 0 < 1 /\ exists c, c <> 0 /\ forall z, ou_vol_step (mkSv (1/5) (3/10) (-1/2) 2 (1/4)) true 1 (1/5) z = oum 2 (1/4) 1 (1/5) + c * z.
Proof.
  split; [lra|]. split; [lra|]. split; [lra|]. eexists. split; [|intros z; apply ou_step_form].
  apply Rgt_not_eq, Rmult_lt_0_compat; [lra|]. apply sqrt_lt_R0. apply Rdiv_lt_0_compat; [|lra].
  assert (A : exp (- (2) * 1) < 1) by (apply exp_lt_1; lra). pose proof (exp_pos (- (2) * 1)) as B. revert A B. generalize (exp (- (2) * 1)). intros y A B. nra.
Qed.

(** *** C31.  For any number of sine terms and any normals, the state returned by the Karhunen-Loeve step is made of the end value and
    the exact time averages of the simulated path and of its square. *)
Theorem C31_state_is_path_average : forall sig xi rho k th T z0 ns zs, 0 < k -> 0 < T ->
  let p := mkSv sig xi rho k th in let path := kl_path p T z0 ns zs in
  let '(vT, vv, uu) := kl_states_zn p true T sig z0 ns zs in
  path 0 = sig /\ path T = vT /\ vT = ou_vol_step p true T sig z0 /\
  is_RInt (fun t => path t / T) 0 T uu /\ is_RInt (fun t => path t ^ 2 / T) 0 T vv.
Proof. exact kl_exact. Qed.
Print Assumptions C31_state_is_path_average.
(** without given normals vol_path_sin cannot work: the shapes never match for n_sin > 0 *)
Lemma path_sin_none n : (0 < n)%nat -> path_sin_rows n = None.
Proof. intros H. unfold path_sin_rows. destruct (Nat.eqb_spec (n - 1) n); [lia|reflexivity]. Qed.
Theorem C31_path_without_normals_refuted : forall n, (0 < n)%nat -> path_sin_rows n = None.
Proof. exact path_sin_none. Qed.
Print Assumptions C31_path_without_normals_refuted.
Example C31_ex : let '(vT, vv, uu) := kl_states_zn (mkSv (1/5) (3/10) (-1/2) 2 (1/4)) true 1 (1/5) (1/3) 4 (fun n => INR n) in
  is_RInt (fun t => kl_path (mkSv (1/5) (3/10) (-1/2) 2 (1/4)) 1 (1/3) 4 (fun n => INR n) t / 1) 0 1 uu.
Proof.
  pose proof (kl_exact (1/5) (3/10) (-1/2) 2 (1/4) 1 (1/3) 4 (fun n => INR n) ltac:(lra) ltac:(lra)) as H. cbv zeta in H.
  destruct (kl_states_zn _ _ _ _ _ _ _) as [[vT vv] uu]. apply H.
Qed.

(** *** C63.  variance swap: first-order coefficient in the monitoring step *)
Theorem C63_first_order : forall s0 xi rho k th r T dt, 0 < k -> 0 < T -> exists m2 m4 : R -> R -> R,
  ou_expectation k th xi (fun s u j => s ^ 2) (fun t s u j => m2 t s) /\
  ou_expectation k th xi (fun s u j => s ^ 4) (fun t s u j => m4 t s) /\
  is_RInt (fun t => dt * (r ^ 2 - r * m2 t s0 + / 4 * m4 t s0 - rho * xi * m2 t s0) / T) 0 T
    (ou_var_swap (mkSv s0 xi rho k th) r T dt - ou_avgvar (mkSv s0 xi rho k th) true T s0).
Proof. exact ou_swap_prop. Qed.
Print Assumptions C63_first_order.
(** with dividends the drift should be intr - divr: the routine is off by this amount *)
Theorem C63_dividend_refuted : forall s0 xi rho k th r q T dt, 0 < k -> 0 < T ->
  ou_var_swap (mkSv s0 xi rho k th) r T dt - ou_var_swap (mkSv s0 xi rho k th) (r - q) T dt
  = dt * q * (2 * r - q - ou_avgvar (mkSv s0 xi rho k th) true T s0).
Proof. exact ou_swap_div. Qed.
Print Assumptions C63_dividend_refuted.
Example C63_ex : exists dt q r T, 0 < dt /\ 0 < q /\ 0 < T /\
  ou_var_swap (mkSv (1/5) (3/10) 0 2 (1/5)) r T dt <> ou_var_swap (mkSv (1/5) (3/10) 0 2 (1/5)) (r - q) T dt.
Proof.
  set (K := ou_avgvar (mkSv (1/5) (3/10) 0 2 (1/5)) true 1 (1/5)).
  exists 1, 1, (K / 2 + 1), 1. split; [lra|]. split; [lra|]. split; [lra|]. intros E.
  pose proof (ou_swap_div (1/5) (3/10) 0 2 (1/5) (K / 2 + 1) 1 1 1 ltac:(lra) ltac:(lra)) as D. fold K in D. lra.
Qed.

(** *** C64.  [is_tail term x ns s v]: v is the sum of the infinite series of term x n over n > ns with n all / odd / even *)
Theorem C64_a2sum : forall x ns s, 0 < x -> is_tail kl_t2 x ns s (a2sum x ns s).
Proof. exact a2sum_tail. Qed.
Print Assumptions C64_a2sum.
Theorem C64_a2overn2sum : forall x ns s, 0 < x -> is_tail kl_t2n x ns s (a2overn2sum x ns s).
Proof. exact a2overn2sum_tail. Qed.
Print Assumptions C64_a2overn2sum.
Theorem C64_a4sum : forall x ns s, 0 < x -> is_tail kl_t4 x ns s (a4sum x ns s).
Proof. exact a4sum_tail. Qed.
Print Assumptions C64_a4sum.
Theorem C64_a6sum : forall x ns s, 0 < x -> is_tail kl_t6 x ns s (a6sum x ns s).
Proof. exact a6sum_tail. Qed.
Print Assumptions C64_a6sum.
Theorem C64_a6n2sum : forall x ns s, 0 < x -> is_tail kl_t6n x ns s (a6n2sum x ns s).
Proof. exact a6n2sum_tail. Qed.
Print Assumptions C64_a6n2sum.
(** mean, variance and covariance of the simulated average volatility U and average variance V, given the endpoints, are the
    ones of the infinite expansion, whatever the number [ns] of explicit sine terms (normals 0..ns-1: sines, ns..ns+3: tail) *)
Theorem C64_moments_any_truncation : forall sig xi rho k th T v0 z0 ns, 0 < k -> 0 < T ->
  let p := mkSv sig xi rho k th in let x := k * T in let c := xi * sqrt T in let vt := ou_vol_step p false T v0 z0 in
  let U z := snd (kl_random sig xi rho k th T v0 z0 ns z) in let V z := snd (fst (kl_random sig xi rho k th T v0 z0 ns z)) in
  let mU := fst (ou_cond p false T v0 vt) in let mV := snd (ou_cond p false T v0 vt) in
  normals_expect (ns + 4) U mU /\ normals_expect (ns + 4) V mV /\
  normals_expect (ns + 4) (fun z => (U z - mU) ^ 2) (4 * c ^ 2 * a2overn2sum x 0 Odds) /\
  normals_expect (ns + 4) (fun z => (U z - mU) * (V z - mV)) (2 * c ^ 2 * (v0 + vt) * a4sum x 0 Odds) /\
  normals_expect (ns + 4) (fun z => (V z - mV) ^ 2)
    (c ^ 2 * ((v0 + vt) ^ 2 * a6n2sum x 0 Odds + (v0 - vt) ^ 2 * a6n2sum x 0 Evens + / 2 * c ^ 2 * a4sum x 0 All)).
Proof. exact kl_law. Qed.
Print Assumptions C64_moments_any_truncation.
(** the clipping of the correlation never acts *)
Theorem C64_clip_inactive : forall k T ns, 0 < k -> 0 < T ->
  let x := k * T in let corr := a4sum x ns Odds / (sqrt (a2overn2sum x ns Odds) * sqrt (a6n2sum x ns Odds)) in clip1 corr = corr.
Proof. exact clip_inactive. Qed.
Print Assumptions C64_clip_inactive.
(** numeric anchor: the odd-term sum of 2/(n pi)^2 over all n gives 1/3 *)
Theorem C64_basel : is_series (fun i => 2 / npi (S i) ^ 2) (1 / 3).
Proof. exact series_basel. Qed.
Print Assumptions C64_basel.
Example C64_ex : 0 < 2 /\ 0 < a4sum 2 3 Odds.
Proof. split; [lra|]. apply (tail_pos 2 3 kl_t4 Odds); [discriminate|intros; apply t4_pos; lra|apply a4sum_tail; lra]. Qed.

(** *** C65.  [step] is any routine (nz_theta=False) returning (vol_t, avgvar, avgvol); [nz_step p step] is the same routine with
    nz_theta=True; M, V are the totals of conditional means and variances of the log-return along the path *)
Theorem C65_totals : forall m p step dts T v0, v0 <> 0 -> 0 < T -> lsum dts = T -> v_vov p <> 0 -> v_rho p ^ 2 < 1 ->
  let '(sc, sg) := ou_cond_spot_sigma p step dts T v0 in
  let '(M, V) := ou_sum m p (nz_step p step) 0 dts v0 in
  ln sc + (intr m - divr m) * T = M + / 2 * V /\
  v0 ^ 2 * sg ^ 2 * T = Rmax V ((1 - v_rho p ^ 2) * T / 10 ^ 64).
Proof. exact ou_consistent. Qed.
Print Assumptions C65_totals.
Theorem C65_nz_step : forall p b z i d v, nz_step p (ou_td_step p false b z) i d v = ou_td_step p true b z i d v.
Proof. exact (fun p b z i d v => eq_sym (ou_nz_td p b z i d v)). Qed.
Print Assumptions C65_nz_step.
Theorem C65_second_moment : forall m p dt v0 vt va vu, 0 <= ou_ln_var p dt va ->
  gauss_expect (fun z => (ou_ln_m m p dt v0 vt va vu + sqrt (ou_ln_var p dt va) * z) ^ 2) (ou_cond_log_return_var m p dt v0 vt va vu).
Proof. exact ou_second_moment. Qed.
Print Assumptions C65_second_moment.
(** the conditional spot is a function of (t, sigma_t, int sigma, int sigma^2) without drift under the model *)
Theorem C65_spot_form : forall p step dts T v0, T <> 0 ->
  let '(vt, av, au) := ou_loop step 0 dts (v0 - v_theta p) 0 0 in
  fst (ou_cond_spot_sigma p step dts T v0) =
  ou_spot (v_vov p) (v_rho p) (v_mr p) (v_theta p) v0 T (vt + v_theta p) (au + v_theta p * T) (av + v_theta p * (v_theta p * T + 2 * au)).
Proof. exact ou_spot_code. Qed.
Print Assumptions C65_spot_form.
Theorem C65_spot_martingale : forall xi rho k th s0, xi <> 0 -> ou_martingale k th xi (ou_spot xi rho k th s0).
Proof. exact ou_spot_martingale. Qed.
Print Assumptions C65_spot_martingale.
Example C65_ex : lsum (1/4 :: 1/4 :: 1/2 :: nil) = 1 /\ 3/10 <> 0 /\ (-1/2) ^ 2 < 1 /\ ou_spot (3/10) (-1/2) 2 (1/4) (1/5) 0 (1/5) 0 0 = 1.
Proof.
  split; [unfold lsum; simpl; lra|]. split; [lra|]. split; [lra|]. unfold ou_spot.
  replace (/ 2 * (-1 / 2) / (3 / 10) * _) with 0 by field. apply exp_0.
Qed.
