(** Proofs about Norm (Bachelier) and the shared barrier code (model in M_Opt.v). *)
From Coq Require Import Reals Lra Psatz List ZArith.
From Coquelicot Require Import Coquelicot.
From Verif Require Import Base Gauss P_Black Spec_Opt M_Opt P_Bsm.
Open Scope R_scope.

(** undiscounted Bachelier price, total std [s], moneyness x = F - K *)
Definition bach (s x cp : R) : R := cp * x * Phi (cp * (x / s)) + s * npdf (x / s).

Lemma bach_parity s x : bach s x 1 - bach s x (-1) = x.
Proof.
  unfold bach. rewrite !Rmult_1_l. replace (-1 * (x / s)) with (- (x / s)) by ring.
  rewrite Phi_opp. ring.
Qed.

Lemma bach_g s x cp : is_cp cp -> 0 < s -> bach s x cp = s * gfun (cp * (x / s)).
Proof.
  intros Hcp Hs. unfold bach, gfun. rewrite npdf_cp by assumption.
  replace (s * (cp * (x / s) * Phi (cp * (x / s)) + npdf (x / s)))
    with (s * (x / s) * cp * Phi (cp * (x / s)) + s * npdf (x / s)) by ring.
  replace (s * (x / s)) with x by (field; lra). ring.
Qed.

Lemma bach_pos s x cp : is_cp cp -> 0 < s -> 0 < bach s x cp.
Proof. intros. rewrite bach_g by assumption. apply Rmult_lt_0_compat; [assumption | apply gfun_pos]. Qed.

Lemma bach_lower s x cp : is_cp cp -> 0 < s -> Rmax (cp * x) 0 < bach s x cp.
Proof.
  intros Hcp Hs. pose proof (bach_parity s x).
  pose proof (bach_pos s x 1 (or_introl eq_refl) Hs). pose proof (bach_pos s x (-1) (or_intror eq_refl) Hs).
  apply Rmax_lub_lt; destruct Hcp as [->| ->]; lra.
Qed.

(** total differential *)
Lemma bach_total (sf xf : R -> R) (t ds dx cp : R) : is_cp cp ->
  is_derive sf t ds -> is_derive xf t dx -> 0 < sf t ->
  is_derive (fun u => bach (sf u) (xf u) cp) t
    (cp * dx * Phi (cp * (xf t / sf t)) + ds * npdf (xf t / sf t)).
Proof.
  intros Hcp Hs Hx Ps.
  set (q := fun u => xf u / sf u).
  set (dq := dx / sf t - xf t * ds / (sf t * sf t)).
  assert (Hq : is_derive q t dq).
  { unfold q. eapply is_derive_eq; [eapply (is_derive_div xf sf); eauto; lra|]. unfold dq. field. lra. }
  eapply is_derive_eq.
  - unfold bach. apply is_derive_plus_R.
    + apply is_derive_mult_R; [apply is_derive_scal_R, Hx|].
      apply (is_derive_Phi_comp (fun u => cp * q u)). apply is_derive_scal_R, Hq.
    + apply is_derive_mult_R; [exact Hs|].
      apply (is_derive_comp_R npdf q); [apply is_derive_npdf | exact Hq].
  - cbv beta. rewrite npdf_cp by assumption. unfold q.
    set (N := npdf (xf t / sf t)). set (P := Phi (cp * (xf t / sf t))).
    replace (cp * dx * P + cp * xf t * (cp * dq * N) + (ds * N + sf t * (dq * (- (xf t / sf t) * N))))
      with (cp * dx * P + ds * N + ((cp * cp) * (xf t * dq * N) - xf t * dq * N)) by (field; lra).
    rewrite (cp_sq cp Hcp). ring.
Qed.

Lemma norm_price_eq m K S T cp : eps <= sigma m * sqrt T ->
  norm_price m K S T cp = mD m T * bach (sigma m * sqrt T) (mF m S T - K) cp.
Proof.
  intros He. pose proof eps_pos as Hep. unfold norm_price, norm_price_formula, bach.
  assert (E : S * (if is_fwd m then 1 else exp (- T * divr m) / exp (- T * intr m)) = mF m S T).
  { unfold mF, FWD. destruct (is_fwd m); [ring|].
    f_equal. rewrite <- exp_sub. f_equal. ring. }
  rewrite E. rewrite Rmax_left by lra. unfold mD, DF. replace (- T * intr m) with (- (intr m * T)) by ring.
  set (s := sigma m * sqrt T) in *. set (x := mF m S T - K).
  replace (cp * (x / s) * Phi (cp * (x / s)) + npdf (x / s))
    with ((cp * x * Phi (cp * (x / s)) + s * npdf (x / s)) / s) by (field; lra).
  field. lra.
Qed.

Lemma norm_parity m K S T : eps <= sigma m * sqrt T ->
  norm_price m K S T 1 - norm_price m K S T (-1) = DF (intr m) T * (FWD (intr m) (divr m) (is_fwd m) S T - K).
Proof.
  intros He. rewrite !norm_price_eq by assumption.
  rewrite <- Rmult_minus_distr_l, bach_parity. reflexivity.
Qed.

Lemma norm_lower m K S T cp : call_or_put cp -> eps <= sigma m * sqrt T ->
  DF (intr m) T * payoff cp K (FWD (intr m) (divr m) (is_fwd m) S T) < norm_price m K S T cp.
Proof.
  intros Hcp He. rewrite norm_price_eq by assumption. pose proof eps_pos.
  apply Rmult_lt_compat_l; [apply mD_pos|]. apply bach_lower; [exact Hcp | lra].
Qed.

(** At (or numerically at) expiry the price is 0 instead of intrinsic value. *)
Lemma norm_price_expiry m K S T cp : sigma m * sqrt T = 0 -> norm_price m K S T cp = 0.
Proof. intros E. unfold norm_price, norm_price_formula. rewrite E. ring. Qed.

Lemma norm_d_eq m K F T : eps <= sigma m * sqrt T -> norm_d m K F T = (F - K) / (sigma m * sqrt T).
Proof. intros He. unfold norm_d. now rewrite sigma_std_big. Qed.

Lemma norm_delta_derive m K S T cp : call_or_put cp -> eps <= sigma m * sqrt T ->
  is_derive (fun x => norm_price m K x T cp) S (norm_delta m K S T cp).
Proof.
  intros Hcp He. pose proof eps_pos.
  apply (is_derive_ext (fun x => mD m T * bach (sigma m * sqrt T) (mF m x T - K) cp)).
  { intros x. now rewrite norm_price_eq. }
  eapply is_derive_eq.
  - apply is_derive_scal_R.
    apply (bach_total (fun _ => sigma m * sqrt T) (fun x => mF m x T - K) S 0 (fslope m T) cp Hcp);
      [apply is_derive_const_R | | lra].
    eapply is_derive_eq; [apply is_derive_minus_R; [apply is_derive_mF_S | apply is_derive_const_R]|]. ring.
  - unfold norm_delta. rewrite fdd_eq, norm_d_eq by assumption.
    pose proof (fslope_divf m T) as E.
    replace (if is_fwd m then mD m T else if is_fwd m then 1 else exp (- (divr m * T)))
      with (mD m T * fslope m T) by (rewrite E; destruct (is_fwd m); reflexivity).
    ring.
Qed.

Lemma norm_delta_eq m K S T cp : eps <= sigma m * sqrt T ->
  norm_delta m K S T cp = cp * Phi (cp * ((mF m S T - K) / (sigma m * sqrt T))) * (mD m T * fslope m T).
Proof.
  intros He. unfold norm_delta. rewrite fdd_eq, norm_d_eq by assumption. f_equal.
  rewrite fslope_divf. destruct (is_fwd m); reflexivity.
Qed.

Lemma norm_gamma_derive2 m K S T cp : call_or_put cp -> eps <= sigma m * sqrt T ->
  is_derive_n (fun x => norm_price m K x T cp) 2 S (norm_gamma m K S T cp).
Proof.
  intros Hcp He. pose proof eps_pos. pose proof (mD_pos m T).
  apply (is_derive_n_2 _ (fun x => norm_delta m K x T cp)).
  { apply filter_forall. intros y. now apply norm_delta_derive. }
  set (s := sigma m * sqrt T) in *.
  apply (is_derive_ext (fun x => (mD m T * fslope m T) * (cp * Phi (cp * ((mF m x T - K) / s))))).
  { intros x. rewrite norm_delta_eq by assumption. fold s. Req. ring. }
  assert (Hd : is_derive (fun x => cp * ((mF m x T - K) / s)) S (cp * (fslope m T / s))).
  { apply is_derive_scal_R.
    apply (is_derive_ext (fun x => / s * (mF m x T - K))); [intros; unfold Rdiv; Req; ring|].
    eapply is_derive_eq; [apply is_derive_scal_R, is_derive_minus_R; [apply is_derive_mF_S | apply is_derive_const_R]|].
    unfold Rdiv; ring. }
  eapply is_derive_eq.
  - apply is_derive_scal_R, is_derive_scal_R. apply (is_derive_Phi_comp (fun x => cp * ((mF m x T - K) / s))). exact Hd.
  - cbv beta. rewrite npdf_cp by exact Hcp. unfold norm_gamma. rewrite fdd_eq, norm_d_eq by assumption.
    rewrite sigma_std_big by assumption. fold s. set (N := npdf ((mF m S T - K) / s)).
    replace (mD m T * fslope m T * (cp * (cp * (fslope m T / s) * N)))
      with ((cp * cp) * (mD m T * N / s * fslope m T ^ 2)) by (field; lra).
    rewrite (cp_sq cp Hcp). pose proof (fslope_divf m T) as E.
    destruct (is_fwd m) eqn:Ef.
    + unfold fslope. rewrite Ef. ring.
    + rewrite <- E. replace (mD m T * fslope m T / mD m T) with (fslope m T) by (field; lra). ring.
Qed.

Lemma norm_vega_derive m K S T cp : call_or_put cp -> eps < sigma m * sqrt T ->
  is_derive (fun u => norm_price (set_sigma m u) K S T cp) (sigma m) (norm_vega m K S T cp).
Proof.
  intros Hcp He. pose proof eps_pos.
  apply (is_derive_ext_loc (fun u => mD m T * bach (u * sqrt T) (mF m S T - K) cp)).
  { apply (filter_imp (fun u => eps < u * sqrt T)); [|now apply locally_floor].
    intros u Hu. rewrite norm_price_eq by (cbn; lra). reflexivity. }
  eapply is_derive_eq.
  - apply is_derive_scal_R.
    apply (bach_total (fun u => u * sqrt T) (fun _ => mF m S T - K) (sigma m) (sqrt T) 0 cp Hcp);
      [|apply is_derive_const_R|lra].
    auto_derive; [trivial|]. Req. ring.
  - unfold norm_vega. rewrite fdd_eq, norm_d_eq by lra. ring.
Qed.

Lemma norm_cdf_strike m K S T cp : call_or_put cp -> eps <= sigma m * sqrt T ->
  is_derive (fun k => norm_price m k S T cp) K (- cp * DF (intr m) T * norm_cdf m K S T cp).
Proof.
  intros Hcp He. pose proof eps_pos.
  apply (is_derive_ext (fun k => mD m T * bach (sigma m * sqrt T) (mF m S T - k) cp)).
  { intros x. now rewrite norm_price_eq. }
  eapply is_derive_eq.
  - apply is_derive_scal_R.
    apply (bach_total (fun _ => sigma m * sqrt T) (fun k => mF m S T - k) K 0 (-1) cp Hcp);
      [apply is_derive_const_R | | lra].
    auto_derive; [trivial|]. Req. ring.
  - unfold norm_cdf. change (forward m S T) with (mF m S T). rewrite norm_d_eq by assumption. unfold mD. ring.
Qed.

(** exact theta of the Bachelier price *)
Definition norm_theta_true (m : opt) (K S T cp : R) : R :=
  norm_theta m K S T cp
  + cp * mD m T * mF m S T * Phi (cp * ((mF m S T - K) / (sigma m * sqrt T))) * (if is_fwd m then intr m else divr m).

Lemma norm_theta_derive m K S T cp : call_or_put cp -> eps < sigma m * sqrt T ->
  is_derive (fun t => norm_price m K S t cp) T (- norm_theta_true m K S T cp).
Proof.
  intros Hcp He. pose proof eps_pos as Hep.
  pose proof (T_pos _ _ He) as HT. pose proof (sqrtT_pos _ _ He) as Hq.
  apply (is_derive_ext_loc (fun t => mD m t * bach (sigma m * sqrt t) (mF m S t - K) cp)).
  { apply (filter_imp (fun t => eps < sigma m * sqrt t)).
    - intros t Ht. rewrite norm_price_eq by lra. reflexivity.
    - apply (locally_gt (fun t => sigma m * sqrt t)); [|exact He].
      apply ex_derive_continuous_R. auto_derive. exact HT. }
  assert (Hs : is_derive (fun t => sigma m * sqrt t) T (sigma m / (2 * sqrt T))).
  { auto_derive; [exact HT|]. rfield. lra. }
  eapply is_derive_eq.
  - apply is_derive_mult_R; [apply is_derive_exp_lin|].
    apply (bach_total (fun t => sigma m * sqrt t) (fun t => mF m S t - K) T
             (sigma m / (2 * sqrt T)) ((if is_fwd m then 0 else intr m - divr m) * mF m S T - 0) cp Hcp Hs).
    + apply is_derive_minus_R; [apply is_derive_mF_T | apply is_derive_const_R].
    + lra.
  - unfold norm_theta_true, norm_theta. rewrite fdd_eq, norm_d_eq by lra. rewrite sigma_std_big by lra.
    cbv beta. fold (DF (intr m) T). change (DF (intr m) T) with (mD m T). unfold bach.
    set (P := Phi (cp * ((mF m S T - K) / (sigma m * sqrt T)))).
    set (N := npdf ((mF m S T - K) / (sigma m * sqrt T))).
    assert (ET : sigma m / (2 * sqrt T) = sigma m * sqrt T / (2 * T)).
    { rewrite <- (sqrt_sqrt T) at 3 by lra. field. lra. }
    rewrite ET. destruct (is_fwd m); field; lra.
Qed.

(** ** Binary options *)
Lemma norm_binary_decomp m K S T cp : eps <= sigma m * sqrt T ->
  norm_price m K S T cp = norm_price_binary m K S T cp true - cp * K * norm_price_binary m K S T cp false.
Proof.
  intros He. rewrite norm_price_eq by assumption. unfold norm_price_binary. rewrite fdd_eq.
  rewrite Rmax_left by exact He. unfold bach. ring.
Qed.

(** ** Barrier *)
Lemma price_barrier_sum sub params K B S T cp :
  price_barrier sub params K B S T cp 1 + price_barrier sub params K B S T cp (-1) = sub K S T cp K.
Proof.
  unfold price_barrier. destruct (params B S) as [psi sr].
  destruct (Rlt_dec 0 1) as [_|n]; [|lra]. destruct (Rlt_dec 0 (-1)) as [n|_]; [lra|]. ring.
Qed.

Lemma bsm_suboptimal_vanilla m K S T cp : bsm_price_suboptimal m K S T cp K = bsm_price m K S T cp.
Proof.
  rewrite bsm_price_eq. unfold bsm_price_suboptimal, black. rewrite fdd_eq, bsm_d1_eq, bsm_d2_eq. ring.
Qed.

Lemma norm_suboptimal_vanilla m K S T cp : eps <= sigma m * sqrt T ->
  norm_price_suboptimal m K S T cp K = norm_price m K S T cp.
Proof.
  intros He. rewrite norm_price_eq by assumption. unfold norm_price_suboptimal, bach.
  rewrite fdd_eq, sigma_std_big by assumption. ring.
Qed.

Lemma bsm_suboptimal_parity m K S T X :
  bsm_price_suboptimal m K S T 1 X - bsm_price_suboptimal m K S T (-1) X = mD m T * (mF m S T - K).
Proof.
  unfold bsm_price_suboptimal. rewrite fdd_eq, !Rmult_1_l.
  replace (-1 * bsm_d1 m X (mF m S T) T) with (- bsm_d1 m X (mF m S T) T) by ring.
  replace (-1 * bsm_d2 m X (mF m S T) T) with (- bsm_d2 m X (mF m S T) T) by ring.
  rewrite !Phi_opp. ring.
Qed.

Lemma norm_suboptimal_parity m K S T X :
  norm_price_suboptimal m K S T 1 X - norm_price_suboptimal m K S T (-1) X = mD m T * (mF m S T - K).
Proof.
  unfold norm_price_suboptimal. rewrite fdd_eq, !Rmult_1_l.
  replace (-1 * ((mF m S T - X) / sigma_std (sigma m) T)) with (- ((mF m S T - X) / sigma_std (sigma m) T)) by ring.
  rewrite !Phi_opp. ring.
Qed.

(** spot on the barrier: knock-out worth 0, whatever the pair (psi, mirror) = (1, spot) *)
Lemma price_barrier_at sub params K B T cp c : is_cp cp -> params B B = (1, B) ->
  (forall X, sub K B T 1 X - sub K B T (-1) X = c) ->
  price_barrier sub params K B B T cp (-1) = 0.
Proof.
  intros Hcp Hp Hpar. unfold price_barrier. rewrite Hp.
  destruct (Rlt_dec 0 (-1)) as [n|_]; [lra|].
  destruct (Rlt_dec B B) as [n|_]; [lra|].
  destruct Hcp as [->| ->].
  - replace (-1 * 1) with (-1) by ring. destruct (Rlt_dec 0 (-1)) as [n|_]; [lra|].
    replace (-1 * 1) with (-1) by ring.
    pose proof (Hpar K). pose proof (Hpar (1 * Rmax (1 * K) (1 * B))). lra.
  - replace (-1 * -1) with 1 by ring. destruct (Rlt_dec 0 1) as [_|n]; [|lra].
    rewrite !Rmult_1_l. ring.
Qed.

Lemma bsm_barrier_params_at m B : 0 < B -> bsm_barrier_params m B B = (1, B).
Proof.
  intros HB. unfold bsm_barrier_params. f_equal.
  - replace (B / B) with 1 by (field; lra). unfold Rpower. rewrite ln_1, Rmult_0_r. apply exp_0.
  - field. lra.
Qed.
