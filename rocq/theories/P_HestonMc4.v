(** Posterior law of the Poisson index, and the inversion sampler for it. *)
From Coq Require Import Reals Lra Lia Arith Psatz.
From Coquelicot Require Import Coquelicot.
From Verif Require Import Base Sums M_Heston P_Cir P_KlSum M_HestonMc Spec_Dist Spec_Cev Spec_CevMc Spec_HestonMc P_Gamma P_Gamma2 P_Half P_Ncx2 P_HestonMc P_HestonMc2 P_HestonMc3.
Open Scope R_scope.

Section P.
Variable Gam : R -> R.
Hypothesis HG : gamma_function Gam.
Variables (c : cir) (dt v0 vt : R).
Hypothesis (Hxi : 0 < c_xi c) (Hmr : 0 < c_mr c) (Hth : 0 < c_theta c) (Hdt : 0 < dt) (Hv0 : 0 < v0) (Hvt : 0 < vt).
Let nu := eta_nu c. Let zz := eta_zz c dt v0 vt.
(** joint density of (N = n, v_t) in the Poisson-gamma draw *)
Definition pg_joint (n : nat) : R :=
  let '(scale, shape, inten) := cir_pois_gamma_args c dt v0 in pois inten n * (gamma_pdf Gam (shape + INR n) (vt / scale) / scale).
Lemma zz_half_sq : (zz / 2) ^ 2 = v0 * vt * cir_phi c dt ^ 2 / 4.
Proof.
  unfold zz, eta_zz. replace ((sqrt (v0 * vt) * cir_phi c dt / 2) ^ 2) with (sqrt (v0 * vt) ^ 2 * cir_phi c dt ^ 2 / 4) by field.
  rewrite pow2_sqrt; [reflexivity|]. left. now apply Rmult_lt_0_compat.
Qed.
Lemma joint_eq : exists K, 0 < K /\ forall n, pg_joint n = K * (bsc Gam (nu + 1) n * ((zz / 2) ^ 2) ^ n).
Proof.
  pose proof (phi_pos c dt Hxi Hmr Hdt) as Hphi. assert (He : 0 < cir_exp_h c dt) by apply exp_pos.
  unfold pg_joint, cir_pois_gamma_args. set (e := cir_exp_h c dt) in *. set (phi := cir_phi c dt) in *.
  set (sh := 4 * c_mr c * c_theta c / c_xi c ^ 2 / 2).
  assert (Esh : nu + 1 = sh). { unfold nu, eta_nu, chi_dim, sh. field. lra. }
  assert (Hsh : 0 < sh). { rewrite <- Esh. pose proof (nu_gt c Hxi Hmr Hth). unfold nu. lra. }
  set (x := vt / (e / phi * 2)). assert (Hs : 0 < e / phi * 2) by (apply Rmult_lt_0_compat; [now apply Rdiv_lt_0_compat|lra]).
  assert (Hx : 0 < x) by now apply Rdiv_lt_0_compat.
  exists (exp (- (v0 * e * phi / 2)) * (Rpower x (sh - 1) * exp (- x) / (e / phi * 2))). split.
  { apply Rmult_lt_0_compat; [apply exp_pos|]. apply Rdiv_lt_0_compat; [|exact Hs]. apply Rmult_lt_0_compat; [|]; apply exp_pos. }
  intros n. rewrite zz_half_sq, Esh. unfold pois, gamma_pdf, bsc. fold phi. fold x.
  replace (sh + INR n - 1) with (sh - 1 + INR n) by ring. rewrite Rpower_plus, Rpower_pow by exact Hx.
  replace ((v0 * vt * phi ^ 2 / 4) ^ n) with ((v0 * e * phi / 2) ^ n * x ^ n).
  2:{ rewrite <- Rpow_mult_distr. f_equal. unfold x. field. split; lra. }
  pose proof (Gam_pos Gam HG (sh + INR n) ltac:(pose proof (pos_INR n); lra)). pose proof (fact_pos n). field. repeat split; lra.
Qed.
Lemma posterior : exists total, is_series pg_joint total /\ 0 < total /\ forall n, pg_joint n / total = bessel_pmf Gam nu zz n.
Proof.
  destruct joint_eq as (K & HK & E). pose proof (nu_gt c Hxi Hmr Hth) as N. fold nu in N.
  pose proof (Bs_pos Gam HG (nu + 1) ((zz / 2) ^ 2) ltac:(lra) (pow2_ge_0 _)) as HB.
  exists (K * Bs Gam (nu + 1) ((zz / 2) ^ 2)). split; [|split].
  - eapply series_ext; [apply series_scal, (Bs_series Gam HG (nu + 1)); lra|]. intros n. symmetry. apply E.
  - now apply Rmult_lt_0_compat.
  - intros n. rewrite E, (bpmf_eq Gam HG) by exact N. field. lra.
Qed.
Section Draw.
Variables (ive : R -> R -> R) (gammaln : R -> R).
Hypothesis Hive : forall nu z, -1 < nu -> 0 < z -> ive nu z = exp (- z) * bessel_I Gam nu z.
Hypothesis Hgl : forall x, 0 < x -> exp (gammaln x) = Gam x.
Lemma cumprod_eq j : eta_cumprod ive gammaln c dt v0 vt j = bessel_pmf Gam nu zz j.
Proof.
  pose proof (nu_gt c Hxi Hmr Hth) as N. fold nu in N. pose proof (zz_pos c dt v0 vt Hxi Hmr Hdt Hv0 Hvt) as Z. fold zz in Z.
  pose proof (Bs_pos Gam HG (nu + 1) ((zz / 2) ^ 2) ltac:(lra) (pow2_ge_0 _)) as HB.
  induction j as [|j IH].
  - cbn [eta_cumprod]. unfold eta_p0. fold nu zz. rewrite Hive by lra. rewrite bpmf_eq, bI_eq by (try exact HG; exact N).
    unfold Rminus. rewrite !exp_plus. fold (Rpower (zz / 2) nu). rewrite (exp_Ropp (gammaln (nu + 1))), Hgl by lra. unfold bsc. change (INR 0) with 0. rewrite Rplus_0_r.
    pose proof (Gam_pos Gam HG (nu + 1) ltac:(lra)). pose proof (exp_pos (- zz)). assert (0 < Rpower (zz / 2) nu) by apply exp_pos.
    replace (exp (nu * ln (zz / 2) + - zz)) with (Rpower (zz / 2) nu * exp (- zz)) by (unfold Rpower; rewrite <- exp_plus; reflexivity).
    set (B := Bs Gam (nu + 1) _) in *. cbn [fact INR pow]. field. repeat split; lra.
  - cbn [eta_cumprod]. rewrite IH. rewrite !(bpmf_eq Gam HG) by exact N. unfold eta_ratio. fold nu zz. set (B := Bs Gam (nu + 1) _) in *. cbn [pow].
    unfold bsc. rewrite fact_simpl, mult_INR. replace (nu + 1 + INR (S j)) with (nu + 1 + INR j + 1) by (rewrite S_INR; ring). pose proof (pos_INR j).
    rewrite (Gam_succ Gam HG (nu + 1 + INR j)) by lra. pose proof (Gam_pos Gam HG (nu + 1 + INR j) ltac:(lra)). pose proof (fact_pos j). rewrite S_INR. field. repeat split; lra.
Qed.
Lemma count_spec (p : nat -> R) (u : R) : (forall i, p i < p (S i)) -> forall n,
  (count_lt n p u <= n)%nat /\ (forall i, (i < count_lt n p u)%nat -> p i < u) /\ ((count_lt n p u < n)%nat -> u <= p (count_lt n p u)).
Proof.
  intros Hp. assert (Mono : forall i k, (i <= k)%nat -> p i <= p k). { intros i k H. induction H; [lra|]. specialize (Hp m). lra. }
  induction n as [|n (I1 & I2 & I3)]; cbn [count_lt]. { split; [lia|]. split; [intros; lia|lia]. }
  destruct (Rlt_dec (p n) u) as [L|L].
  - assert (E : count_lt n p u = n). { destruct (Nat.eq_dec (count_lt n p u) n) as [E|E]; [exact E|]. assert (count_lt n p u < n)%nat by lia. specialize (I3 H). pose proof (Mono (count_lt n p u) n ltac:(lia)). lra. }
    rewrite E. split; [lia|]. split; [|lia]. intros i Hi. destruct (Nat.eq_dec i n) as [->|]; [exact L|]. apply I2. lia.
  - rewrite Nat.add_0_r. split; [lia|]. split; [exact I2|]. intros _. destruct (Nat.eq_dec (count_lt n p u) n) as [E|E]; [rewrite E; lra|]. apply I3. lia.
Qed.
Lemma eta_cum_eq j : eta_cum ive gammaln c dt v0 vt j = rsum (S j) (bessel_pmf Gam nu zz).
Proof. unfold eta_cum. apply rsum_ext. intros. apply cumprod_eq. Qed.
Lemma draw_eta_spec u j : 0 < u ->
  draw_eta ive gammaln c dt v0 vt u = j <->
  ((j <= 16)%nat /\ rsum j (bessel_pmf Gam nu zz) < u /\ ((j < 16)%nat -> u <= rsum (S j) (bessel_pmf Gam nu zz))).
Proof.
  intros Hu. pose proof (nu_gt c Hxi Hmr Hth) as N. fold nu in N. pose proof (zz_pos c dt v0 vt Hxi Hmr Hdt Hv0 Hvt) as Z. fold zz in Z.
  assert (Inc : forall i, eta_cum ive gammaln c dt v0 vt i < eta_cum ive gammaln c dt v0 vt (S i)).
  { intros i. rewrite !eta_cum_eq. change (rsum (S (S i)) (bessel_pmf Gam nu zz)) with (rsum (S i) (bessel_pmf Gam nu zz) + bessel_pmf Gam nu zz (S i)).
    pose proof (bpmf_pos Gam HG nu zz (S i) N ltac:(lra)). lra. }
  assert (MonoS : forall i k, (i <= k)%nat -> rsum i (bessel_pmf Gam nu zz) <= rsum k (bessel_pmf Gam nu zz)).
  { intros i k H. induction H; [lra|]. cbn [rsum]. pose proof (bpmf_pos Gam HG nu zz m N ltac:(lra)). lra. }
  destruct (count_spec (eta_cum ive gammaln c dt v0 vt) u Inc 16) as (A & B & C). unfold draw_eta. set (k := count_lt 16 _ u) in *.
  assert (BB : rsum k (bessel_pmf Gam nu zz) < u). { destruct k as [|k']; [exact Hu|]. rewrite <- eta_cum_eq. apply B. lia. }
  assert (CC : (k < 16)%nat -> u <= rsum (S k) (bessel_pmf Gam nu zz)). { intros H. rewrite <- eta_cum_eq. now apply C. }
  split.
  - intros <-. auto.
  - intros (J1 & J2 & J3). destruct (lt_eq_lt_dec k j) as [[L|E]|L]; [|exact E|].
    + specialize (CC ltac:(lia)). pose proof (MonoS (S k) j ltac:(lia)). lra.
    + specialize (J3 ltac:(lia)). pose proof (MonoS (S j) k ltac:(lia)). lra.
Qed.
End Draw.
End P.
