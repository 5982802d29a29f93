(** Proofs about Bsm.impvol (model in M_Opt.v). *)
From Coq Require Import Reals Lra Psatz List ZArith.
From Coquelicot Require Import Coquelicot.
From Verif Require Import Base Gauss P_Black Spec_Opt M_Opt P_Bsm.
Import ListNotations.
Open Scope R_scope.

(** standardised OTM call with log-strike [lk] *)
Definition cstd (s lk : R) : R := black s 1 (exp lk) 1.

Lemma iv_kk_pos K F : 0 < K -> 0 < F -> 0 < iv_kk K F.
Proof.
  intros HK HF. unfold iv_kk. pose proof (Rdiv_lt_0_compat K F HK HF).
  destruct (Rlt_dec (K / F) 1); [now apply Rinv_0_lt_compat | assumption].
Qed.

Lemma iv_kk_ge1 K F : 0 < K -> 0 < F -> 1 <= iv_kk K F.
Proof.
  intros HK HF. unfold iv_kk. pose proof (Rdiv_lt_0_compat K F HK HF).
  destruct (Rlt_dec (K / F) 1) as [H1|H1]; [|lra].
  rewrite <- Rinv_1. apply Rinv_le_contravar; lra.
Qed.

(** time value = min(F,K) * standardised call *)
Lemma black_time_value s F K cp : is_cp cp -> 0 < s -> 0 < F -> 0 < K ->
  black s F K cp - Rmax (cp * (F - K)) 0 = Rmin F K * cstd s (ln (iv_kk K F)).
Proof.
  intros Hcp Hs HF HK. unfold cstd. rewrite exp_ln by now apply iv_kk_pos.
  pose proof (black_parity s F K) as Hp.
  unfold iv_kk. destruct (Rlt_dec (K / F) 1) as [H1|H1].
  - assert (HKF : K < F).
    { apply (Rmult_lt_compat_r F) in H1; [|lra]. unfold Rdiv in H1. rewrite Rmult_assoc, Rinv_l in H1; lra. }
    rewrite Rmin_right by lra.
    replace (/ (K / F)) with (F / K) by (field; lra).
    rewrite <- black_homog; try lra; try (apply Rdiv_lt_0_compat; lra).
    replace (K * 1) with K by ring. replace (K * (F / K)) with F by (field; lra).
    rewrite <- (black_sym s F K Hs HF HK).
    destruct Hcp as [->| ->].
    + rewrite Rmax_left by lra. lra.
    + rewrite Rmax_right by lra. lra.
  - assert (HKF : F <= K).
    { apply Rnot_lt_le in H1. apply (Rmult_le_compat_r F) in H1; [|lra]. unfold Rdiv in H1.
      rewrite Rmult_assoc, Rinv_l in H1; lra. }
    rewrite Rmin_left by lra.
    rewrite <- black_homog; try lra; try (apply Rdiv_lt_0_compat; lra).
    replace (F * 1) with F by ring. replace (F * (K / F)) with K by (field; lra).
    destruct Hcp as [->| ->].
    + rewrite Rmax_right by lra. lra.
    + rewrite Rmax_left by lra. lra.
Qed.

Lemma cstd_pos s lk : 0 < s -> 0 < cstd s lk.
Proof. intros. apply black_call_pos; try lra. apply exp_pos. Qed.

Lemma cstd_incr s1 s2 lk : 0 < s1 -> s1 < s2 -> cstd s1 lk < cstd s2 lk.
Proof. intros. apply black_incr_s; try lra; [now left | apply exp_pos]. Qed.

Lemma std_d0_eq s lk : 0 < s -> std_d0 s lk = - lk / s.
Proof.
  intros Hs. unfold std_d0. destruct (Req_EM_T (- lk) 0) as [E|E]; [|reflexivity].
  assert (lk = 0) by lra. subst. field. lra.
Qed.

Definition taylor_zone (s lk : R) : Prop := s / Rmax 1 (lk / s) < / 1000.

(** d1, d2 of the standardised problem *)
Lemma cstd_eq s lk : 0 < s ->
  cstd s lk = npdf (- lk / s + s / 2) *
    (Phi (- lk / s + s / 2) / npdf (- lk / s + s / 2) - Phi (- lk / s - s / 2) / npdf (- lk / s - s / 2)).
Proof.
  intros Hs. unfold cstd, black.
  pose proof (exp_pos lk) as Hk.
  pose proof (black_core s 1 (exp lk) Hs ltac:(lra) Hk) as Hc.
  replace (1 / exp lk) with (exp (- lk)) in * by (rewrite exp_Ropp; field; lra).
  rewrite ln_exp in *. rewrite !Rmult_1_l in *.
  set (d1 := - lk / s + s / 2) in *. set (d2 := - lk / s - s / 2) in *.
  pose proof (npdf_pos d1). pose proof (npdf_pos d2).
  replace (exp lk) with (npdf d1 / npdf d2) by (apply (Rmult_eq_reg_r (npdf d2)); [|lra];
     unfold Rdiv; rewrite Rmult_assoc, Rinv_l by lra; lra).
  field. lra.
Qed.

(** outside the Taylor zone, price_std type 1 is price / vega exactly *)
Lemma price_std_exact s lk : 0 < s -> ~ taylor_zone s lk ->
  price_std s lk 1 1 * npdf (- lk / s + s / 2) = cstd s lk.
Proof.
  intros Hs Ht. rewrite cstd_eq by exact Hs. unfold price_std. cbn [Z.eqb Pos.eqb].
  rewrite std_d0_eq by exact Hs.
  destruct (Rlt_dec 0 s) as [_|n]; [|lra].
  destruct (Rlt_dec (s / Rmax 1 (- (- lk / s))) (/ 1000)) as [H|_].
  { exfalso. apply Ht. unfold taylor_zone. replace (lk / s) with (- (- lk / s)) by (field; lra). exact H. }
  unfold mills.
  replace (- (- (1) * (- lk / s + / 2 * s))) with (- lk / s + s / 2) by (field; lra).
  replace (- (- (- lk / s) + / 2 * s)) with (- lk / s - s / 2) by (field; lra).
  replace (- (1) * (- lk / s + / 2 * s)) with (- (- lk / s + s / 2)) by (field; lra).
  replace (- (- lk / s) + / 2 * s) with (- (- lk / s - s / 2)) by (field; lra).
  rewrite !npdf_even. ring.
Qed.

Lemma ln_npdf d : ln (npdf d) = - / 2 * d ^ 2 - ln (2 * PI) / 2.
Proof.
  unfold npdf. pose proof PI_RGT_0 as HP. pose proof sqrt_2PI_pos as Hq.
  unfold Rdiv at 1. rewrite ln_mult; [| apply exp_pos | now apply Rinv_0_lt_compat].
  rewrite ln_exp, ln_Rinv by exact Hq.
  assert (E : ln (sqrt (2 * PI)) = ln (2 * PI) / 2).
  { rewrite <- (sqrt_sqrt (2 * PI)) at 2 by lra. rewrite ln_mult by exact Hq. field. }
  rewrite E. field.
Qed.

Lemma iv_err_exact s lk p : 0 < s -> 0 < p -> ~ taylor_zone s lk ->
  iv_err s lk p = ln (cstd s lk) - ln p.
Proof.
  intros Hs Hp Ht. unfold iv_err.
  assert (Ed : (if Req_EM_T lk 0 then 0 else - lk / s) = - lk / s).
  { destruct (Req_EM_T lk 0) as [->|]; [field; lra | reflexivity]. }
  rewrite Ed. replace (- lk / s + / 2 * s) with (- lk / s + s / 2) by (field; lra).
  rewrite <- (price_std_exact s lk Hs Ht).
  pose proof (npdf_pos (- lk / s + s / 2)) as Hn.
  assert (Hpv : 0 < price_std s lk 1 1).
  { apply (Rmult_lt_reg_r (npdf (- lk / s + s / 2))); [exact Hn|]. rewrite Rmult_0_l.
    rewrite price_std_exact by assumption. now apply cstd_pos. }
  rewrite (ln_mult (price_std s lk 1 1)) by assumption. rewrite ln_npdf. ring.
Qed.

Lemma price_std_pos s lk : 0 < s -> ~ taylor_zone s lk -> 0 < price_std s lk 1 1.
Proof.
  intros Hs Ht. pose proof (npdf_pos (- lk / s + s / 2)) as Hn.
  apply (Rmult_lt_reg_r (npdf (- lk / s + s / 2))); [exact Hn|]. rewrite Rmult_0_l.
  rewrite price_std_exact by assumption. now apply cstd_pos.
Qed.

(** fixed points of the Newton map are exactly the solutions *)
Lemma iv_fixed_point s lk p : 0 < s -> 0 < p -> ~ taylor_zone s lk ->
  (iv_step s lk p = s <-> cstd s lk = p).
Proof.
  intros Hs Hp Ht. unfold iv_step. rewrite iv_err_exact by assumption.
  pose proof (price_std_pos s lk Hs Ht) as Hpv. pose proof (cstd_pos s lk Hs) as Hc.
  split; intros H.
  - apply ln_inv; try assumption. nra.
  - rewrite H. ring.
Qed.

(** the update is the Newton step for the logarithm of the price *)
Lemma iv_newton_step s lk p : 0 < s -> 0 < p -> ~ taylor_zone s lk ->
  exists D, 0 < D /\ is_derive (fun y => ln (cstd y lk)) s D /\
            iv_step s lk p = s - (ln (cstd s lk) - ln p) / D.
Proof.
  intros Hs Hp Ht. pose proof (cstd_pos s lk Hs) as Hc.
  pose proof (npdf_pos (- lk / s + s / 2)) as Hn. pose proof (exp_pos lk) as Hk.
  exists (npdf (- lk / s + s / 2) / cstd s lk).
  split; [now apply Rdiv_lt_0_compat|]. split.
  - assert (Hd : is_derive (fun y => cstd y lk) s (npdf (- lk / s + s / 2))).
    { unfold cstd.
      pose proof (is_derive_black_s s 1 (exp lk) 1 (or_introl eq_refl) Hs ltac:(lra) Hk) as H.
      replace (1 / exp lk) with (exp (- lk)) in H by (rewrite exp_Ropp; field; lra).
      rewrite ln_exp, Rmult_1_l in H. exact H. }
    assert (Hl : is_derive ln (cstd s lk) (/ cstd s lk)) by (apply is_derive_Reals, derivable_pt_lim_ln, Hc).
    eapply is_derive_eq; [exact (is_derive_comp ln (fun y => cstd y lk) s _ _ Hl Hd)|]. reflexivity.
  - unfold iv_step. rewrite iv_err_exact by assumption.
    assert (E : price_std s lk 1 1 = cstd s lk / npdf (- lk / s + s / 2))
      by (rewrite <- (price_std_exact s lk Hs Ht); field; lra).
    rewrite E. set (n := npdf _) in *. set (c := cstd s lk) in *. clearbody n c. field. lra.
Qed.

(** ** The loop *)

Lemma iv_maxerr_in l s lk p : In (s, lk, p) l -> Rabs (iv_err s lk p) <= iv_maxerr l.
Proof.
  unfold iv_maxerr. induction l as [|[[s' lk'] p'] l IH]; simpl; [tauto|].
  intros [E|H].
  - injection E as -> -> ->. apply Rmax_l.
  - eapply Rle_trans; [apply IH, H | apply Rmax_r].
Qed.

(** Every output entry of a converged loop has log error below tolerance, and the
    (log-strike, target) data of the entries are those of the input, in order. *)
Lemma iv_loop_post n : forall l sig, iv_loop n l = (sig, true) ->
  exists l', sig = map (fun '(s, _, _) => s) l' /\
             map (fun '(_, lk, p) => (lk, p)) l' = map (fun '(_, lk, p) => (lk, p)) l /\
             (forall s lk p, In (s, lk, p) l' -> Rabs (iv_err s lk p) < IMPVOL_TOL).
Proof.
  induction n as [|n IH]; intros l sig H; [discriminate|]. simpl in H.
  destruct (Rlt_dec (iv_maxerr l) IMPVOL_TOL) as [Hlt|Hge].
  - injection H as <-. exists l. repeat split; auto.
    intros s lk p Hin. eapply Rle_lt_trans; [exact (iv_maxerr_in l s lk p Hin) | exact Hlt].
  - destruct (IH _ _ H) as (l' & E1 & E2 & E3). exists l'. repeat split; auto.
    rewrite E2, map_map. apply map_ext. now intros [[s lk] p].
Qed.

Lemma Rabs_ln_bound a b t : 0 < a -> 0 < b -> Rabs (ln a - ln b) < t ->
  Rabs (a - b) < b * (exp t - 1).
Proof.
  intros Ha Hb H. apply Rabs_def2 in H. destruct H as [H1 H2].
  assert (E : a = b * exp (ln a - ln b)).
  { rewrite exp_sub, !exp_ln by assumption. field. lra. }
  pose proof (exp_increasing _ _ H1) as G1. pose proof (exp_increasing _ _ H2) as G2.
  set (e := exp (ln a - ln b)) in *. rewrite E.
  pose proof (exp_pos t) as Ht. rewrite exp_Ropp in G2.
  assert (G3 : 2 - exp t <= / exp t).
  { apply (Rmult_le_reg_r (exp t)); [exact Ht|]. rewrite Rinv_l by lra. pose proof (Rle_0_sqr (exp t - 1)) as Q; unfold Rsqr in Q; lra. }
  apply Rabs_def1; nra.
Qed.

(** the price of the model with the returned volatility *)
Lemma impvol_price_err m P K S T cp s :
  is_cp cp -> 0 < K -> 0 < S -> 0 < T ->
  let F := mF m S T in let D := mD m T in
  let p := iv_p m P K S T cp in let lk := ln (iv_kk K F) in
  0 < p -> eps <= s -> ~ taylor_zone s lk -> Rabs (iv_err s lk p) < IMPVOL_TOL ->
  Rabs (bsm_price (set_sigma m (s / sqrt T)) K S T cp - P)
    < (P - D * payoff cp K F) * (exp IMPVOL_TOL - 1).
Proof.
  intros Hcp HK HS HT F D p lk Hp Hs Ht He.
  pose proof eps_pos as Hep. assert (Hs0 : 0 < s) by lra.
  assert (HF : 0 < F) by (apply mF_pos; exact HS). assert (HD : 0 < D) by apply mD_pos.
  rewrite iv_err_exact in He by assumption.
  pose proof (Rabs_ln_bound _ _ _ (cstd_pos s lk Hs0) Hp He) as Hb.
  rewrite bsm_price_eq. cbn [sigma set_sigma].
  change (mF (set_sigma m (s / sqrt T)) S T) with F. change (mD (set_sigma m (s / sqrt T)) T) with D.
  assert (HqT : 0 < sqrt T) by (apply sqrt_lt_R0; exact HT).
  assert (Es : sigma_std (s / sqrt T) T = s).
  { replace s with (s / sqrt T * sqrt T) at 2 by (field; lra). apply sigma_std_big.
    replace (s / sqrt T * sqrt T) with s by (field; lra). exact Hs. }
  rewrite Es.
  pose proof (black_time_value s F K cp Hcp Hs0 HF HK) as Htv. fold lk in Htv.
  assert (Hmin : 0 < Rmin F K) by (apply Rmin_glb_lt; assumption).
  assert (Epp : P = D * (Rmin F K * p + payoff cp K F)).
  { unfold p, iv_p. rewrite fdd_eq. fold F D. unfold payoff. field. lra. }
  assert (Eb : black s F K cp = Rmin F K * cstd s lk + payoff cp K F).
  { unfold payoff. lra. }
  rewrite Eb.
  replace (D * (Rmin F K * cstd s lk + payoff cp K F) - P) with (D * Rmin F K * (cstd s lk - p)) by (rewrite Epp; ring).
  replace (P - D * payoff cp K F) with (D * Rmin F K * p) by (rewrite Epp; ring).
  assert (HDM : 0 < D * Rmin F K) by (apply Rmult_lt_0_compat; assumption).
  rewrite Rabs_mult, (Rabs_pos_eq (D * Rmin F K)) by lra.
  rewrite (Rmult_assoc (D * Rmin F K)). now apply Rmult_lt_compat_l.
Qed.

(** ** d1sigma solves d1 = -logk/s + s/2 *)
Lemma d1sigma_correct d1 logk : 0 <= logk -> (0 < logk \/ 0 < d1) ->
  0 < d1sigma d1 logk /\ - logk / d1sigma d1 logk + d1sigma d1 logk / 2 = d1.
Proof.
  intros Hk Hor. unfold d1sigma.
  set (q := sqrt (d1 ^ 2 + 2 * logk)).
  assert (Hq2 : q * q = d1 ^ 2 + 2 * logk) by (unfold q; apply sqrt_sqrt; nra).
  assert (Hq : 0 <= q) by apply sqrt_pos.
  destruct (Rlt_dec d1 0) as [H|H].
  - rewrite Rabs_left by exact H.
    assert (Hs : 0 < q + - d1) by lra.
    destruct Hor as [Hl|Hl]; [|lra].
    split.
    + apply Rdiv_lt_0_compat; lra.
    + assert (E : 2 * logk / (q + - d1) = q + d1).
      { apply (Rmult_eq_reg_r (q + - d1)); [|lra]. unfold Rdiv. rewrite Rmult_assoc, Rinv_l by lra. nra. }
      rewrite E. assert (Hqd : 0 < q + d1).
      { rewrite <- E. apply Rdiv_lt_0_compat; lra. }
      apply (Rmult_eq_reg_r (q + d1)); [|lra].
      replace ((- logk / (q + d1) + (q + d1) / 2) * (q + d1)) with (- logk + (q + d1) * (q + d1) / 2) by (field; lra).
      nra.
  - rewrite Rabs_right by lra.
    assert (Hs : 0 < q + d1).
    { destruct Hor as [Hl|Hl]; [|lra]. assert (0 < q) by (unfold q; apply sqrt_lt_R0; nra). lra. }
    split; [exact Hs|].
    apply (Rmult_eq_reg_r (q + d1)); [|lra].
    replace ((- logk / (q + d1) + (q + d1) / 2) * (q + d1)) with (- logk + (q + d1) * (q + d1) / 2) by (field; lra).
    nra.
Qed.
