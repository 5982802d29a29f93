(** pdf_numeric / cdf_numeric: exact characterisation as the step goes to zero; barrier with
    forward quotes; BsmDisp.vega_numeric; impvol_brentq. *)
From Coq Require Import Reals Lra Psatz List Lia.
From Coquelicot Require Import Coquelicot.
From Verif Require Import Base Gauss P_Black Spec_Opt M_Opt M_Numeric P_Bsm P_Norm P_Numeric P_OptRefute.
Import ListNotations.
Open Scope R_scope.

(** ** difference quotients, epsilon/delta *)
Definition tends0 (f : R -> R) (l : R) : Prop :=
  forall e, 0 < e -> exists d, 0 < d /\ forall h, h <> 0 -> Rabs h < d -> Rabs (f h - l) < e.

Lemma derive_eps (f : R -> R) (x l : R) : is_derive f x l ->
  forall e, 0 < e -> exists d, 0 < d /\ forall h, h <> 0 -> Rabs h < d -> Rabs ((f (x + h) - f x) / h - l) < e.
Proof.
  intros H e He. apply is_derive_Reals in H. destruct (H e He) as [d Hd].
  exists d. split; [apply cond_pos|]. intros h Hh Hd'. now apply Hd.
Qed.

Lemma central1 (f : R -> R) (x l : R) : is_derive f x l ->
  tends0 (fun h => (f (x + h) - f (x - h)) / (2 * h)) l.
Proof.
  intros H e He. destruct (derive_eps f x l H e He) as (d & Hd & Hf).
  exists d. split; [exact Hd|]. intros h Hh Hhd.
  pose proof (Hf h Hh Hhd) as H1.
  pose proof (Hf (- h) ltac:(lra) ltac:(rewrite Rabs_Ropp; exact Hhd)) as H2.
  apply Rabs_def2 in H1. apply Rabs_def2 in H2.
  assert (E : (f (x + h) - f (x - h)) / (2 * h) - l
              = (((f (x + h) - f x) / h - l) + ((f (x + - h) - f x) / - h - l)) / 2).
  { replace (x + - h) with (x - h) by ring. field. exact Hh. }
  rewrite E. apply Rabs_def1; lra.
Qed.

Lemma central2 (f f1 : R -> R) (x l r : R) : 0 < r ->
  (forall y, x - r < y < x + r -> is_derive f y (f1 y)) -> is_derive f1 x l ->
  tends0 (fun h => (f (x + h) + f (x - h) - 2 * f x) / (h * h)) l.
Proof.
  intros Hr Hf H1 e He. destruct (central1 f1 x l H1 e He) as (d & Hd & Hc).
  assert (P : forall h, 0 < h -> h < Rmin d r ->
    Rabs ((f (x + h) + f (x - h) - 2 * f x) / (h * h) - l) < e).
  { intros h Hh Hm. pose proof (Rmin_l d r). pose proof (Rmin_r d r).
    set (phi := fun t => f (x + t) + f (x - t) - 2 * f x).
    set (c := phi h / (h * h)).
    assert (Hphi : forall t, 0 <= t <= h -> is_derive (fun t => phi t - c * (t * t)) t ((f1 (x + t) - f1 (x - t)) - c * (2 * t))).
    { intros t Ht. unfold phi.
      pose proof (Hf (x + t) ltac:(lra)) as Ha. pose proof (Hf (x - t) ltac:(lra)) as Hb.
      assert (Ha' : is_derive (fun t => f (x + t)) t (f1 (x + t))).
      { eapply is_derive_eq. { apply (is_derive_comp_R f (fun t => x + t) t (f1 (x + t)) 1); [exact Ha|]. auto_derive; [trivial|Req; ring]. } ring. }
      assert (Hb' : is_derive (fun t => f (x - t)) t (- f1 (x - t))).
      { eapply is_derive_eq. { apply (is_derive_comp_R f (fun t => x - t) t (f1 (x - t)) (-1)); [exact Hb|]. auto_derive; [trivial|Req; ring]. } ring. }
      eapply is_derive_eq.
      { apply is_derive_minus_R.
        - apply is_derive_minus_R; [apply is_derive_plus_R; [exact Ha'|exact Hb']|apply is_derive_const_R].
        - apply is_derive_scal_R. apply (is_derive_mult_R (fun t => t) (fun t => t) t 1 1); apply is_derive_id_R. }
      ring. }
    assert (Hex : exists t, 0 < t < h /\ (f1 (x + t) - f1 (x - t)) - c * (2 * t) = 0).
    { assert (pr : forall t, 0 < t < h -> derivable_pt (fun t => phi t - c * (t * t)) t).
      { intros t Ht. exists ((f1 (x + t) - f1 (x - t)) - c * (2 * t)). apply is_derive_Reals. apply (Hphi t). lra. }
      destruct (Rolle (fun t => phi t - c * (t * t)) 0 h pr) as (t & Ht & Ht0).
      - intros t Ht. apply continuity_pt_filterlim. apply (ex_derive_continuous_R (fun t => phi t - c * (t * t)) t).
        exists ((f1 (x + t) - f1 (x - t)) - c * (2 * t)). apply (Hphi t). lra.
      - exact Hh.
      - replace (phi 0) with 0 by (unfold phi; rewrite Rplus_0_r, Rminus_0_r; ring). unfold c. field. lra.
      - exists t. split; [exact Ht|].
        rewrite <- Ht0. symmetry.
        pose proof (Hphi t ltac:(lra)) as Hd'. apply is_derive_Reals in Hd'.
        apply (derive_pt_eq_0 _ _ _ _ Hd'). }
    destruct Hex as (t & Ht & Ht0).
    assert (Ec : c = (f1 (x + t) - f1 (x - t)) / (2 * t)) by (apply (Rmult_eq_reg_r (2 * t)); [|lra]; transitivity (f1 (x + t) - f1 (x - t)); [lra|field; lra]).
    change ((f (x + h) + f (x - h) - 2 * f x) / (h * h)) with c. rewrite Ec.
    apply Hc; [lra|]. rewrite Rabs_right; lra. }
  exists (Rmin d r). split; [apply Rmin_glb_lt; lra|].
  intros h Hh Hhm. destruct (Rlt_dec 0 h) as [Hp|Hn].
  - apply P; [exact Hp|]. rewrite Rabs_right in Hhm; lra.
  - assert (Hp : 0 < - h) by lra. rewrite Rabs_left in Hhm by lra.
    specialize (P (- h) Hp Hhm). replace (x + - h) with (x - h) in P by ring. replace (x - - h) with (x + h) in P by ring.
    replace (- h * - h) with (h * h) in P by ring. replace (f (x + h) + f (x - h)) with (f (x - h) + f (x + h)) by ring. exact P.
Qed.

Lemma tends0_unique f a b : tends0 f a -> tends0 f b -> a = b.
Proof.
  intros Ha Hb. destruct (Req_dec a b) as [E|N]; [exact E|exfalso].
  assert (He : 0 < Rabs (a - b) / 2) by (pose proof (Rabs_pos_lt (a - b) ltac:(lra)); lra).
  destruct (Ha _ He) as (d1 & Hd1 & H1). destruct (Hb _ He) as (d2 & Hd2 & H2).
  set (h := Rmin d1 d2 / 2).
  assert (0 < Rmin d1 d2) by (apply Rmin_glb_lt; lra).
  pose proof (Rmin_l d1 d2). pose proof (Rmin_r d1 d2).
  assert (Hh : h <> 0) by (unfold h; lra). assert (Rabs h = h) by (apply Rabs_right; unfold h; lra).
  specialize (H1 h Hh ltac:(unfold h in *; lra)). specialize (H2 h Hh ltac:(unfold h in *; lra)).
  assert (Rabs (a - b) <= Rabs (f h - a) + Rabs (f h - b)).
  { replace (a - b) with (- (f h - a) + (f h - b)) by ring. rewrite <- (Rabs_Ropp (f h - a)). apply Rabs_triang. }
  lra.
Qed.

(** ** the density of the terminal price in the Black-Scholes-Merton model:
    minus the strike derivative of the probability of finishing above the strike *)
Definition bsm_density (m : opt) (K S T : R) : R :=
  npdf (bsm_d2 m K (mF m S T) T) / (K * sigma_std (sigma m) T).

Lemma bsm_cdf_eq m K S T cp : bsm_cdf m K S T cp = Phi (cp * bsm_d2 m K (mF m S T) T).
Proof. unfold bsm_cdf. rewrite fdd_eq. reflexivity. Qed.

Lemma bsm_cdf_derive m K S T cp : call_or_put cp -> 0 < K -> 0 < S ->
  is_derive (fun k => bsm_cdf m k S T cp) K (- cp * bsm_density m K S T).
Proof.
  intros Hcp HK HS. pose proof (mF_pos m S T HS) as HF. pose proof (sigma_std_pos (sigma m) T) as Hs.
  apply (is_derive_ext (fun k => Phi (cp * (ln (mF m S T / k) / sigma_std (sigma m) T - sigma_std (sigma m) T / 2)))).
  { intros k. now rewrite bsm_cdf_eq, bsm_d2_eq. }
  eapply is_derive_eq.
  { apply (is_derive_Phi_comp (fun k => cp * (ln (mF m S T / k) / sigma_std (sigma m) T - sigma_std (sigma m) T / 2)) K
      (cp * (- / K / sigma_std (sigma m) T))).
    auto_derive; [repeat split; [lra|apply Rdiv_lt_0_compat; lra]|]. Req. field. repeat split; lra. }
  unfold bsm_density. rewrite bsm_d2_eq, npdf_cp by exact Hcp. field. lra.
Qed.

Lemma bsm_price_K2 m K S T cp : call_or_put cp -> 0 < K -> 0 < S ->
  is_derive (fun k => - cp * mD m T * bsm_cdf m k S T cp) K (mD m T * bsm_density m K S T).
Proof.
  intros Hcp HK HS. eapply is_derive_eq.
  { apply (is_derive_scal_R (fun k => bsm_cdf m k S T cp) (- cp * mD m T)). apply bsm_cdf_derive; assumption. }
  replace (- cp * mD m T * (- cp * bsm_density m K S T)) with (cp * cp * (mD m T * bsm_density m K S T)) by ring.
  rewrite (cp_sq cp Hcp). ring.
Qed.

(** what pdf_numeric computes: the discounted density of (S_T with unit spot) at K/F *)
Lemma pdf_numeric_limit m K S T cp : call_or_put cp -> 0 < K -> 0 < S ->
  tends0 (fun h => pdf_numeric bsm_price m K S T cp h)
         (DF (intr m) T * bsm_density m (K / FWD (intr m) (divr m) (is_fwd m) S T) 1 T).
Proof.
  intros Hcp HK HS. pose proof (mF_pos m S T HS) as HF. fold (mF m S T). fold (mD m T).
  assert (Hk : 0 < K / mF m S T) by (apply Rdiv_lt_0_compat; lra).
  unfold pdf_numeric. rewrite forward_eq.
  apply (central2 (fun k => bsm_price m k 1 T cp) (fun k => - cp * mD m T * bsm_cdf m k 1 T cp) _ _ (K / mF m S T) Hk).
  - intros y Hy. apply bsm_cdf_strike_derive; [exact Hcp| lra | lra].
  - apply bsm_price_K2; [exact Hcp|exact Hk|lra].
Qed.

Lemma density_scale m K S T : is_fwd m = true -> 0 < K -> 0 < S ->
  bsm_density m (K / S) 1 T = S * bsm_density m K S T.
Proof.
  intros Hf HK HS. unfold bsm_density. rewrite !bsm_d2_eq. unfold mF, FWD. rewrite Hf.
  replace (1 / (K / S)) with (S / K) by (field; lra).
  pose proof (sigma_std_pos (sigma m) T). field. lra.
Qed.

Lemma density_pos m K S T : 0 < K -> 0 < bsm_density m K S T.
Proof.
  intros HK. unfold bsm_density. apply Rdiv_lt_0_compat; [apply npdf_pos|].
  apply Rmult_lt_0_compat; [exact HK|apply sigma_std_pos].
Qed.

Lemma pdf_numeric_refuted : exists m K S T,
  is_fwd m = true /\ intr m = 0 /\ 0 < K /\ 0 < S /\ 0 < sigma m /\ 0 < T /\
  ~ tends0 (fun h => pdf_numeric bsm_price m K S T (-1) h) (bsm_density m K S T).
Proof.
  exists (m0 1), 2, 2, 1. repeat split; simpl; try lra.
  intros H. pose proof (pdf_numeric_limit (m0 1) 2 2 1 (-1) ltac:(now right) ltac:(lra) ltac:(lra)) as H'.
  apply (tends0_unique _ _ _ H') in H. fold (mD (m0 1) 1) in H. rewrite mD_m0 in H.
  change (FWD (intr (m0 1)) (divr (m0 1)) (is_fwd (m0 1)) 2 1) with 2 in H.
  rewrite density_scale in H by (try reflexivity; lra).
  pose proof (density_pos (m0 1) 2 2 1 ltac:(lra)). lra.
Qed.

(** cdf_numeric: discounted probability for the model whose spot is the forward *)
Lemma cdf_numeric_limit m K S T cp : call_or_put cp -> 0 < K -> 0 < S ->
  tends0 (fun h => cdf_numeric bsm_price m K S T cp h)
         (DF (intr m) T * bsm_cdf m K (FWD (intr m) (divr m) (is_fwd m) S T) T cp).
Proof.
  intros Hcp HK HS. pose proof (mF_pos m S T HS) as HF. fold (mF m S T). fold (mD m T).
  pose proof (bsm_cdf_strike_derive m K (mF m S T) T cp Hcp HK HF) as Hd.
  pose proof (central1 _ _ _ Hd) as Hc. intros e He. destruct (Hc e He) as (d & Hd0 & H).
  exists d. split; [exact Hd0|]. intros h Hh Hhd. specialize (H h Hh Hhd). cbv beta in H.
  unfold cdf_numeric. rewrite forward_eq. fold (mD m T) in H.
  set (A := bsm_price m (K + h) (mF m S T) T cp) in *. set (B := bsm_price m (K - h) (mF m S T) T cp) in *.
  set (C := bsm_cdf m K (mF m S T) T cp) in *.
  destruct Hcp as [->| ->].
  - destruct (Rlt_dec 0 1); [|lra].
    replace (1 * (B - A) / (2 * h) - mD m T * C) with (- ((A - B) / (2 * h) - -(1) * mD m T * C)) by (field; exact Hh).
    rewrite Rabs_Ropp. exact H.
  - destruct (Rlt_dec 0 (-1)); [lra|].
    replace (-1 * (B - A) / (2 * h) - mD m T * C) with ((A - B) / (2 * h) - - -1 * mD m T * C) by (field; exact Hh).
    exact H.
Qed.

(** for every step, call and put values add up to the discount factor, not to 1 *)
Lemma cdf_numeric_sum m K S T h : h <> 0 ->
  cdf_numeric bsm_price m K S T 1 h + cdf_numeric bsm_price m K S T (-1) h = DF (intr m) T.
Proof.
  intros Hh. unfold cdf_numeric. destruct (Rlt_dec 0 1); [|lra]. destruct (Rlt_dec 0 (-1)); [lra|].
  pose proof (bsm_parity m (K - h) (forward m S T) T) as H1.
  pose proof (bsm_parity m (K + h) (forward m S T) T) as H2.
  set (A := bsm_price m (K - h) (forward m S T) T 1) in *. set (B := bsm_price m (K + h) (forward m S T) T 1) in *.
  set (C := bsm_price m (K - h) (forward m S T) T (-1)) in *. set (D := bsm_price m (K + h) (forward m S T) T (-1)) in *.
  replace (1 * (A - B) / (2 * h) + -1 * (C - D) / (2 * h)) with (((A - C) - (B - D)) / (2 * h)) by (field; exact Hh).
  rewrite H1, H2. field. exact Hh.
Qed.

Lemma cdf_numeric_refuted : exists m K S T, 0 < K /\ 0 < S /\ 0 < sigma m /\ 0 < T /\
  forall h, h <> 0 ->
  cdf_numeric bsm_price m K S T 1 h + cdf_numeric bsm_price m K S T (-1) h <> 1.
Proof.
  exists m_drift, 1, 1, 1. split; [lra|]. split; [lra|]. split; [simpl; lra|]. split; [lra|]. intros h Hh. rewrite cdf_numeric_sum by exact Hh.
  unfold DF; simpl. intros E. assert (E' : exp (- (1 * 1)) = exp 0) by (rewrite E, exp_0; reflexivity). apply exp_inv in E'. lra.
Qed.

(** positive form: zero rates, forward quote *)
Lemma cdf_numeric_ok m K S T cp : call_or_put cp -> 0 < K -> 0 < S -> is_fwd m = true -> intr m = 0 ->
  tends0 (fun h => cdf_numeric bsm_price m K S T cp h) (bsm_cdf m K S T cp).
Proof.
  intros Hcp HK HS Hf Hr. pose proof (cdf_numeric_limit m K S T cp Hcp HK HS) as H.
  unfold FWD in H. rewrite Hf in H. unfold DF in H. rewrite Hr, Rmult_0_l, Ropp_0, exp_0, Rmult_1_l in H. exact H.
Qed.

(** ** barrier options quoted on a forward *)
Lemma barrier_fwd_refuted : exists m1 m2 K B S T,
  is_fwd m1 = true /\ is_fwd m2 = true /\ sigma m1 = sigma m2 /\ intr m1 = intr m2 /\
  0 < sigma m1 /\ 0 < K /\ 0 < B < S /\ 0 < T /\
  bsm_price m1 K S T 1 = bsm_price m2 K S T 1 /\
  bsm_price_barrier m1 K B S T 1 1 <> bsm_price_barrier m2 K B S T 1 1.
Proof.
  exists (mkOpt 1 0 0 true), (mkOpt 1 0 1 true), 1, 1, 2, 1.
  repeat match goal with |- _ /\ _ => split end; try reflexivity; try (simpl; lra).
  unfold bsm_price_barrier, price_barrier, bsm_barrier_params. cbn [intr divr sigma].
  destruct (Rlt_dec 1 2); [|lra]. destruct (Rlt_dec 0 (1 * 1)); [|lra]. destruct (Rlt_dec 0 1); [|lra].
  rewrite !bsm_suboptimal_vanilla.
  assert (E : bsm_price {| sigma := 1; intr := 0; divr := 1; is_fwd := true |} 1 (1 ^ 2 / 2) 1 (1 * 1 * 1)
            = bsm_price {| sigma := 1; intr := 0; divr := 0; is_fwd := true |} 1 (1 ^ 2 / 2) 1 (1 * 1 * 1)) by reflexivity.
  rewrite E. replace (1 * 1 * 1) with 1 by ring.
  pose proof (bsm_bounds {| sigma := 1; intr := 0; divr := 0; is_fwd := true |} 1 (1 ^ 2 / 2) 1 1 ltac:(now left) ltac:(lra) ltac:(lra)) as [Hp _].
  set (P := bsm_price {| sigma := 1; intr := 0; divr := 0; is_fwd := true |} 1 (1 ^ 2 / 2) 1 1) in *.
  assert (HP : 0 < P).
  { eapply Rle_lt_trans; [|exact Hp]. apply Rmult_le_pos; [left; apply exp_pos|]. apply Rmax_r. }
  intros H. assert (H' : Rpower (1 / 2) (2 * (0 - 0) / 1 ^ 2 - 1) = Rpower (1 / 2) (2 * (0 - 1) / 1 ^ 2 - 1)) by nra.
  unfold Rpower in H'. apply exp_inv in H'.
  assert (ln (1 / 2) < 0). { rewrite <- ln_1. apply ln_increasing; lra. }
  nra.
Qed.

(** ** BsmDisp.vega_numeric *)
Lemma black_atm s F : 0 < F -> black s F F 1 = F * (2 * Phi (s / 2) - 1).
Proof.
  intros HF. unfold black. replace (F / F) with 1 by (field; lra). rewrite ln_1.
  replace (1 * (0 / s + s / 2)) with (s / 2) by (unfold Rdiv; ring).
  replace (1 * (0 / s - s / 2)) with (- (s / 2)) by (unfold Rdiv; ring).
  rewrite Phi_opp. ring.
Qed.

Lemma disp_atm (s : R) : eps <= s / 2 ->
  disp_price (disp_set dm s) 1 1 1 1 = 2 * Phi (s / 4) - 1.
Proof.
  intros He. unfold disp_price. rewrite bsm_price_eq.
  assert (E1 : disp_spot (disp_set dm s) 1 = 1 / 2) by (unfold disp_spot; simpl; field).
  assert (E2 : disp_strike (disp_set dm s) 1 1 = 1 / 2) by (unfold disp_strike, forward; simpl; field).
  rewrite E1, E2.
  change (mF (disp_base (disp_set dm s)) (1 / 2) 1) with (1 / 2).
  replace (mD (disp_base (disp_set dm s)) 1) with 1
    by (unfold mD, DF; simpl; replace (- (0 * 1)) with 0 by ring; now rewrite exp_0).
  rewrite sigma_std_big; simpl; rewrite sqrt_1; [|lra].
  rewrite black_atm by lra. replace (s * / 2 * 1 / 2) with (s / 4) by field. field.
Qed.

Lemma npdf_decr x y : 0 <= x -> x <= y -> npdf y <= npdf x.
Proof.
  intros Hx Hxy. unfold npdf. apply Rmult_le_compat_r; [left; apply Rinv_0_lt_compat, sqrt_2PI_pos|].
  apply exp_le. nra.
Qed.

Lemma disp_vega_numeric_refuted : exists m K S T,
  0 < d_beta m < 1 /\ d_isf m = true /\ d_intr m = 0 /\ 0 < d_sigma m /\ 0 < T /\
  0 < disp_strike m K T /\ 0 < disp_spot m S /\ 0 < disp_vega m K S T 1 /\
  fst (vega_numeric disp_price disp_get disp_set m [m] 0 K S T 1) > 50 * disp_vega m K S T 1.
Proof.
  exists dm, 1, 1, 1. pose proof eps_small as Hes.
  assert (Esp : forall x, disp_spot dm x = x / 2) by (intros; unfold disp_spot; simpl; field).
  assert (Est : forall k t, disp_strike dm k t = k / 2) by (intros; unfold disp_strike, forward; simpl; field).
  rewrite Esp, Est. repeat split; try (simpl; lra).
  all: assert (Ev : disp_vega dm 1 1 1 1 = npdf (/ 4) / 2).
  1, 3: unfold disp_vega, bsm_vega; rewrite Esp, Est, fdd_eq, bsm_d1_eq;
    change (mF (disp_base dm) (1 / 2) 1) with (1 / 2);
    replace (mD (disp_base dm) 1) with 1
      by (unfold mD, DF; simpl; replace (- (0 * 1)) with 0 by ring; now rewrite exp_0);
    rewrite sigma_std_big by (simpl; rewrite sqrt_1; lra); simpl; rewrite sqrt_1;
    replace (1 / 2 / (1 / 2)) with 1 by field; rewrite ln_1;
    replace (0 / (1 * / 2 * 1) + 1 * / 2 * 1 / 2) with (/ 4) by field; field.
  { rewrite Ev. pose proof (npdf_pos (/ 4)). lra. }
  rewrite Ev.
  assert (Ef : fst (vega_numeric disp_price disp_get disp_set dm [dm] 0 1 1 1 1)
    = (disp_price (disp_set dm (501 / 1000)) 1 1 1 1 - disp_price (disp_set dm (2485 / 10000)) 1 1 1 1) / (2 * / 1000)).
  { unfold vega_numeric, vega_shock, disp_get. simpl. unfold disp_set. simpl.
    replace (1 * / 2 + / 1000) with (501 / 1000) by field.
    replace (501 / 1000 * / 2 - 2 * / 1000) with (2485 / 10000) by field. reflexivity. }
  rewrite Ef, !disp_atm by lra.
  destruct (MVT_R Phi npdf (2485 / 10000 / 4) (501 / 1000 / 4)) as (c & Hc & Ec).
  { lra. } { intros; apply is_derive_Phi. }
  replace (2 * Phi (501 / 1000 / 4) - 1 - (2 * Phi (2485 / 10000 / 4) - 1))
    with (2 * (Phi (501 / 1000 / 4) - Phi (2485 / 10000 / 4))) by ring.
  rewrite Ec. pose proof (npdf_decr c (/ 4) ltac:(lra) ltac:(lra)). pose proof (npdf_pos (/ 4)). lra.
Qed.

(** ** impvol_brentq *)
Definition bsm_fd (m : opt) (S T : R) : R * R := (forward m S T, exp (- intr m * T)).

(** zero rate, forward quote: any root the solver reports is the true volatility *)
Lemma brentq_root_ok m K S T cp s : call_or_put cp -> 0 < K -> 0 < S -> is_fwd m = true -> intr m = 0 ->
  eps <= sigma m * sqrt T -> eps <= s * sqrt T ->
  bsm_price (set_sigma m s) (K / S) 1 T cp - bsm_price m K S T cp / exp (- intr m * T) / forward m S T = 0 ->
  s = sigma m.
Proof.
  intros Hcp HK HS Hf Hr He1 He2 H. pose proof eps_pos as Hep.
  rewrite !bsm_price_eq in H. rewrite Hr in H. replace (- 0 * T) with 0 in H by ring. rewrite exp_0 in H.
  unfold mD, DF in H. cbn [set_sigma intr sigma] in H. rewrite Hr in H.
  rewrite Rmult_0_l, Ropp_0, exp_0 in H.
  rewrite !sigma_std_big in H by assumption.
  unfold mF, FWD in H. cbn [set_sigma is_fwd intr divr] in H. unfold forward in H. rewrite Hf in H.
  assert (Hh : black (sigma m * sqrt T) S K cp = S * black (sigma m * sqrt T) 1 (K / S) cp).
  { rewrite <- black_homog; try lra; [|apply Rdiv_lt_0_compat; lra]. f_equal; field; lra. }
  rewrite Hh in H.
  assert (E : black (s * sqrt T) 1 (K / S) cp = black (sigma m * sqrt T) 1 (K / S) cp).
  { replace (1 * (S * black (sigma m * sqrt T) 1 (K / S) cp) / 1 / S) with (black (sigma m * sqrt T) 1 (K / S) cp) in H by (field; lra). lra. }
  apply black_inj_s in E; try lra; try assumption; [|apply Rdiv_lt_0_compat; lra].
  assert (0 < sqrt T). { destruct (sqrt_pos T) as [|Hz]; [assumption|]. rewrite <- Hz, Rmult_0_r in He1. lra. }
  nra.
Qed.

(** nonzero rate: the true volatility is never a root *)
Lemma brentq_true_not_root m K S T cp : call_or_put cp -> 0 < K -> 0 < S -> is_fwd m = true -> intr m * T <> 0 ->
  eps <= sigma m * sqrt T ->
  bsm_price (set_sigma m (sigma m)) (K / S) 1 T cp - bsm_price m K S T cp / exp (- intr m * T) / forward m S T <> 0.
Proof.
  intros Hcp HK HS Hf Hr He1 H. pose proof eps_pos as Hep.
  rewrite !bsm_price_eq in H. cbn [set_sigma sigma] in H.
  change (mD (set_sigma m (sigma m)) T) with (mD m T) in H.
  replace (exp (- intr m * T)) with (mD m T) in H by (unfold mD, DF; f_equal; ring).
  rewrite !sigma_std_big in H by assumption.
  unfold mF, FWD in H. cbn [set_sigma is_fwd intr divr] in H. unfold forward in H. rewrite Hf in H.
  assert (HKS : 0 < K / S) by (apply Rdiv_lt_0_compat; lra).
  assert (Hh : black (sigma m * sqrt T) S K cp = S * black (sigma m * sqrt T) 1 (K / S) cp).
  { rewrite <- black_homog; try lra. f_equal; field; lra. }
  rewrite Hh in H. pose proof (mD_pos m T) as HD.
  pose proof (black_pos (sigma m * sqrt T) 1 (K / S) cp Hcp ltac:(lra) ltac:(lra) HKS) as Hb.
  set (b := black (sigma m * sqrt T) 1 (K / S) cp) in *.
  assert (E : mD m T * b = b). { replace (mD m T * (S * b) / mD m T / S) with b in H by (field; lra). lra. }
  assert (mD m T = 1) by nra. unfold mD, DF in H0. assert (E' : exp (- (intr m * T)) = exp 0) by (rewrite H0, exp_0; reflexivity). apply exp_inv in E'. lra.
Qed.

(** The routine run end to end on a price it produced itself, with any root finder that
    returns a genuine root of the function it is given. *)
Definition sound_root (brentq : (R -> R) -> R -> R -> option R) : Prop :=
  forall f a b s, brentq f a b = Some s -> f s = 0 /\ a <= s <= b.

Lemma impvol_brentq_refuted : forall brentq, sound_root brentq ->
  exists m K S T, 0 < sigma m <= 10 /\ is_fwd m = true /\ 0 < K /\ 0 < S /\ 0 < T /\
  forall r h', impvol_brentq bsm_price set_sigma m bsm_fd brentq [m] 0 (bsm_price m K S T 1) K S T 1 false
    <> (Some (Some r), h') \/ r <> sigma m.
Proof.
  intros bq Hbq. exists (mkOpt 1 1 0 true), 1, 1, 1. pose proof eps_small as Hes.
  repeat split; simpl; try lra. intros r h'.
  destruct (Req_dec r 1) as [->|N]; [left|right; exact N].
  set (m := {| sigma := 1; intr := 1; divr := 0; is_fwd := true |}).
  unfold impvol_brentq, bsm_fd, copy, deref, assign. cbn [nth app length update set_sigma deref].
  pose proof (brentq_true_not_root m 1 1 1 1 ltac:(now left) ltac:(lra) ltac:(lra) eq_refl ltac:(simpl; lra)
     ltac:(rewrite sqrt_1; simpl; lra)) as Hn.
  change (forward m 1 1) with 1 in *. 
  intros H.
  repeat match type of H with context [Rlt_dec ?a ?b] => destruct (Rlt_dec a b) end;
    try discriminate H.
  - injection H as H _. lra.
  - injection H as H _. unfold IV_MAXVOL in H. lra.
  - match type of H with context [bq ?f 0 10] => destruct (bq f 0 10) eqn:Eb end; [|discriminate H].
    injection H as H _. subst. apply Hbq in Eb. destruct Eb as [Eb _]. apply Hn. exact Eb.
Qed.
