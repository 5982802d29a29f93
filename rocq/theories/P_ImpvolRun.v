(** The whole of Bsm.impvol on an array of quotes: what a converged run guarantees. *)
From Coq Require Import Reals Lra Psatz List Lia.
From Coquelicot Require Import Coquelicot.
From Verif Require Import Base Gauss P_Black Spec_Opt M_Opt P_Bsm P_Impvol.
Import ListNotations.
Open Scope R_scope.

Lemma nth_error_map_inv {A B} (f : A -> B) l i y : nth_error (map f l) i = Some y ->
  exists x, nth_error l i = Some x /\ y = f x.
Proof. rewrite nth_error_map. destruct (nth_error l i); simpl; intros H; inversion H. eauto. Qed.

Lemma iv_kk_abs K F : 0 < K -> 0 < F -> ln (iv_kk K F) = Rabs (ln (F / K)).
Proof.
  intros HK HF. unfold iv_kk. rewrite ln_div by lra. destruct (Rlt_dec (K / F) 1) as [H|H].
  - assert (K < F). { apply (Rmult_lt_compat_r F) in H; [|lra]. replace (K / F * F) with K in H by (field; lra). lra. }
    rewrite ln_Rinv by (apply Rdiv_lt_0_compat; lra). rewrite ln_div by lra.
    assert (ln K < ln F) by (apply ln_increasing; lra). rewrite Rabs_right; lra.
  - assert (F <= K). { apply Rnot_lt_le in H. apply (Rmult_le_compat_r F) in H; [|lra]. replace (K / F * F) with K in H by (field; lra). lra. }
    rewrite ln_div by lra. assert (ln F <= ln K) by (apply ln_le_R; lra). rewrite Rabs_left1; lra.
Qed.

Lemma iv_p_pos m P K S T cp : 0 < K -> 0 < S -> mD m T * payoff cp K (mF m S T) < P -> 0 < iv_p m P K S T cp.
Proof.
  intros HK HS H. unfold iv_p. rewrite fdd_eq. pose proof (mD_pos m T). pose proof (mF_pos m S T HS).
  apply Rdiv_lt_0_compat; [|apply Rmin_glb_lt; lra].
  unfold payoff in H. set (I := Rmax _ 0) in *.
  assert (E : P / mD m T - I = (P - mD m T * I) / mD m T) by (field; lra).
  rewrite E. apply Rdiv_lt_0_compat; lra.
Qed.

Lemma impvol_run ppf m quotes S T setval n vols models : 0 < S -> 0 < T ->
  bsm_impvol ppf m quotes S T setval n = Some (vols, true, models) ->
  length vols = length quotes /\
  models = (if setval then map (set_sigma m) vols else map (fun _ => m) vols) /\
  forall i P K cp v, nth_error quotes i = Some (P, K, cp) -> nth_error vols i = Some v ->
    call_or_put cp -> 0 < K -> DF (intr m) T * payoff cp K (FWD (intr m) (divr m) (is_fwd m) S T) < P ->
    eps <= v * sqrt T -> ~ taylor_zone (v * sqrt T) (Rabs (ln (FWD (intr m) (divr m) (is_fwd m) S T / K))) ->
    Rabs (bsm_price (set_sigma m v) K S T cp - P)
      < (P - DF (intr m) T * payoff cp K (FWD (intr m) (divr m) (is_fwd m) S T)) * (exp IMPVOL_TOL - 1).
Proof.
  intros HS HT H. unfold bsm_impvol in H. destruct n as [|n]; [discriminate|].
  rewrite fdd_eq in H.
  match type of H with context [iv_loop ?k ?l] => destruct (iv_loop k l) as [sig ok] eqn:El end.
  injection H as H1 H2 H3. subst ok vols models.
  destruct (iv_loop_post _ _ _ El) as (l' & Hs & Hl & Herr).
  assert (HsT : 0 < sqrt T) by (apply sqrt_lt_R0; lra).
  assert (Hlen : length l' = length quotes).
  { apply (f_equal (@length _)) in Hl. now rewrite !map_length in Hl. }
  split; [|split; [reflexivity|]].
  { now rewrite map_length, Hs, map_length. }
  intros i P K cp v Hq Hv Hcp HK HP He Htz.
  apply nth_error_map_inv in Hv. destruct Hv as (s & Hv & ->). rewrite Hs in Hv.
  apply nth_error_map_inv in Hv. destruct Hv as ([[s' lk] p] & Hv & ->).
  assert (Hlp : (lk, p) = (ln (iv_kk K (mF m S T)), iv_p m P K S T cp)).
  { apply (f_equal (fun x => nth_error x i)) in Hl. rewrite !nth_error_map, Hv, Hq in Hl.
    simpl in Hl. now injection Hl as -> ->. }
  injection Hlp as -> ->.
  assert (Es : s' / sqrt T * sqrt T = s') by (field; lra). rewrite Es in He, Htz.
  pose proof (mF_pos m S T HS) as HF.
  fold (mF m S T) in *. fold (mD m T) in *.
  apply impvol_price_err; try assumption.
  - apply iv_p_pos; assumption.
  - rewrite iv_kk_abs by assumption. exact Htz.
  - apply nth_error_In in Hv. exact (Herr _ _ _ Hv).
Qed.

(** uniqueness of the implied volatility *)
Lemma impvol_unique m s1 s2 K S T cp : call_or_put cp -> 0 < K -> 0 < S ->
  eps <= s1 * sqrt T -> eps <= s2 * sqrt T ->
  bsm_price (set_sigma m s1) K S T cp = bsm_price (set_sigma m s2) K S T cp -> s1 = s2.
Proof.
  intros Hcp HK HS H1 H2 H. pose proof eps_pos.
  rewrite !bsm_price_eq in H. cbn [set_sigma sigma] in H. rewrite !sigma_std_big in H by assumption.
  change (mD (set_sigma m s1) T) with (mD m T) in H. change (mD (set_sigma m s2) T) with (mD m T) in H.
  change (mF (set_sigma m s1) S T) with (mF m S T) in H. change (mF (set_sigma m s2) S T) with (mF m S T) in H.
  pose proof (mD_pos m T). apply Rmult_eq_reg_l in H; [|lra].
  apply black_inj_s in H; try lra; try assumption; [|apply mF_pos; assumption].
  assert (0 < sqrt T). { destruct (sqrt_pos T) as [|Hz]; [assumption|]. rewrite <- Hz, Rmult_0_r in H1. lra. }
  nra.
Qed.

(** existence: every arbitrage-free price is attained by exactly one total volatility above
    the floor, provided it is above the price at the floor *)
Lemma black_lim_inf F K : 0 < F -> 0 < K -> forall P, P < F -> exists s, 1 <= s /\ P < black s F K 1.
Proof.
  intros HF HK P HP.
  (* black = F Phi(d1) - K Phi(d2), with d1 -> +inf, d2 -> -inf *)
  set (e := (F - P) / 2 / (F + K)).
  assert (He : 0 < e) by (apply Rdiv_lt_0_compat; lra).
  assert (exists x0, 1 <= x0 /\ forall x, x0 <= x -> 1 - Phi x < e) as (x0 & Hx0 & Hphi).
  { pose proof Phi_lim_p as HL. 
    destruct (HL (fun y => Rabs (y - 1) < e)) as [M HM].
    { exists (mkposreal e He). intros y Hy. exact Hy. }
    exists (Rmax 1 (M + 1)). split; [apply Rmax_l|]. intros x Hx. pose proof (Rmax_r 1 (M + 1)).
    specialize (HM x ltac:(lra)). pose proof (Phi_lt_1 x). rewrite Rabs_left in HM; lra. }
  set (L := Rabs (ln (F / K))).
  assert (HL : 0 <= L) by apply Rabs_pos.
  exists (2 * (x0 + L)). split; [lra|].
  set (s := 2 * (x0 + L)). assert (Hs : 1 <= s) by (unfold s; lra).
  assert (HdL : Rabs (ln (F / K) / s) <= L).
  { unfold Rdiv. rewrite Rabs_mult, (Rabs_right (/ s)) by (left; apply Rinv_0_lt_compat; lra).
    fold L. apply (Rle_trans _ (L * 1)); [|lra]. apply Rmult_le_compat_l; [exact HL|].
    apply (Rle_trans _ (/ 1)); [apply Rinv_le_contravar; lra|lra]. }
  apply Rabs_le_between in HdL.
  unfold black. rewrite !Rmult_1_l.
  assert (H1 : 1 - Phi (ln (F / K) / s + s / 2) < e) by (apply Hphi; change (x0 <= ln (F / K) / s + (2 * (x0 + L)) / 2); lra).
  assert (H2 : Phi (ln (F / K) / s - s / 2) < e).
  { rewrite <- (Ropp_involutive (ln (F / K) / s - s / 2)), Phi_opp.
    apply Hphi. change (x0 <= - (ln (F / K) / s - (2 * (x0 + L)) / 2)); lra. }
  assert (E : (F + K) * e = (F - P) / 2) by (unfold e; field; lra).
  nra.
Qed.

Lemma black_upper_lim F K cp : is_cp cp -> 0 < F -> 0 < K ->
  forall P, P < (if Rlt_dec 0 cp then F else K) -> exists s, 1 <= s /\ P < black s F K cp.
Proof.
  intros [->| ->] HF HK P HP.
  - destruct (Rlt_dec 0 1); [|lra]. now apply black_lim_inf.
  - destruct (Rlt_dec 0 (-1)); [lra|].
    destruct (black_lim_inf K F HK HF P HP) as (s & H1 & H2). exists s. split; [exact H1|].
    rewrite black_sym by lra. exact H2.
Qed.

Lemma impvol_exists m P K S T cp : call_or_put cp -> 0 < K -> 0 < S -> 0 < T ->
  let F := FWD (intr m) (divr m) (is_fwd m) S T in
  bsm_price (set_sigma m 0) K S T cp <= P < DF (intr m) T * (if Rlt_dec 0 cp then F else K) ->
  exists s, eps <= s * sqrt T /\ bsm_price (set_sigma m s) K S T cp = P.
Proof.
  intros Hcp HK HS HT F [Hlo Hhi]. pose proof eps_pos as He.
  assert (HsT : 0 < sqrt T) by (apply sqrt_lt_R0; lra).
  rewrite bsm_price_eq in Hlo. cbn [set_sigma sigma] in Hlo.
  change (mD (set_sigma m 0) T) with (mD m T) in Hlo. change (mF (set_sigma m 0) S T) with F in Hlo.
  fold (mD m T) in Hhi. pose proof (mD_pos m T) as HD.
  assert (HF : 0 < F) by (apply (mF_pos m S T HS)).
  unfold sigma_std in Hlo. rewrite Rmult_0_l, Rmax_right in Hlo by lra.
  assert (Hlo' : black eps F K cp <= P / mD m T).
  { apply (Rmult_le_reg_l (mD m T)); [lra|]. replace (mD m T * (P / mD m T)) with P by (field; lra). exact Hlo. }
  assert (Hhi' : P / mD m T < (if Rlt_dec 0 cp then F else K)).
  { apply (Rmult_lt_reg_l (mD m T)); [lra|]. replace (mD m T * (P / mD m T)) with P by (field; lra). exact Hhi. }
  destruct (black_upper_lim F K cp Hcp HF HK _ Hhi') as (s1 & Hs1 & Hb1).
  assert (Heps1 : eps < 1).
  { unfold eps. rewrite <- Rinv_1. apply Rinv_lt_contravar; [|simpl; lra]. simpl; lra. }
  assert (Hex : exists s, eps <= s /\ black s F K cp = P / mD m T).
  { destruct Hlo' as [Hlo'|Hlo'].
    - 
      assert (Hc : forall a, eps <= a <= s1 -> continuity_pt (fun s => black s F K cp - P / mD m T) a).
      { intros a Ha. apply continuity_pt_filterlim. apply (ex_derive_continuous_R (fun s => black s F K cp - P / mD m T) a).
        eexists. apply (is_derive_minus_R (fun s => black s F K cp) (fun _ => P / mD m T)); [|apply is_derive_const_R].
        apply is_derive_black_s; try assumption. lra. }
      destruct (Ranalysis5.IVT_interv (fun s => black s F K cp - P / mD m T) eps s1 Hc) as (z & Hz & Hz0); try lra.
      exists z. split; lra.
    - exists eps. split; [lra|exact Hlo']. }
  destruct Hex as (s & Hs & Hb).
  exists (s / sqrt T). assert (E : s / sqrt T * sqrt T = s) by (field; lra).
  split; [lra|]. rewrite bsm_price_eq. cbn [set_sigma sigma]. rewrite sigma_std_big by lra. rewrite E.
  change (mD (set_sigma m (s / sqrt T)) T) with (mD m T). change (mF (set_sigma m (s / sqrt T)) S T) with F.
  rewrite Hb. field. lra.
Qed.
