(** Bsm.impvol on arrays of quotes: it converges, reprices and inverts the price. *)
From Coq Require Import Reals Lra Lia Psatz List.
From Coquelicot Require Import Coquelicot.
From Verif Require Import Base Gauss P_Black Spec_Opt M_Opt P_Bsm P_Impvol P_ImpvolRun P_Newton P_Newton2 P_Newton3 P_Newton4 P_Newton5.
From Verif Require P_Qe.
Import ListNotations.
Open Scope R_scope.

Definition itm (n : nat) (e : R * R * R) : R * R * R := let '(s, lk, p) := e in (iv_iter n lk p s, lk, p).
Lemma iv_loop_iter n : forall l sig, iv_loop n l = (sig, true) ->
  exists k, sig = map (fun '(s, _, _) => s) (map (itm k) l) /\ iv_maxerr (map (itm k) l) < IMPVOL_TOL.
Proof.
  induction n as [|n IH]; intros l sig H; [discriminate|]. cbn [iv_loop] in H. destruct (Rlt_dec (iv_maxerr l) IMPVOL_TOL) as [A|A].
  - injection H as <-. exists 0%nat. assert (E : map (itm 0) l = l). { rewrite <- (map_id l) at 2. apply map_ext. now intros [[s lk] p]. } rewrite E. now split.
  - destruct (IH _ _ H) as (k & E1 & E2). exists (S k).
    assert (E : map (itm k) (map (fun '(s, lk, p) => (iv_step s lk p, lk, p)) l) = map (itm (S k)) l).
    { rewrite map_map. apply map_ext. intros [[s lk] p]. reflexivity. } rewrite E in E1, E2. now split.
Qed.
Lemma maxerr_lt l : (forall s lk p, In (s, lk, p) l -> Rabs (iv_err s lk p) < IMPVOL_TOL) -> iv_maxerr l < IMPVOL_TOL.
Proof.
  unfold iv_maxerr. induction l as [|[[s lk] p] l IH]; intros H; cbn; [unfold IMPVOL_TOL; apply Rinv_0_lt_compat, pow_lt; lra|].
  apply Rmax_lub_lt; [apply H; now left|]. apply IH. intros s' lk' p' H'. apply H. now right.
Qed.
Lemma iv_loop_conv k : forall n l, (k < n)%nat -> iv_maxerr (map (itm k) l) < IMPVOL_TOL -> snd (iv_loop n l) = true.
Proof.
  induction k as [|k IH]; intros n l Hn H; (destruct n as [|n]; [lia|]); cbn [iv_loop].
  - assert (E : map (itm 0) l = l). { rewrite <- (map_id l) at 2. apply map_ext. now intros [[s lk] p]. } rewrite E in H. destruct (Rlt_dec (iv_maxerr l) IMPVOL_TOL); [reflexivity|contradiction].
  - destruct (Rlt_dec (iv_maxerr l) IMPVOL_TOL); [reflexivity|]. apply IH; [lia|].
    assert (E : map (itm k) (map (fun '(s, lk, p) => (iv_step s lk p, lk, p)) l) = map (itm (S k)) l).
    { rewrite map_map. apply map_ext. intros [[s lk] p]. reflexivity. } now rewrite E.
Qed.
Definition good (e : R * R * R) : Prop := let '(s, lk, p) := e in 0 <= lk /\ 0 < p < 1 /\ Inv lk p s.
Lemma all_converge l : (forall e, In e l -> good e) -> exists N, forall n, (N <= n)%nat -> iv_maxerr (map (itm n) l) < IMPVOL_TOL.
Proof.
  induction l as [|[[s lk] p] l IH]; intros H.
  - exists 0%nat. intros n _. apply maxerr_lt. intros ? ? ? [].
  - destruct IH as [N1 H1]; [intros e He; apply H; now right|]. destruct (H (s, lk, p) ltac:(now left)) as (Hl & Hp & HI).
    destruct (cstd_root lk p Hl Hp) as (t & Ht & Et). destruct (newton_converges lk p s t HI Hl ltac:(lra) Ht Et) as [N2 H2].
    exists (Nat.max N1 N2). intros n Hn. apply Rmax_lub_lt; [apply H2; lia|apply H1; lia].
Qed.

Definition quote_start (ppf : R -> R) (m : opt) (S T : R) (q : R * R * R) : R * R * R :=
  let '(P, K, cp) := q in (iv_init ppf (iv_kk K (mF m S T)) (iv_p m P K S T cp), ln (iv_kk K (mF m S T)), iv_p m P K S T cp).
Lemma impvol_unfold ppf m quotes S T setval n : bsm_impvol ppf m quotes S T setval (Datatypes.S n) =
  let r := iv_loop (Datatypes.S n) (map (quote_start ppf m S T) quotes) in let vols := map (fun s => s / sqrt T) (fst r) in
  Some (vols, snd r, if setval then map (set_sigma m) vols else map (fun _ => m) vols).
Proof.
  unfold bsm_impvol. rewrite fdd_eq.
  assert (E : map (fun '(price, strike, cp) => (iv_init ppf (iv_kk strike (mF m S T)) (iv_p m price strike S T cp), ln (iv_kk strike (mF m S T)), iv_p m price strike S T cp)) quotes = map (quote_start ppf m S T) quotes).
  { apply map_ext. now intros [[P K] cp]. }
  rewrite E. destruct (iv_loop (Datatypes.S n) (map (quote_start ppf m S T) quotes)) as [sig ok]. reflexivity.
Qed.
Lemma iv_p_lt1 m P K S T cp : call_or_put cp -> 0 < K -> 0 < S ->
  P < DF (intr m) T * (if Rlt_dec 0 cp then FWD (intr m) (divr m) (is_fwd m) S T else K) -> iv_p m P K S T cp < 1.
Proof.
  intros Hcp HK HS H. unfold iv_p. rewrite fdd_eq. fold (mF m S T) (mD m T) in *. pose proof (mD_pos m T) as HD. pose proof (mF_pos m S T HS) as HF. set (F := mF m S T) in *. set (D := mD m T) in *. clearbody F D.
  assert (Hm : 0 < Rmin F K) by (apply Rmin_glb_lt; assumption).
  assert (H' : P / D < (if Rlt_dec 0 cp then F else K)). { apply (Rmult_lt_reg_l D); [exact HD|]. replace (D * (P / D)) with P by (field; lra). exact H. }
  apply (Rmult_lt_reg_r (Rmin F K)); [exact Hm|]. replace ((P / D - Rmax (cp * (F - K)) 0) / Rmin F K * Rmin F K) with (P / D - Rmax (cp * (F - K)) 0) by (field; lra).
  rewrite Rmult_1_l. destruct Hcp as [-> | ->].
  - destruct (Rlt_dec 0 1); [|lra]. unfold Rmax, Rmin. destruct (Rle_dec (1 * (F - K)) 0), (Rle_dec F K); lra.
  - destruct (Rlt_dec 0 (-1)); [lra|]. unfold Rmax, Rmin. destruct (Rle_dec (-1 * (F - K)) 0), (Rle_dec F K); lra.
Qed.
Lemma lk_nonneg K F : 0 < K -> 0 < F -> 0 <= ln (iv_kk K F).
Proof. intros HK HF. rewrite <- ln_1. apply ln_le_R; [lra|]. now apply iv_kk_ge1. Qed.

(** a quote strictly inside the no-arbitrage bounds *)
Definition inside (m : opt) (S T : R) (q : R * R * R) : Prop := let '(P, K, cp) := q in
  call_or_put cp /\ 0 < K /\ DF (intr m) T * payoff cp K (FWD (intr m) (divr m) (is_fwd m) S T) < P
    /\ P < DF (intr m) T * (if Rlt_dec 0 cp then FWD (intr m) (divr m) (is_fwd m) S T else K).
Lemma start_good ppf m S T q : (forall x, 0 < x < 1 -> Phi (ppf x) = x) -> 0 < S -> inside m S T q -> good (quote_start ppf m S T q).
Proof.
  intros Hppf HS. destruct q as [[P K] cp]. intros (Hcp & HK & H1 & H2). unfold quote_start, good. pose proof (mF_pos m S T HS) as HF.
  assert (Hl := lk_nonneg K _ HK HF). assert (Hp : 0 < iv_p m P K S T cp < 1) by (split; [now apply iv_p_pos|now apply iv_p_lt1]).
  split; [exact Hl|]. split; [exact Hp|]. pose proof (init_below ppf _ _ Hl Hp Hppf) as I. rewrite exp_ln in I by (now apply iv_kk_pos). exact I.
Qed.
Lemma impvol_converges ppf m quotes S T setval : (forall x, 0 < x < 1 -> Phi (ppf x) = x) -> 0 < S ->
  (forall q, In q quotes -> inside m S T q) ->
  exists N, forall n, (N <= n)%nat -> exists vols models, bsm_impvol ppf m quotes S T setval n = Some (vols, true, models).
Proof.
  intros Hppf HS Hq. destruct (all_converge (map (quote_start ppf m S T) quotes)) as [N HN].
  { intros e He. apply in_map_iff in He. destruct He as (q & <- & Hin). apply start_good; auto. }
  exists (Datatypes.S N). intros [|n] Hn; [lia|]. rewrite impvol_unfold. cbv zeta.
  rewrite (iv_loop_conv N (Datatypes.S n) (map (quote_start ppf m S T) quotes)); [|lia|apply HN; lia]. eexists. eexists. reflexivity.
Qed.
Definition LTOL : R := IMPVOL_TOL + tiny.
(** what a converged run says about one quote *)
Lemma impvol_entry ppf m quotes S T setval n vols models : (forall x, 0 < x < 1 -> Phi (ppf x) = x) -> 0 < S -> 0 < T ->
  bsm_impvol ppf m quotes S T setval n = Some (vols, true, models) ->
  length vols = length quotes /\ models = (if setval then map (set_sigma m) vols else map (fun _ => m) vols) /\
  forall i P K cp v, nth_error quotes i = Some (P, K, cp) -> nth_error vols i = Some v -> inside m S T (P, K, cp) ->
    0 < v * sqrt T /\ Rabs (lerr (v * sqrt T) (ln (iv_kk K (mF m S T))) (iv_p m P K S T cp)) < LTOL.
Proof.
  intros Hppf HS HT H. assert (HsT : 0 < sqrt T) by (apply sqrt_lt_R0; lra). destruct n as [|n]; [discriminate|]. rewrite impvol_unfold in H. cbv zeta in H.
  destruct (iv_loop (Datatypes.S n) (map (quote_start ppf m S T) quotes)) as [sig ok] eqn:El. cbn [fst snd] in H. injection H as H1 H2 H3. subst ok.
  destruct (iv_loop_iter _ _ _ El) as (k & Es & Em). subst sig vols models. rewrite !map_map in *. split; [now rewrite map_length|]. split; [reflexivity|].
  intros i P K cp v Hq Hv Hin. rewrite nth_error_map, Hq in Hv. cbn [option_map quote_start itm] in Hv. injection Hv as Hv.
  destruct (start_good ppf m S T _ Hppf HS Hin) as (Hl & Hp & HI).
  set (lk := ln (iv_kk K (mF m S T))) in *. set (p := iv_p m P K S T cp) in *. set (s0 := iv_init ppf (iv_kk K (mF m S T)) p) in *.
  assert (Ev : v * sqrt T = iv_iter k lk p s0) by (rewrite <- Hv; field; lra). rewrite Ev. clear Ev Hv.
  destruct (iter_inv k lk p s0 HI Hl (proj1 Hp)) as (Hs & _ & _). split; [exact Hs|].
  assert (Hin' : In (iv_iter k lk p s0, lk, p) (map (fun x => itm k (quote_start ppf m S T x)) quotes)).
  { apply in_map_iff. exists (P, K, cp). split; [reflexivity|]. eapply nth_error_In. exact Hq. }
  apply iv_maxerr_in in Hin'. destruct (iv_data (iv_iter k lk p s0) lk p Hs Hl (proj1 Hp)) as (d & Hd & _ & Ee & _). rewrite Ee, Rabs_Ropp in Hin'.
  pose proof (ln_1m d Hd) as [E0 E1]. unfold LTOL. set (x := lerr (iv_iter k lk p s0) lk p) in *. set (e := - ln (1 - d)) in *. clearbody x e.
  assert (A : Rabs (x + e) < IMPVOL_TOL) by lra. apply Rabs_def2 in A. apply Rabs_def1; lra.
Qed.

(** prices in standardised units *)
Lemma price_floor m v K S T cp : call_or_put cp -> 0 < K -> 0 < S ->
  bsm_price (set_sigma m v) K S T cp - mD m T * payoff cp K (mF m S T) = mD m T * Rmin (mF m S T) K * cstd (Rmax (v * sqrt T) eps) (ln (iv_kk K (mF m S T))).
Proof.
  intros Hcp HK HS. rewrite bsm_price_eq. cbn [sigma set_sigma]. change (mF (set_sigma m v) S T) with (mF m S T). change (mD (set_sigma m v) T) with (mD m T).
  assert (Es : sigma_std v T = Rmax (v * sqrt T) eps) by reflexivity. rewrite Es. pose proof eps_pos as He. pose proof (Rmax_r (v * sqrt T) eps) as Hm.
  rewrite Rmult_assoc, <- (black_time_value (Rmax (v * sqrt T) eps) (mF m S T) K cp Hcp ltac:(lra) (mF_pos m S T HS) HK). unfold payoff. ring.
Qed.
Lemma quote_p m P K S T cp : 0 < K -> 0 < S -> P - mD m T * payoff cp K (mF m S T) = mD m T * Rmin (mF m S T) K * iv_p m P K S T cp.
Proof.
  intros HK HS. unfold iv_p. rewrite fdd_eq. pose proof (mF_pos m S T HS) as HF. pose proof (mD_pos m T) as HD.
  assert (Hm : 0 < Rmin (mF m S T) K) by (apply Rmin_glb_lt; assumption). unfold payoff. field. lra.
Qed.
Lemma impvol_reprice m P K S T cp v : call_or_put cp -> 0 < K -> 0 < S -> bsm_price (set_sigma m 0) K S T cp <= P ->
  0 < v * sqrt T -> Rabs (lerr (v * sqrt T) (ln (iv_kk K (mF m S T))) (iv_p m P K S T cp)) < LTOL ->
  Rabs (bsm_price (set_sigma m v) K S T cp - P) < (P - mD m T * payoff cp K (mF m S T)) * (exp LTOL - 1).
Proof.
  intros Hcp HK HS Hfl Hs He. pose proof (price_floor m v K S T cp Hcp HK HS) as E1. pose proof (price_floor m 0 K S T cp Hcp HK HS) as E0. pose proof (quote_p m P K S T cp HK HS) as E2.
  pose proof (mF_pos m S T HS) as HF. pose proof (mD_pos m T) as HD. assert (Hm : 0 < Rmin (mF m S T) K) by (apply Rmin_glb_lt; assumption). assert (HDM : 0 < mD m T * Rmin (mF m S T) K) by (apply Rmult_lt_0_compat; assumption).
  set (A := mD m T * Rmin (mF m S T) K) in *. set (lk := ln (iv_kk K (mF m S T))) in *. set (p := iv_p m P K S T cp) in *. pose proof eps_pos as Hep.
  rewrite Rmult_0_l, Rmax_right in E0 by lra. assert (Hp0 : cstd eps lk <= p). { apply (Rmult_le_reg_l A); [exact HDM|]. lra. } pose proof (cstd_pos eps lk Hep) as Pe.
  rewrite E2. replace (bsm_price (set_sigma m v) K S T cp - P) with (A * (cstd (Rmax (v * sqrt T) eps) lk - p)) by lra.
  rewrite Rabs_mult, (Rabs_pos_eq A) by lra. rewrite (Rmult_assoc A). apply Rmult_lt_compat_l; [exact HDM|].
  assert (Hmx : 0 < Rmax (v * sqrt T) eps) by (pose proof (Rmax_r (v * sqrt T) eps); lra).
  apply Rabs_ln_bound; [now apply cstd_pos|lra|]. unfold lerr in He. rewrite Rabs_minus_sym in He. unfold Rmax in *. destruct (Rle_dec (v * sqrt T) eps) as [B|B]; [|exact He].
  pose proof (lncstd_mono (v * sqrt T) eps lk Hs B). assert (ln (cstd eps lk) <= ln p) by (apply ln_le_R; assumption). apply Rabs_def2 in He. apply Rabs_def1; lra.
Qed.
(** price over vega *)
Lemma pv_api m v K S T cp : call_or_put cp -> 0 < K -> 0 < S -> 0 < T -> eps <= v * sqrt T ->
  (bsm_price (set_sigma m v) K S T cp - mD m T * payoff cp K (mF m S T)) / bsm_vega (set_sigma m v) K S T cp = pv (v * sqrt T) (ln (iv_kk K (mF m S T))) / sqrt T.
Proof.
  intros Hcp HK HS HT Hv. assert (HsT : 0 < sqrt T) by (apply sqrt_lt_R0; lra). pose proof eps_pos as He. rewrite price_floor by assumption. rewrite Rmax_left by lra. set (s := v * sqrt T) in *. assert (Hs : 0 < s) by lra.
  rewrite cstd_pv by exact Hs. unfold bsm_vega. rewrite fdd_eq. unfold bsm_d1. cbn [sigma set_sigma]. rewrite sigma_std_big by exact Hv. fold s. change (mF (set_sigma m v) S T) with (mF m S T). change (mD (set_sigma m v) T) with (mD m T).
  pose proof (mF_pos m S T HS) as HF. pose proof (mD_pos m T) as HD. set (F := mF m S T) in *. set (D := mD m T) in *. clearbody F D.
  pose proof (black_core s F K Hs HF HK) as Hc. pose proof (iv_kk_abs K F HK HF) as Hk.
  assert (E : Rmin F K * npdf (dd1 s (ln (iv_kk K F))) = F * npdf (ln (F / K) / s + / 2 * s)).
  { rewrite Hk. replace (/ 2 * s) with (s / 2) by field. unfold dd1. assert (Hln : ln (F / K) = ln F - ln K) by (now apply ln_div). destruct (Rle_dec F K) as [A|A].
    - rewrite Rmin_left by exact A. assert (ln F <= ln K) by (now apply ln_le_R). rewrite Rabs_left1 by lra. f_equal. f_equal. field. lra.
    - rewrite Rmin_right by lra. assert (ln K <= ln F) by (apply ln_le_R; lra). rewrite Rabs_pos_eq by lra. rewrite Hc. f_equal. rewrite <- (npdf_even (ln (F / K) / s - s / 2)). f_equal. field. lra. }
  pose proof (npdf_pos (ln (F / K) / s + / 2 * s)) as Hn. set (nn := npdf (ln (F / K) / s + / 2 * s)) in *. set (ll := ln (iv_kk K F)) in *. clearbody nn ll.
  replace (D * Rmin F K * (npdf (dd1 s ll) * pv s ll)) with (D * (Rmin F K * npdf (dd1 s ll)) * pv s ll) by ring. rewrite E. field. lra.
Qed.
Lemma price_inside m v K S T cp : call_or_put cp -> 0 < K -> 0 < S -> inside m S T (bsm_price (set_sigma m v) K S T cp, K, cp).
Proof.
  intros Hcp HK HS. pose proof (mF_pos m S T HS) as HF. pose proof (mD_pos m T) as HD. pose proof eps_pos as He. split; [exact Hcp|]. split; [exact HK|]. rewrite bsm_price_eq. cbn [sigma set_sigma].
  change (mF (set_sigma m v) S T) with (mF m S T). change (mD (set_sigma m v) T) with (mD m T). fold (mF m S T) (mD m T).
  assert (Hs : 0 < sigma_std v T). { unfold sigma_std. pose proof (Rmax_r (v * sqrt T) eps). lra. }
  split; apply Rmult_lt_compat_l; try exact HD; [now apply black_lower|now apply black_upper].
Qed.
Lemma impvol_inverts m sig K S T cp v : call_or_put cp -> 0 < K -> 0 < S -> 0 < T -> eps <= sig * sqrt T ->
  0 < v * sqrt T -> Rabs (lerr (v * sqrt T) (ln (iv_kk K (mF m S T))) (iv_p m (bsm_price (set_sigma m sig) K S T cp) K S T cp)) < LTOL ->
  let w := Rmax v sig in
  Rabs (v - sig) <= LTOL * ((bsm_price (set_sigma m w) K S T cp - mD m T * payoff cp K (mF m S T)) / bsm_vega (set_sigma m w) K S T cp).
Proof.
  intros Hcp HK HS HT Hsig Hs He w. assert (HsT : 0 < sqrt T) by (apply sqrt_lt_R0; lra). pose proof eps_pos as Hep.
  assert (Hw : eps <= w * sqrt T). { apply Rle_trans with (1 := Hsig). apply Rmult_le_compat_r; [lra|apply Rmax_r]. }
  rewrite pv_api by assumption. set (lk := ln (iv_kk K (mF m S T))) in *. assert (Hl : 0 <= lk) by (apply lk_nonneg; [exact HK|now apply mF_pos]).
  set (P := bsm_price (set_sigma m sig) K S T cp) in *.
  assert (Ep : iv_p m P K S T cp = cstd (sig * sqrt T) lk).
  { pose proof (price_floor m sig K S T cp Hcp HK HS) as E1. pose proof (quote_p m P K S T cp HK HS) as E2. rewrite Rmax_left in E1 by lra. fold P lk in E1. rewrite E1 in E2.
    apply Rmult_eq_reg_l in E2; [now symmetry|]. apply Rgt_not_eq. apply Rmult_lt_0_compat; [apply mD_pos|]. apply Rmin_glb_lt; [now apply mF_pos|exact HK]. }
  rewrite Ep in He. unfold lerr in He. assert (Hsg : 0 < sig * sqrt T) by lra.
  assert (Pw : 0 < pv (w * sqrt T) lk) by (apply pv_pos; lra).
  assert (G : Rabs (v * sqrt T - sig * sqrt T) <= LTOL * pv (w * sqrt T) lk).
  { unfold w, Rmax in *. destruct (Rle_dec v sig) as [A|A].
    - assert (v * sqrt T <= sig * sqrt T) by (apply Rmult_le_compat_r; lra). rewrite Rabs_left1 by lra. pose proof (tangent (sig * sqrt T) (v * sqrt T) lk Hl Hsg Hs) as T1.
      apply Rabs_def2 in He. assert (B : (sig * sqrt T - v * sqrt T) / pv (sig * sqrt T) lk <= LTOL). { replace ((v * sqrt T - sig * sqrt T) / pv (sig * sqrt T) lk) with (- ((sig * sqrt T - v * sqrt T) / pv (sig * sqrt T) lk)) in T1 by (field; lra). lra. }
      apply (Rmult_le_compat_r (pv (sig * sqrt T) lk)) in B; [|lra]. replace ((sig * sqrt T - v * sqrt T) / pv (sig * sqrt T) lk * pv (sig * sqrt T) lk) with (sig * sqrt T - v * sqrt T) in B by (field; lra). lra.
    - assert (sig * sqrt T <= v * sqrt T) by (apply Rmult_le_compat_r; lra). rewrite Rabs_pos_eq by lra. pose proof (tangent (v * sqrt T) (sig * sqrt T) lk Hl Hs Hsg) as T1.
      apply Rabs_def2 in He. assert (B : (v * sqrt T - sig * sqrt T) / pv (v * sqrt T) lk <= LTOL). { replace ((sig * sqrt T - v * sqrt T) / pv (v * sqrt T) lk) with (- ((v * sqrt T - sig * sqrt T) / pv (v * sqrt T) lk)) in T1 by (field; lra). lra. }
      apply (Rmult_le_compat_r (pv (v * sqrt T) lk)) in B; [|lra]. replace ((v * sqrt T - sig * sqrt T) / pv (v * sqrt T) lk * pv (v * sqrt T) lk) with (v * sqrt T - sig * sqrt T) in B by (field; lra). lra. }
  replace (v * sqrt T - sig * sqrt T) with ((v - sig) * sqrt T) in G by ring. rewrite Rabs_mult, (Rabs_pos_eq (sqrt T)) in G by lra.
  apply (Rmult_le_reg_r (sqrt T)); [exact HsT|]. replace (LTOL * (pv (w * sqrt T) lk / sqrt T) * sqrt T) with (LTOL * pv (w * sqrt T) lk) by (field; lra). exact G.
Qed.
(** a normal quantile function exists *)
Lemma quantile_exists : exists ppf, forall x, 0 < x < 1 -> Phi (ppf x) = x.
Proof.
  assert (H : forall x, 0 < x < 1 -> {y | Phi y = x}).
  { intros x Hx. assert (B : bound (fun y => Phi y <= x)).
    { destruct (P_Qe.Phi_surj x Hx) as [c Ec]. exists c. intros y Hy. destruct (Rle_dec y c) as [A|A]; [exact A|]. apply Rnot_le_lt in A. apply Phi_incr in A. lra. }
    assert (N : exists y, Phi y <= x). { destruct (P_Qe.Phi_surj x Hx) as [c Ec]. exists c. lra. }
    destruct (completeness _ B N) as [y Hy]. exists y. destruct (P_Qe.Phi_surj x Hx) as [c Ec]. enough (y = c) by (now subst). apply Rle_antisym.
    - apply (proj2 Hy). intros z Hz. destruct (Rle_dec z c) as [A|A]; [exact A|]. apply Rnot_le_lt in A. apply Phi_incr in A. lra.
    - apply (proj1 Hy). lra. }
  exists (fun x => match Rlt_dec 0 x, Rlt_dec x 1 with left a, left b => proj1_sig (H x (conj a b)) | _, _ => 0 end).
  intros x Hx. destruct (Rlt_dec 0 x) as [a|]; [|lra]. destruct (Rlt_dec x 1) as [b|]; [|lra]. apply (proj2_sig (H x (conj a b))).
Qed.
Lemma impvol_run_full ppf m quotes S T setval n vols models : (forall x, 0 < x < 1 -> Phi (ppf x) = x) -> 0 < S -> 0 < T ->
  bsm_impvol ppf m quotes S T setval n = Some (vols, true, models) ->
  length vols = length quotes /\ models = (if setval then map (set_sigma m) vols else map (fun _ => m) vols) /\
  forall i P K cp v, nth_error quotes i = Some (P, K, cp) -> nth_error vols i = Some v ->
    call_or_put cp -> 0 < K -> bsm_price (set_sigma m 0) K S T cp <= P < DF (intr m) T * (if Rlt_dec 0 cp then FWD (intr m) (divr m) (is_fwd m) S T else K) ->
    Rabs (bsm_price (set_sigma m v) K S T cp - P)
      < (P - DF (intr m) T * payoff cp K (FWD (intr m) (divr m) (is_fwd m) S T)) * (exp (IMPVOL_TOL + 4 / 10 ^ 13) - 1).
Proof.
  intros Hppf HS HT H. destruct (impvol_entry _ _ _ _ _ _ _ _ _ Hppf HS HT H) as (L & M & E). split; [exact L|]. split; [exact M|]. intros i P K cp v Hq Hv Hcp HK [H1 H2].
  assert (I : inside m S T (P, K, cp)). { destruct (price_inside m 0 K S T cp Hcp HK HS) as (_ & _ & A & _). split; [exact Hcp|]. split; [exact HK|]. split; [lra|exact H2]. }
  destruct (E i P K cp v Hq Hv I) as [Hs He]. exact (impvol_reprice m P K S T cp v Hcp HK HS H1 Hs He).
Qed.
Lemma impvol_roundtrip ppf m quotes S T setval n vols models : (forall x, 0 < x < 1 -> Phi (ppf x) = x) -> 0 < S -> 0 < T ->
  bsm_impvol ppf m quotes S T setval n = Some (vols, true, models) ->
  forall i sig K cp v, call_or_put cp -> 0 < K -> eps <= sig * sqrt T ->
    nth_error quotes i = Some (bsm_price (set_sigma m sig) K S T cp, K, cp) -> nth_error vols i = Some v ->
    let w := set_sigma m (Rmax v sig) in
    Rabs (v - sig) <= (IMPVOL_TOL + 4 / 10 ^ 13) *
      ((bsm_price w K S T cp - DF (intr m) T * payoff cp K (FWD (intr m) (divr m) (is_fwd m) S T)) / bsm_vega w K S T cp).
Proof.
  intros Hppf HS HT H i sig K cp v Hcp HK Hsig Hq Hv. destruct (impvol_entry _ _ _ _ _ _ _ _ _ Hppf HS HT H) as (_ & _ & E).
  destruct (E i _ K cp v Hq Hv (price_inside m sig K S T cp Hcp HK HS)) as [Hs He]. exact (impvol_inverts m sig K S T cp v Hcp HK HS HT Hsig Hs He).
Qed.
Lemma impvol_converges' ppf m quotes S T setval : (forall x, 0 < x < 1 -> Phi (ppf x) = x) -> 0 < S ->
  (forall P K cp, In (P, K, cp) quotes -> call_or_put cp /\ 0 < K /\
     DF (intr m) T * payoff cp K (FWD (intr m) (divr m) (is_fwd m) S T) < P < DF (intr m) T * (if Rlt_dec 0 cp then FWD (intr m) (divr m) (is_fwd m) S T else K)) ->
  exists N, forall n, (N <= n)%nat -> exists vols models, bsm_impvol ppf m quotes S T setval n = Some (vols, true, models).
Proof.
  intros Hppf HS H. apply impvol_converges; [exact Hppf|exact HS|]. intros [[P K] cp] Hin. destruct (H P K cp Hin) as (A & B & C & D). now repeat split.
Qed.
