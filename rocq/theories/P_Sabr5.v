(** C36: SABR conditional Monte-Carlo and mixture pricing. *)
From Coq Require Import Reals Lra Lia List Psatz.
From Coquelicot Require Import Coquelicot.
From Verif Require Import Base Gauss Sums M_Opt M_Mgf M_Heston M_Fd M_Sabr M_Cev Spec_Opt Spec_Expect Spec_Sabr P_Bsm P_Norm P_Expect P_OptRefute P_Sabr3 P_Sabr4.
Import ListNotations.
Open Scope R_scope.

Definition flat (m : opt) : opt := mkOpt (sigma m) 0 0 true.
(** the base model is Bsm or Norm, or Cev with equal rates *)
Definition base_simple (b : R) (mo : opt) : Prop := isclose b 1 = true \/ isclose b 0 = true \/ intr mo = divr mo.
Lemma cev_flat cdf sf b m k f t c : intr m = divr m -> cev_price cdf sf b (set_fwd m) k f t c = DF (intr m) t * cev_price cdf sf b (flat m) k f t c.
Proof.
  intros E. unfold cev_price, cev_price_formula, flat, set_fwd, DF. cbn [intr is_fwd sigma divr]. rewrite E. replace (2 * (divr m - divr m) * (1 - b) * t) with 0 by ring. replace (2 * (0 - 0) * (1 - b) * t) with 0 by ring.
  rewrite Rmult_0_r, exp_0, Rmult_1_l. replace (- t * divr m) with (- (divr m * t)) by ring. reflexivity.
Qed.
Lemma base_once cdf sf b m k f t c : base_simple b m ->
  sabr_base_price (cev_price cdf sf) b (set_fwd m) k f t c = DF (intr m) t * sabr_base_price (cev_price cdf sf) b (flat m) k f t c.
Proof.
  intros Hc. unfold sabr_base_price. destruct (isclose b 1) eqn:E1.
  - rewrite !bsm_price_eq. unfold mD, mF, DF, FWD, flat, set_fwd. cbn [intr is_fwd sigma divr].
    rewrite Rmult_0_l, Ropp_0, exp_0, Rmult_1_l. reflexivity.
  - destruct (isclose b 0) eqn:E0; [|destruct Hc as [Hc|[Hc|Hc]]; [congruence|congruence|now apply cev_flat]]. unfold norm_price, norm_price_formula, DF, flat, set_fwd. cbn [intr is_fwd sigma divr].
    rewrite Rmult_0_r, exp_0. replace (- t * intr m) with (- (intr m * t)) by ring. ring.
Qed.
Lemma mc_discounts_once cdf sf mo p cf paths K S T cp : base_simple (b_beta p) mo ->
  sabr_mc_price (cev_price cdf sf) mo p cf paths K S T cp
  = DF (intr mo) T * sabr_mc_price (cev_price cdf sf) (mkOpt (sigma mo) 0 0 true) p cf paths K (FWD (intr mo) (divr mo) (is_fwd mo) S T) T cp.
Proof.
  intros Hc. unfold sabr_mc_price. change (forward mo S T) with (FWD (intr mo) (divr mo) (is_fwd mo) S T).
  set (F := FWD _ _ _ _ _). change (forward (mkOpt (sigma mo) 0 0 true) F T) with F. cbv zeta.
  set (ps := filter _ _). set (n := INR _).
  rewrite (lsum_map_ext _ (fun x => DF (intr mo) T * sabr_base_price (cev_price cdf sf) (b_beta p) (set_fwd (set_sigma (mkOpt (sigma mo) 0 0 true) (sabr_alpha p F * snd x))) (K / F) (fst x) T cp)).
  2: { intros x _. rewrite (base_once cdf sf _ (set_sigma mo (sabr_alpha p F * snd x))) by exact Hc. reflexivity. }
  rewrite lsum_map_scal. unfold Rdiv. ring.
Qed.
Lemma mix_discounts_once cdf sf mo p cf nodes K S T cp : base_simple (b_beta p) mo ->
  sabr_mix_price (cev_price cdf sf) mo p cf nodes K S T cp
  = option_map (Rmult (DF (intr mo) T)) (sabr_mix_price (cev_price cdf sf) (mkOpt (sigma mo) 0 0 true) p cf nodes K (FWD (intr mo) (divr mo) (is_fwd mo) S T) T cp).
Proof.
  intros Hc. unfold sabr_mix_price. change (forward mo S T) with (FWD (intr mo) (divr mo) (is_fwd mo) S T).
  set (F := FWD _ _ _ _ _). change (forward (mkOpt (sigma mo) 0 0 true) F T) with F. cbv zeta.
  destruct (isclose (lsum _) 1); [|reflexivity]. cbn [option_map]. f_equal.
  rewrite (lsum_map_ext _ (fun x => DF (intr mo) T * (sabr_base_price (cev_price cdf sf) (b_beta p) (set_fwd (set_sigma (mkOpt (sigma mo) 0 0 true) (sabr_alpha p F * snd (fst x)))) (K / F) (fst (fst x)) T cp * snd x))).
  2: { intros x _. rewrite (base_once cdf sf _ (set_sigma mo (sabr_alpha p F * snd (fst x)))) by exact Hc. cbn [set_sigma set_fwd flat sigma intr]. unfold set_fwd, flat, set_sigma. cbn [sigma intr divr is_fwd]. ring. }
  rewrite lsum_map_scal. ring.
Qed.

(** ** parity *)
Definition base_parity cevp b (m : opt) k f t : Prop :=
  sabr_base_price cevp b (set_fwd m) k f t 1 - sabr_base_price cevp b (set_fwd m) k f t (-1) = DF (intr m) t * (f - k).
Lemma base_parity_bsm cevp m k f t : base_parity cevp 1 m k f t.
Proof.
  unfold base_parity, sabr_base_price. replace (isclose 1 1) with true.
  - rewrite bsm_parity. reflexivity.
  - unfold isclose. destruct (Rle_dec _ _) as [|N]; [reflexivity|]. exfalso. apply N. rewrite Rminus_diag_eq, Rabs_R0 by reflexivity. rewrite Rabs_R1.
    simpl. lra.
Qed.
Lemma base_parity_norm cevp m k f t : eps <= sigma m * sqrt t -> base_parity cevp 0 m k f t.
Proof.
  intros He. unfold base_parity, sabr_base_price. replace (isclose 0 1) with false.
  - replace (isclose 0 0) with true.
    + rewrite (norm_parity (set_fwd m)); [reflexivity|exact He].
    + unfold isclose. destruct (Rle_dec _ _) as [|N]; [reflexivity|]. exfalso. apply N. rewrite Rminus_diag_eq, Rabs_R0 by reflexivity. simpl. lra.
  - unfold isclose. destruct (Rle_dec _ _) as [L|]; [|reflexivity]. exfalso. replace (0 - 1) with (- (1)) in L by ring. rewrite Rabs_Ropp, Rabs_R1 in L. simpl in L. lra.
Qed.
Lemma filter_all {A} (f : A -> bool) l : (forall x, In x l -> f x = true) -> filter f l = l.
Proof. induction l as [|a l IH]; intros H; [reflexivity|]. cbn. rewrite H by now left. f_equal. apply IH. intros; apply H; now right. Qed.
(** [mean] = average forward ratio over the paths: 1 after the correction *)
Lemma mc_parity cevp mo p (cf : bool) paths K S T :
  let F := FWD (intr mo) (divr mo) (is_fwd mo) S T in
  let mean := lmean (map fst (paths F)) in
  let scale := if cf then mean else 1 in
  F <> 0 -> paths F <> [] -> scale <> 0 ->
  (forall x, In x (paths F) -> (if Rlt_dec 0 (b_beta p) then / 10 ^ 16 else - 999) < fst x / scale) ->
  (forall x, In x (paths F) -> base_parity cevp (b_beta p) (set_sigma mo (sabr_alpha p F * snd x)) (K / F) (fst x / scale) T) ->
  sabr_mc_price cevp mo p cf paths K S T 1 - sabr_mc_price cevp mo p cf paths K S T (-1)
  = DF (intr mo) T * (F * (mean / scale) - K).
Proof.
  intros F mean scale HF Hne Hsc Hthr Hb. unfold sabr_mc_price. change (forward mo S T) with F. cbv zeta.
  assert (Hn : INR (length (paths F)) <> 0). { destruct (paths F); [congruence|]. cbn [length]. apply not_0_INR. lia. }
  set (ps := if cf then _ else paths F).
  assert (Eps : ps = map (fun x => (fst x / scale, snd x)) (paths F)).
  { unfold ps, scale, mean, lmean. rewrite map_length. destruct cf; [reflexivity|]. rewrite <- (map_id (paths F)) at 1. apply map_ext. intros [u v]. cbn. f_equal. field. }
  rewrite filter_all.
  2: { intros x Hx. rewrite Eps in Hx. apply in_map_iff in Hx. destruct Hx as (y & <- & Hy). cbn [fst]. specialize (Hthr y Hy). match goal with |- (if ?D then _ else _) = _ => destruct D; [reflexivity|contradiction] end. }
  rewrite Eps, !map_map. cbn [fst snd].
  match goal with |- F * ?A / ?n - F * ?B / ?n = _ => replace (F * A / n - F * B / n) with (F * (A - B) / n) by (field; assumption) end.
  rewrite <- lsum_map_minus.
  rewrite (lsum_map_ext _ (fun x => DF (intr mo) T * (/ scale * fst x - K / F))).
  2: { intros x Hx. specialize (Hb x Hx). unfold base_parity in Hb. rewrite Hb. cbn [intr set_sigma]. unfold Rdiv. ring. }
  rewrite lsum_map_scal, lsum_map_minus, lsum_map_scal, lsum_map_const. unfold mean, lmean. rewrite map_length.
  change (map (fun a : R * R => fst a) (paths F)) with (map fst (paths F)). field. repeat match goal with |- _ /\ _ => split end; assumption.
Qed.
Lemma mix_parity cevp mo p (cf : bool) nodes K S T c0 q0 :
  let F := FWD (intr mo) (divr mo) (is_fwd mo) S T in
  let W := lsum (map snd (nodes F)) in
  let mean := lsum (map (fun x => fst (fst x) * snd x) (nodes F)) in
  let scale := if cf then mean else 1 in
  F <> 0 -> scale <> 0 ->
  (forall x, In x (nodes F) -> base_parity cevp (b_beta p) (set_sigma mo (sabr_alpha p F * snd (fst x))) (K / F) (fst (fst x) / scale) T) ->
  sabr_mix_price cevp mo p cf nodes K S T 1 = Some c0 -> sabr_mix_price cevp mo p cf nodes K S T (-1) = Some q0 ->
  c0 - q0 = DF (intr mo) T * (F * (mean / scale) - K * W).
Proof.
  intros F W mean scale HF Hsc Hb Hc Hp. unfold sabr_mix_price in Hc, Hp. change (forward mo S T) with F in *. cbv zeta in Hc, Hp.
  set (ns := if cf then _ else nodes F) in *.
  assert (Ens : ns = map (fun x => (fst (fst x) / scale, snd (fst x), snd x)) (nodes F)).
  { unfold ns, scale, mean. destruct cf; [reflexivity|]. rewrite <- (map_id (nodes F)) at 1. apply map_ext. intros [[u v] w]. cbn. f_equal. f_equal. field. }
  destruct (isclose _ _); [|discriminate]. apply (f_equal (fun o => match o with Some x => x | None => 0 end)) in Hc, Hp. subst c0 q0.
  rewrite Ens, !map_map. cbn [fst snd]. rewrite <- Rmult_minus_distr_l, <- lsum_map_minus.
  rewrite (lsum_map_ext _ (fun x => DF (intr mo) T * (/ scale * (fst (fst x) * snd x) - K / F * snd x))).
  2: { intros x Hx. specialize (Hb x Hx). unfold base_parity in Hb. cbn [intr set_sigma] in Hb.
       replace (DF (intr mo) T * (/ scale * (fst (fst x) * snd x) - K / F * snd x)) with (DF (intr mo) T * (fst (fst x) / scale - K / F) * snd x) by (unfold Rdiv; ring).
       rewrite <- Hb. ring. }
  rewrite lsum_map_scal, lsum_map_minus, !lsum_map_scal. unfold mean, W. field. repeat match goal with |- _ /\ _ => split end; assumption.
Qed.

(** ** deterministic volatility: one path with ratios 1 is the Bachelier / Black-Scholes price -- for positive forwards *)
Lemma mc_one_norm cevp mo p K S T cp : let F := FWD (intr mo) (divr mo) (is_fwd mo) S T in 0 < F -> b_beta p = 0 -> 0 < T ->
  eps <= b_sigma p * sqrt T -> eps <= b_sigma p / F * sqrt T ->
  sabr_mc_price cevp mo p false (fun _ => [(1, 1)]) K S T cp = norm_price (set_sigma mo (b_sigma p)) K S T cp.
Proof.
  intros F HF Hb HT He He2. unfold sabr_mc_price. change (forward mo S T) with F. cbv zeta. rewrite Hb. destruct (Rlt_dec 0 0); [lra|].
  cbn [filter fst snd]. destruct (Rlt_dec (- 999) 1); [|lra]. cbn [map lsum fold_right fst snd length INR].
  assert (Ea : sabr_alpha p F = b_sigma p / F).
  { unfold sabr_alpha. rewrite Hb, Rminus_0_r, npow_s_pos by exact HF. rewrite Rpower_1 by exact HF. reflexivity. }
  rewrite Ea, Rmult_1_r. unfold sabr_base_price. replace (isclose 0 1) with false. replace (isclose 0 0) with true.
  2: { unfold isclose. destruct (Rle_dec _ _) as [|N]; [reflexivity|]. exfalso. apply N. rewrite Rminus_diag_eq, Rabs_R0 by reflexivity. simpl. lra. }
  2: { unfold isclose. destruct (Rle_dec _ _) as [L|]; [|reflexivity]. exfalso. replace (0 - 1) with (- (1)) in L by ring. rewrite Rabs_Ropp, Rabs_R1 in L. simpl in L. lra. }
  rewrite !norm_price_eq by assumption. unfold bach. cbn [set_fwd set_sigma sigma]. change (mF (set_sigma mo (b_sigma p)) S T) with F.
  change (mD (set_fwd (set_sigma mo (b_sigma p / F))) T) with (mD mo T). change (mD (set_sigma mo (b_sigma p)) T) with (mD mo T).
  change (mF (set_fwd (set_sigma mo (b_sigma p / F))) 1 T) with 1.
  pose proof eps_pos.
  replace ((1 - K / F) / (b_sigma p / F * sqrt T)) with ((F - K) / (b_sigma p * sqrt T)).
  2: { field. repeat match goal with |- _ /\ _ => split end; nra. }
  field. lra.
Qed.
Lemma npdf_lt_1 x : npdf x < 1.
Proof.
  unfold npdf. assert (H2 : 1 < sqrt (2 * PI)). { rewrite <- sqrt_1 at 1. apply sqrt_lt_1_alt. pose proof PI2_1. lra. }
  assert (exp (- (x * x) / 2) <= 1). { rewrite <- exp_0. destruct (Req_dec x 0) as [->|N]; [right; f_equal; field|]. left. apply exp_increasing. assert (0 < x * x) by nra. lra. }
  pose proof (exp_pos (- (x * x) / 2)).
  apply (Rmult_lt_reg_r (sqrt (2 * PI))); [lra|]. unfold Rdiv at 1. rewrite Rmult_assoc, Rinv_l by lra. lra.
Qed.
Lemma mc_negative_refuted : exists mo p K S T, b_beta p = 0 /\ 0 < b_sigma p /\ 0 < T /\ forall cevp,
  10 ^ 14 < sabr_mc_price cevp mo p false (fun _ => [(1, 1)]) K S T 1 /\ norm_price (set_sigma mo (b_sigma p)) K S T 1 < 1.
Proof.
  exists (mkOpt 0 0 0 true), (mkSabr 1 0 0 0), 0, (-1), 1. cbn [b_beta b_sigma]. split; [reflexivity|]. split; [lra|]. split; [lra|]. intros cevp. split.
  - unfold sabr_mc_price. change (forward (mkOpt 0 0 0 true) (-1) 1) with (-1). cbv zeta. cbn [b_beta]. destruct (Rlt_dec 0 0); [lra|].
    cbn [filter fst snd]. destruct (Rlt_dec (- 999) 1); [|lra]. cbn [map lsum fold_right fst snd length INR].
    assert (Ea : sabr_alpha (mkSabr 1 0 0 0) (-1) = -1).
    { unfold sabr_alpha, npow_s. cbn [b_sigma b_beta]. destruct (Req_EM_T (1 - 0) 1); [field|lra]. }
    rewrite Ea. unfold sabr_base_price. replace (isclose 0 1) with false. replace (isclose 0 0) with true.
    2: { unfold isclose. destruct (Rle_dec _ _) as [|N]; [reflexivity|]. exfalso. apply N. rewrite Rminus_diag_eq, Rabs_R0 by reflexivity. simpl. lra. }
    2: { unfold isclose. destruct (Rle_dec _ _) as [L|]; [|reflexivity]. exfalso. replace (0 - 1) with (- (1)) in L by ring. rewrite Rabs_Ropp, Rabs_R1 in L. simpl in L. lra. }
    unfold norm_price, norm_price_formula. cbn [set_fwd set_sigma sigma intr divr is_fwd]. rewrite sqrt_1.
    replace (-1 * 1 * 1) with (-1) by ring. assert (Hep := eps_pos). rewrite (Rmax_right (-1) eps) by lra.
    replace (- (1) * 0) with 0 by ring. rewrite exp_0. replace ((1 * 1 - 0 / -1) / eps) with (/ eps) by (field; lra).
    assert (Hie : / eps = 2 ^ 52) by (unfold eps; rewrite Rinv_inv; reflexivity). rewrite Hie.
    assert (Hge : / 2 <= Phi (1 * 1 * 2 ^ 52)).
    { rewrite <- Phi_0. assert (0 < 1 * 1 * 2 ^ 52) by (simpl; lra). left. apply Phi_incr. exact H. }
    rewrite Rmult_1_l.
    pose proof (npdf_pos (2 ^ 52)). assert (Hbig : 4 * 10 ^ 14 < 2 ^ 52) by (simpl; lra). set (B := 2 ^ 52) in *. clearbody B.
    replace (1 * B) with B by ring. replace (1 * 1 * B) with B in Hge by ring. replace (-1 * (-1 * (B * Phi B + npdf B) + 0) / 1) with (B * Phi B + npdf B) by field.
    assert (0 < 10 ^ 14) by (apply pow_lt; lra). set (M := 10 ^ 14) in *. clearbody M. nra.
  - assert (Hep := eps_small). rewrite norm_price_eq; [|cbn [set_sigma sigma]; rewrite sqrt_1; lra]. unfold bach, mD, mF, DF, FWD. cbn [set_sigma sigma intr divr is_fwd]. rewrite sqrt_1.
    replace (- (0 * 1)) with 0 by ring. rewrite exp_0.
    replace ((-1 - 0) / (1 * 1)) with (-1) by field.
    pose proof (Phi_pos (1 * -1)). assert (npdf (-1) < 1) by apply npdf_lt_1. lra.
Qed.
Lemma vol_step_martingale p dt : 0 <= dt -> gauss_expect (sabr_vol_step p dt) 1.
Proof.
  intros Hdt. unfold sabr_vol_step. cbv zeta. set (v := b_vov p * sqrt dt).
  apply (gauss_expect_ext (fun z => exp (- (v * v / 2)) * exp (v * z))). { intros z. rewrite <- exp_plus. f_equal. field. }
  replace 1 with (exp (- (v * v / 2)) * exp (v * v / 2)) by (rewrite <- exp_plus; replace (- (v * v / 2) + v * v / 2) with 0 by ring; apply exp_0).
  apply gauss_expect_scal, gauss_mgf.
Qed.
Lemma vol_step_second p dt : 0 <= dt -> gauss_expect (fun z => sabr_vol_step p dt z ^ 2) (exp (b_vov p ^ 2 * dt)).
Proof.
  intros Hdt. unfold sabr_vol_step. cbv zeta. set (v := b_vov p * sqrt dt).
  assert (Ev : b_vov p ^ 2 * dt = v * v) by (unfold v; replace (b_vov p * sqrt dt * (b_vov p * sqrt dt)) with (b_vov p ^ 2 * (sqrt dt * sqrt dt)) by ring; rewrite sqrt_sqrt by lra; reflexivity).
  rewrite Ev. apply (gauss_expect_ext (fun z => exp (- (v * v)) * exp (2 * v * z))). { intros z. rewrite <- exp_plus. replace (exp (v * (z - v / 2)) ^ 2) with (exp (v * (z - v / 2)) * exp (v * (z - v / 2))) by ring. rewrite <- exp_plus. f_equal. field. }
  replace (exp (v * v)) with (exp (- (v * v)) * exp (2 * v * (2 * v) / 2)) by (rewrite <- exp_plus; f_equal; field).
  apply gauss_expect_scal, gauss_mgf.
Qed.
Lemma vol_step_semigroup p t1 t2 z1 z2 : 0 < t1 -> 0 < t2 ->
  sabr_vol_step p t1 z1 * sabr_vol_step p t2 z2 = sabr_vol_step p (t1 + t2) ((sqrt t1 * z1 + sqrt t2 * z2) / sqrt (t1 + t2)).
Proof.
  intros H1 H2. unfold sabr_vol_step. cbv zeta. rewrite <- exp_plus. f_equal.
  assert (S1 : sqrt t1 * sqrt t1 = t1) by (apply sqrt_sqrt; lra). assert (S2 : sqrt t2 * sqrt t2 = t2) by (apply sqrt_sqrt; lra).
  assert (S3 : sqrt (t1 + t2) * sqrt (t1 + t2) = t1 + t2) by (apply sqrt_sqrt; lra). assert (P3 := sqrt_lt_R0 (t1 + t2) ltac:(lra)).
  set (a := sqrt t1) in *. set (b := sqrt t2) in *. set (c := sqrt (t1 + t2)) in *. set (v := b_vov p).
  replace (v * c * ((a * z1 + b * z2) / c - v * c / 2)) with (v * (a * z1 + b * z2) - v * v * (c * c) / 2) by (field; lra).
  rewrite S3, <- S1, <- S2. field.
Qed.
(** ** Chen-Oosterlee-Van der Weide step *)
Lemma chen_moments p dt s0 z m1 vs sk ku : 0 <= vs ->
  cond_avgvar_mvsk (b_vov p * sqrt dt) (z - b_vov p * sqrt dt / 2) = (m1, vs, sk, ku) ->
  gauss_expect (fun z2 => snd (sabr_step_chen p dt s0 z z2)) (s0 ^ 2 * m1) /\
  gauss_expect (fun z2 => snd (sabr_step_chen p dt s0 z z2) ^ 2) ((s0 ^ 2 * m1) ^ 2 * (1 + vs)).
Proof.
  intros Hvs E. unfold sabr_step_chen. rewrite E. cbv zeta. cbn [snd]. set (sg := sqrt (ln (1 + vs))).
  assert (Hl : 0 <= ln (1 + vs)). { destruct Hvs as [Hvs| <-]; [|rewrite Rplus_0_r, ln_1; lra]. left. rewrite <- ln_1. apply ln_increasing; lra. }
  assert (Hsg : sg * sg = ln (1 + vs)) by (apply sqrt_sqrt, Hl). set (A := s0 ^ 2 * m1). split.
  - apply (gauss_expect_ext (fun z2 => A * exp (- (sg * sg / 2)) * exp (sg * z2))). { intros x. rewrite Rmult_assoc, <- exp_plus. do 2 f_equal. field. }
    pose proof (gauss_expect_scal _ _ (A * exp (- (sg * sg / 2))) (gauss_mgf sg)) as G.
    replace (A * exp (- (sg * sg / 2)) * exp (sg * sg / 2)) with A in G
      by (rewrite Rmult_assoc, <- exp_plus; replace (- (sg * sg / 2) + sg * sg / 2) with 0 by ring; rewrite exp_0; ring).
    exact G.
  - apply (gauss_expect_ext (fun z2 => A ^ 2 * exp (- (sg * sg)) * exp (2 * sg * z2))).
    { intros x. rewrite Rpow_mult_distr, Rmult_assoc. f_equal. replace (exp (sg * (x - sg / 2)) ^ 2) with (exp (sg * (x - sg / 2)) * exp (sg * (x - sg / 2))) by ring. rewrite <- !exp_plus. f_equal. field. }
    replace (A ^ 2 * (1 + vs)) with (A ^ 2 * exp (- (sg * sg)) * exp (2 * sg * (2 * sg) / 2)).
    2: { rewrite Rmult_assoc, <- exp_plus. f_equal. replace (- (sg * sg) + 2 * sg * (2 * sg) / 2) with (sg * sg) by field. rewrite Hsg. apply exp_ln. lra. }
    apply gauss_expect_scal, gauss_mgf.
Qed.
(** ** the conditional forward ratio has no drift *)
Lemma cond_spot_driftfree p T fwd : 0 < T -> b_vov p <> 0 ->
  drift_free (b_vov p) (fun s j => fst (sabr_cond_spot_sigma p T fwd s j)).
Proof.
  intros HT Hv. unfold sabr_cond_spot_sigma. cbv zeta. cbn [fst]. set (ra := b_rho p * sabr_alpha p fwd). set (v := b_vov p) in *.
  destruct (isclose (b_beta p) 0).
  - exists (fun _ _ => ra / v), (fun _ _ => 0), (fun _ _ => 0). intros s j. split; [|split; [|split]].
    + auto_derive; [exact I|]. Req. ring.
    + apply @is_derive_const.
    + apply @is_derive_const.
    + ring.
  - set (f := fun s j => exp (ra * (1 / v * (s - 1) - / 2 * ra * (j / T) * T))).
    exists (fun s j => ra / v * f s j), (fun s j => (ra / v) ^ 2 * f s j), (fun s j => - / 2 * ra ^ 2 * f s j). intros s j. unfold f. split; [|split; [|split]].
    + auto_derive; [exact I|]. Req. unfold Rdiv, Rminus. ring.
    + auto_derive; [exact I|]. Req. unfold Rdiv, Rminus. ring.
    + auto_derive; [exact I|]. Req. unfold Rdiv, Rminus. field. lra.
    + field. exact Hv.
Qed.
Lemma cond_spot_start p T fwd : 0 < T -> fst (sabr_cond_spot_sigma p T fwd 1 0) = 1.
Proof.
  intros HT. unfold sabr_cond_spot_sigma. cbv zeta. cbn [fst]. destruct (isclose _ _); [unfold Rdiv; ring|].
  transitivity (exp 0); [f_equal; unfold Rdiv; ring|apply exp_0].
Qed.
(** ** log return: its conditional expectation is the conditional-forward formula *)
Lemma log_return_mean mo p dt s0 st av : 0 <= dt -> 0 <= av -> -1 <= b_rho p <= 1 ->
  gauss_expect (fun zn => exp (sabr_log_return mo p dt s0 st av zn))
    (exp ((intr mo - divr mo) * dt) * exp (b_rho p / b_vov p * (st - s0) - / 2 * b_rho p ^ 2 * (av * dt))).
Proof.
  intros Hdt Hav Hr. unfold sabr_log_return. set (q := (1 - b_rho p ^ 2) * dt * av).
  assert (Hq : 0 <= q) by (unfold q; apply Rmult_le_pos; [apply Rmult_le_pos; [nra|lra]|lra]).
  assert (Hss : sqrt q * sqrt q = q) by (apply sqrt_sqrt, Hq).
  set (B := (intr mo - divr mo) * dt + b_rho p / b_vov p * (st - s0) - / 2 * av * dt).
  apply (gauss_expect_ext (fun zn => exp B * exp (sqrt q * zn))). { intros x. rewrite <- exp_plus. reflexivity. }
  replace (exp ((intr mo - divr mo) * dt) * exp (b_rho p / b_vov p * (st - s0) - / 2 * b_rho p ^ 2 * (av * dt))) with (exp B * exp (sqrt q * sqrt q / 2)).
  2: { rewrite Hss, <- !exp_plus. f_equal. unfold B, q. generalize (b_rho p / b_vov p). intros w. field. } 
  apply gauss_expect_scal, gauss_mgf.
Qed.
