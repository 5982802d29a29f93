(** C37: hyperbolic-normal SV model with lambda = 1 (Nsvh1). *)
From Coq Require Import Reals Lra Lia List Psatz.
From Coquelicot Require Import Coquelicot.
From Verif Require Import Base Gauss Sums M_Opt M_Mgf M_Heston M_Fd M_Sabr Spec_Opt Spec_Expect Spec_Sabr P_Bsm P_Norm P_Expect P_Kink.
Import ListNotations.
Open Scope R_scope.

(** ** arcsinh, arctanh *)
Lemma ash_arg x : 0 < x + sqrt (x ^ 2 + 1).
Proof.
  assert (Rabs x < sqrt (x ^ 2 + 1)). { rewrite <- (sqrt_pow2 (Rabs x)) by apply Rabs_pos. apply sqrt_lt_1_alt. rewrite pow2_abs. pose proof (pow2_ge_0 x). lra. }
  pose proof (Rle_abs (- x)). rewrite Rabs_Ropp in H0. lra.
Qed.
Lemma ash_spec x : exp (arcsinh_np x) - exp (- arcsinh_np x) = 2 * x.
Proof.
  pose proof (ash_arg x) as P. unfold arcsinh_np. rewrite exp_Ropp, exp_ln by exact P.
  assert (E : / (x + sqrt (x ^ 2 + 1)) = sqrt (x ^ 2 + 1) - x).
  { apply (Rmult_eq_reg_l (x + sqrt (x ^ 2 + 1))); [|lra]. rewrite Rinv_r by lra.
    assert (S : sqrt (x ^ 2 + 1) * sqrt (x ^ 2 + 1) = x ^ 2 + 1) by (apply sqrt_sqrt; pose proof (pow2_ge_0 x); lra). nra. }
  rewrite E. ring.
Qed.
Lemma sinh_incr a b : a < b -> exp a - exp (- a) < exp b - exp (- b).
Proof. intros H. pose proof (exp_increasing a b H). pose proof (exp_increasing (- b) (- a) ltac:(lra)). lra. Qed.
Lemma sinh_lt_iff a b : exp a - exp (- a) < exp b - exp (- b) <-> a < b.
Proof.
  split; [|apply sinh_incr]. intros H. destruct (Rlt_le_dec a b) as [|L]; [assumption|]. exfalso.
  destruct L as [L| ->]; [pose proof (sinh_incr b a L); lra|lra].
Qed.
Lemma ash_odd x : arcsinh_np (- x) = - arcsinh_np x.
Proof.
  destruct (Rtotal_order (arcsinh_np (- x)) (- arcsinh_np x)) as [L|[E|L]]; [|exact E|]; exfalso;
    apply sinh_incr in L; pose proof (ash_spec x); pose proof (ash_spec (- x)); rewrite Ropp_involutive in L; lra.
Qed.
Lemma ath_spec r : -1 < r < 1 -> exp (arctanh_np r) = sqrt ((1 + r) / (1 - r)).
Proof.
  intros Hr. assert (P : 0 < (1 + r) / (1 - r)) by (apply Rdiv_lt_0_compat; lra). unfold arctanh_np.
  rewrite <- Rpower_sqrt by exact P. unfold Rpower. f_equal. 
Qed.
Lemma rhoc_ath r : -1 < r < 1 -> sqrt (1 - r ^ 2) * exp (arctanh_np r) = 1 + r /\ sqrt (1 - r ^ 2) * exp (- arctanh_np r) = 1 - r.
Proof.
  intros Hr. assert (P : 0 < (1 + r) / (1 - r)) by (apply Rdiv_lt_0_compat; lra). assert (Q : 0 < 1 - r ^ 2) by nra.
  assert (A : sqrt (1 - r ^ 2) * exp (arctanh_np r) = 1 + r).
  { rewrite ath_spec by exact Hr. rewrite <- sqrt_mult by lra. replace ((1 - r ^ 2) * ((1 + r) / (1 - r))) with ((1 + r) ^ 2) by (field; lra). apply sqrt_pow2. lra. }
  split; [exact A|]. rewrite exp_Ropp. pose proof (exp_pos (arctanh_np r)) as E. set (e := exp _) in *.
  assert (S : sqrt (1 - r ^ 2) * sqrt (1 - r ^ 2) = 1 - r ^ 2) by (apply sqrt_sqrt; lra). pose proof (sqrt_lt_R0 _ Q). set (s := sqrt _) in *.
  apply (Rmult_eq_reg_r e); [|lra]. rewrite Rmult_assoc, Rinv_l, Rmult_1_r by lra. apply (Rmult_eq_reg_l s); [|lra].
  replace (s * ((1 - r) * e)) with ((1 - r) * (s * e)) by ring. rewrite A, S. ring.
Qed.

Section N1.
Variables (F sig nu rho T : R).
Hypotheses (Hs : 0 < sig) (Hnu : 0 < nu) (Hr : -1 < rho < 1) (HT : 0 < T).
Let v := nu * sqrt T.
Let X := nsvh1_terminal F sig nu rho v.
Lemma v_pos : 0 < v. Proof. unfold v. apply Rmult_lt_0_compat; [exact Hnu|apply sqrt_lt_R0, HT]. Qed.
Lemma ratio_eq : sig * sqrt T / v = sig / nu. Proof. unfold v. pose proof (sqrt_lt_R0 T HT). field. lra. Qed.
Definition ll (K : R) : list (R * R) := [(sig / nu * ((1 + rho) / 2), v); (- (sig / nu * ((1 - rho) / 2)), - v); (F - K - sig / nu * (rho * exp (v ^ 2 / 2)), 0)].
Lemma X_ef K z : X z - K = ef (ll K) z.
Proof.
  unfold X, nsvh1_terminal, ef, ll. cbn [map lsum fold_right fst snd]. rewrite Rmult_0_l, exp_0. replace (- v * z) with (- (v * z)) by ring. ring.
Qed.
Definition dd (K : R) := nsvh1_d rho v (sig * sqrt T) (F - K).
(** the exercise event is {z > - d} *)
Lemma X_gt K z : K < X z <-> - dd K < z.
Proof.
  pose proof v_pos as Hv. assert (Hq : 0 < 1 - rho ^ 2) by nra. assert (Hc := sqrt_lt_R0 _ Hq). destruct (rhoc_ath rho Hr) as [A1 A2].
  set (rc := sqrt (1 - rho ^ 2)) in *. set (th := arctanh_np rho) in *.
  set (y := ((F - K) * v / (sig * sqrt T) - rho * exp (/ 2 * v ^ 2)) / rc).
  assert (Ed : dd K = (th + arcsinh_np y) / v) by reflexivity.
  assert (EX : X z - K = sig / nu * rc / 2 * ((exp (v * z + th) - exp (- (v * z + th))) - (exp (arcsinh_np (- y)) - exp (- arcsinh_np (- y))))).
  { rewrite ash_spec. unfold X, nsvh1_terminal. replace (- (v * z + th)) with (- (v * z) + - th) by ring. rewrite !exp_plus, <- A1, <- A2.
    unfold y. replace ((F - K) * v / (sig * sqrt T)) with ((F - K) / (sig / nu)) by (rewrite <- ratio_eq; pose proof (sqrt_lt_R0 T HT); field; lra).
    replace (rho * exp (/ 2 * v ^ 2)) with (rho * exp (v ^ 2 / 2)) by (do 2 f_equal; field). field. lra. }
  assert (Hk : 0 < sig / nu * rc / 2) by (apply Rmult_lt_0_compat; [apply Rmult_lt_0_compat; [apply Rdiv_lt_0_compat; assumption|exact Hc]|lra]).
  rewrite ash_odd in EX. set (k := sig / nu * rc / 2) in *.
  assert (E2 : - dd K < z <-> - arcsinh_np y < v * z + th).
  { rewrite Ed. split; intros H.
    - apply (Rmult_lt_compat_l v) in H; [|exact Hv]. replace (v * - ((th + arcsinh_np y) / v)) with (- (th + arcsinh_np y)) in H by (field; lra). lra.
    - apply (Rmult_lt_reg_l v); [exact Hv|]. replace (v * - ((th + arcsinh_np y) / v)) with (- (th + arcsinh_np y)) by (field; lra). lra. }
  rewrite E2, <- (sinh_lt_iff (- arcsinh_np y) (v * z + th)). set (u := exp (v * z + th) - exp (- (v * z + th))) in *. set (w := exp (- arcsinh_np y) - exp (- - arcsinh_np y)) in *.
  clearbody u w k. clearbody X. split; intros H; [apply (Rmult_lt_reg_l k); lra|assert (0 < k * (u - w)) by (apply Rmult_lt_0_compat; lra); lra].
Qed.
Lemma nsvh1_val K : forall df cp, call_or_put cp ->
  (/ 2 * (sig * sqrt T) / v * exp (/ 2 * v ^ 2) * ((1 + rho) * Phi (cp * (dd K + v)) - (1 - rho) * Phi (cp * (dd K - v)) - 2 * rho * Phi (cp * dd K))
   + (F - K) * Phi (cp * dd K)) * (cp * df)
  = df * (if Rlt_dec 0 cp then lsum (map (fun x => fst x * exp (snd x * snd x / 2) * Phi (snd x - - dd K)) (ll K))
          else lsum (map (fun x => - fst x * exp (snd x * snd x / 2) * Phi (- dd K - snd x)) (ll K))).
Proof.
  intros df cp Hcp. pose proof v_pos as Hv. unfold ll. cbn [map lsum fold_right fst snd].
  replace (/ 2 * (sig * sqrt T) / v) with (sig / nu / 2) by (rewrite <- ratio_eq; field; lra).
  replace (exp (0 * 0 / 2)) with 1 by (symmetry; rewrite <- exp_0; f_equal; field).
  replace (exp (- v * - v / 2)) with (exp (v ^ 2 / 2)) by (f_equal; field). replace (exp (v * v / 2)) with (exp (v ^ 2 / 2)) by (f_equal; field).
  replace (/ 2 * v ^ 2) with (v ^ 2 / 2) by field. set (h := exp (v ^ 2 / 2)). set (d := dd K).
  destruct Hcp as [-> | ->].
  - destruct (Rlt_dec 0 1); [|lra]. replace (v - - d) with (1 * (d + v)) by ring. replace (- v - - d) with (1 * (d - v)) by ring. replace (0 - - d) with (1 * d) by ring. field. lra.
  - destruct (Rlt_dec 0 (-1)); [lra|]. replace (- d - v) with (-1 * (d + v)) by ring. replace (- d - - v) with (-1 * (d - v)) by ring. replace (- d - 0) with (-1 * d) by ring. field. lra.
Qed.
Lemma nsvh1_kink K cp : call_or_put cp ->
  gauss_expect (fun z => payoff cp K (X z))
   (if Rlt_dec 0 cp then lsum (map (fun x => fst x * exp (snd x * snd x / 2) * Phi (snd x - - dd K)) (ll K))
    else lsum (map (fun x => - fst x * exp (snd x * snd x / 2) * Phi (- dd K - snd x)) (ll K))).
Proof.
  intros Hcp. destruct (kink_expect (ll K) (- dd K)) as [C P].
  - intros z Hz. rewrite <- X_ef. destruct (Rlt_le_dec K (X z)) as [L|L]; [apply X_gt in L; lra|lra].
  - intros z Hz. rewrite <- X_ef. apply X_gt in Hz. lra.
  - destruct Hcp as [-> | ->].
    + destruct (Rlt_dec 0 1); [|lra]. revert C. apply gauss_expect_ext. intros z. unfold payoff. rewrite <- X_ef. f_equal. ring.
    + destruct (Rlt_dec 0 (-1)); [lra|]. revert P. apply gauss_expect_ext. intros z. unfold payoff. rewrite <- X_ef. f_equal. ring.
Qed.
End N1.

Lemma nsvh1_expect mo p K S T cp : call_or_put cp -> 0 < b_sigma p -> 0 < b_vov p -> -1 < b_rho p < 1 -> 0 < T ->
  gauss_expect (fun z => DF (intr mo) T * payoff cp K
      (nsvh1_terminal (FWD (intr mo) (divr mo) (is_fwd mo) S T) (b_sigma p) (b_vov p) (b_rho p) (b_vov p * sqrt T) z))
    (nsvh1_price mo p false K S T cp).
Proof.
  intros Hcp Hs Hv Hr HT. unfold nsvh1_price. rewrite fdd_eq. cbv zeta. change (mF mo S T) with (FWD (intr mo) (divr mo) (is_fwd mo) S T).
  set (F := FWD _ _ _ _ _). change (mD mo T) with (DF (intr mo) T).
  pose proof (nsvh1_val F (b_sigma p) (b_vov p) (b_rho p) T Hv HT K (DF (intr mo) T) cp Hcp) as E. unfold dd in E. rewrite E.
  apply gauss_expect_scal. apply (nsvh1_kink F (b_sigma p) (b_vov p) (b_rho p) T); assumption.
Qed.
Lemma nsvh1_parity mo p atm K S T :
  nsvh1_price mo p atm K S T 1 - nsvh1_price mo p atm K S T (-1) = DF (intr mo) T * (FWD (intr mo) (divr mo) (is_fwd mo) S T - K).
Proof.
  unfold nsvh1_price. rewrite fdd_eq. cbv zeta. change (mF mo S T) with (FWD (intr mo) (divr mo) (is_fwd mo) S T). change (mD mo T) with (DF (intr mo) T).
  set (d := nsvh1_d _ _ _ _). set (v := b_vov p * sqrt T).
  replace (-1 * (d + v)) with (- (d + v)) by ring. replace (-1 * (d - v)) with (- (d - v)) by ring. replace (-1 * d) with (- d) by ring.
  rewrite !Phi_opp, !Rmult_1_l. ring.
Qed.
Lemma nsvh1_cdf_event mo p K S T : 0 < b_sigma p -> 0 < b_vov p -> -1 < b_rho p < 1 -> 0 < T ->
  exists c, (forall z, K < nsvh1_terminal (FWD (intr mo) (divr mo) (is_fwd mo) S T) (b_sigma p) (b_vov p) (b_rho p) (b_vov p * sqrt T) z <-> c < z) /\
    nsvh1_cdf mo p K S T 1 = 1 - Phi c /\ nsvh1_cdf mo p K S T (-1) = Phi c.
Proof.
  intros Hs Hv Hr HT. set (F := FWD _ _ _ _ _). exists (- dd F (b_sigma p) (b_vov p) (b_rho p) T K). split; [|split].
  - intros z. apply X_gt; assumption.
  - unfold nsvh1_cdf. change (forward mo S T) with F. cbv zeta. rewrite Rmult_1_l. unfold dd. rewrite Phi_opp. ring.
  - unfold nsvh1_cdf. change (forward mo S T) with F. cbv zeta. unfold dd. f_equal. ring.
Qed.
(** ** at-the-money calibration *)
Lemma nsvh1_atm mo p S T cp : call_or_put cp -> 0 < b_sigma p -> 0 < b_vov p -> -1 < b_rho p < 1 -> 0 < T -> eps <= b_sigma p * sqrt T ->
  let F := FWD (intr mo) (divr mo) (is_fwd mo) S T in
  nsvh1_price mo p true F S T cp = norm_price (set_sigma mo (b_sigma p)) F S T cp.
Proof.
  intros Hcp Hs Hv Hr HT He F. pose proof (sqrt_lt_R0 T HT) as HsT. assert (Hq : 0 < 1 - b_rho p ^ 2) by nra. assert (Hrc := sqrt_lt_R0 _ Hq).
  assert (Hvn : 0 < b_vov p * sqrt T) by (apply Rmult_lt_0_compat; assumption).
  rewrite norm_price_eq by exact He. cbn [set_sigma sigma]. change (mF (set_sigma mo (b_sigma p)) S T) with F. change (mD (set_sigma mo (b_sigma p)) T) with (DF (intr mo) T).
  assert (En : bach (b_sigma p * sqrt T) (F - F) cp = b_sigma p * sqrt T / sqrt (2 * PI)).
  { unfold bach. replace (F - F) with 0 by ring. unfold Rdiv at 2. rewrite Rmult_0_l. unfold npdf. replace (- (0 * 0) / 2) with 0 by field. rewrite exp_0. unfold Rdiv. ring. }
  rewrite En. unfold nsvh1_price. rewrite fdd_eq. change (mF mo S T) with F. change (mD mo T) with (DF (intr mo) T). cbv zeta.
  set (sg := nsvh1_sig0 p T). set (v := b_vov p * sqrt T) in *. set (h := exp (/ 2 * v ^ 2)). set (rc := sqrt (1 - b_rho p ^ 2)) in *.
  set (d := (arctanh_np (b_rho p) - arcsinh_np (b_rho p * h / rc)) / v).
  assert (Ed : nsvh1_d (b_rho p) v (sg * sqrt T) (F - F) = d).
  { unfold nsvh1_d, d. cbv zeta. fold h rc. replace ((F - F) * v / (sg * sqrt T)) with 0 by (unfold Rdiv; ring).
    replace ((0 - b_rho p * h) / rc) with (- (b_rho p * h / rc)) by (field; lra). rewrite ash_odd. reflexivity. }
  rewrite Ed. replace ((F - F) * Phi (cp * d)) with 0 by ring.
  set (Q := (1 + b_rho p) * Phi (d + v) - (1 - b_rho p) * Phi (d - v) - 2 * b_rho p * Phi d).
  assert (HQ : 0 < Q).
  { unfold Q. pose proof (Phi_incr d (d + v) ltac:(lra)). pose proof (Phi_incr (d - v) d ltac:(lra)). nra. }
  assert (Hh : 0 < h) by apply exp_pos.
  assert (Esg : sg = b_sigma p * sqrt (T / 2 / PI) / (/ 2 / b_vov p * h * Q)) by reflexivity.
  assert (Ecp : ((1 + b_rho p) * Phi (cp * (d + v)) - (1 - b_rho p) * Phi (cp * (d - v)) - 2 * b_rho p * Phi (cp * d)) * cp = Q).
  { unfold Q. destruct Hcp as [-> | ->]; [rewrite !Rmult_1_l; ring|].
    replace (-1 * (d + v)) with (- (d + v)) by ring. replace (-1 * (d - v)) with (- (d - v)) by ring. replace (-1 * d) with (- d) by ring. rewrite !Phi_opp. ring. }
  transitivity (DF (intr mo) T * (/ 2 * (sg * sqrt T) / v * h * (((1 + b_rho p) * Phi (cp * (d + v)) - (1 - b_rho p) * Phi (cp * (d - v)) - 2 * b_rho p * Phi (cp * d)) * cp))); [ring|].
  rewrite Ecp, Esg. f_equal.
  assert (Esq : sqrt (T / 2 / PI) = sqrt T / sqrt (2 * PI)).
  { pose proof PI_RGT_0. rewrite <- sqrt_div by lra. f_equal. field. lra. }
  rewrite Esq. pose proof sqrt_2PI_pos. unfold v. field. repeat match goal with |- _ /\ _ => split end; lra.
Qed.
