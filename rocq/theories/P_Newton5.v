(** The starting point of Bsm.impvol never exceeds the implied volatility. *)
From Coq Require Import Reals Lra Lia Psatz ZArith.
From Coquelicot Require Import Coquelicot.
From Verif Require Import Base Gauss P_Black M_Opt P_Bsm P_Impvol P_ImpvolRun P_Newton P_Newton2 P_Newton3 P_Newton4.
Open Scope R_scope.

Definition rr (x : R) : R := / gn 0 x + x.
Lemma rr_eq x : rr x = gn 1 x / gn 0 x.
Proof. unfold rr. rewrite gn_1. pose proof (gn_pos 0 x). field. lra. Qed.
Lemma rr_mono a b : a <= b -> rr a <= rr b.
Proof.
  intros H. apply (nondecreasing_on rr (fun x => - gn 1 x / gn 0 x ^ 2 + 1)); [exact H| |].
  - intros z _. unfold rr. pose proof (gn_pos 0 z) as P. pose proof (gn_derive 0 z) as D. set (f := gn 0) in *. assert (E : ex_derive f z) by (eexists; exact D). assert (V : Derive f z = gn 1 z) by (now apply is_derive_unique).
    clearbody f. auto_derive; [split; [exact E|lra]|]. change (Derive (fun x => f x) z) with (Derive f z). rewrite V. Req. field. lra.
  - intros z _. pose proof (gn_pos 0 z) as P. pose proof (sampford z) as S. assert (0 < gn 0 z ^ 2) by (apply pow_lt; exact P).
    assert (gn 1 z / gn 0 z ^ 2 <= 1); [|unfold Rdiv in *; lra]. apply (Rmult_le_reg_r (gn 0 z ^ 2)); [lra|]. replace (gn 1 z / gn 0 z ^ 2 * gn 0 z ^ 2) with (gn 1 z) by (field; lra). lra.
Qed.
Definition GG (x : R) : R := gn 0 x * gn 0 (- x).
Lemma GG_even x : GG (- x) = GG x.
Proof. unfold GG. rewrite Ropp_involutive. ring. Qed.
Lemma GG_mono a b : a <= b -> b <= 0 -> GG b <= GG a.
Proof.
  intros H Hb. apply Ropp_le_cancel. apply (nondecreasing_on (fun x => - GG x) (fun x => - (gn 1 x * gn 0 (- x) - gn 0 x * gn 1 (- x)))); [exact H| |].
  - intros z _. unfold GG. pose proof (gn_derive 0 z) as D. pose proof (gn_derive 0 (- z)) as D'. set (f := gn 0) in *.
    assert (E : ex_derive f z) by (eexists; exact D). assert (V : Derive f z = gn 1 z) by (now apply is_derive_unique).
    assert (E' : ex_derive f (- z)) by (eexists; exact D'). assert (V' : Derive f (- z) = gn 1 (- z)) by (now apply is_derive_unique).
    clearbody f. auto_derive; [now repeat split|]. change (Derive (fun x => f x) z) with (Derive f z). change (Derive (fun x => f x) (- z)) with (Derive f (- z)). rewrite V, V'. Req. ring.
  - intros z Hz. pose proof (rr_mono z (- z) ltac:(lra)) as R. rewrite !rr_eq in R. pose proof (gn_pos 0 z) as P. pose proof (gn_pos 0 (- z)) as P'.
    apply (Rmult_le_compat_r (gn 0 z * gn 0 (- z))) in R; [|apply Rmult_le_pos; lra].
    replace (gn 1 z / gn 0 z * (gn 0 z * gn 0 (- z))) with (gn 1 z * gn 0 (- z)) in R by (field; lra).
    replace (gn 1 (- z) / gn 0 (- z) * (gn 0 z * gn 0 (- z))) with (gn 0 z * gn 1 (- z)) in R by (field; lra). lra.
Qed.
Lemma GG_ge a b : b < 0 -> b <= a -> a + b <= 0 -> GG a <= GG b.
Proof.
  intros Hb H1 H2. destruct (Rle_dec a 0) as [A|A]; [now apply GG_mono|]. rewrite <- (GG_even a). apply GG_mono; lra.
Qed.
(** lower bound on d1 *)
Definition qlow (p lk : R) : R := p * (exp lk + p) / (2 * p + (exp lk - 1)).
Lemma exp_lk_ge lk : 0 <= lk -> 1 <= exp lk.
Proof. intros H. rewrite <- exp_0. destruct H as [H|<-]; [left; now apply exp_increasing|lra]. Qed.
Lemma qlow_bound s lk p : 0 < s -> 0 <= lk -> cstd s lk = p -> 0 < qlow p lk <= Phi (dd1 s lk).
Proof.
  intros Hs Hl E. pose proof (cstd_pos s lk Hs) as Hp. rewrite E in Hp. pose proof (exp_lk_ge lk Hl) as Hk. unfold qlow. set (k := exp lk) in *.
  split; [apply Rdiv_lt_0_compat; [apply Rmult_lt_0_compat|]; lra|].
  pose proof (GG_ge (dd1 s lk) (dd2 s lk) (dd2_neg s lk Hs Hl) ltac:(pose proof (dd_diff s lk); lra)) as G.
  assert (Hsum : dd1 s lk + dd2 s lk <= 0). { unfold dd1, dd2. assert (0 <= lk / s) by (apply Rmult_le_pos; [lra|left; now apply Rinv_0_lt_compat]). unfold Rdiv in *. lra. }
  specialize (G Hsum). unfold GG in G. cbn [gn] in G. rewrite !npdf_even, !Phi_opp in G.
  pose proof (black_core s 1 k Hs ltac:(lra) (exp_pos lk)) as Hc. replace (1 / k) with (exp (- lk)) in Hc by (unfold k; rewrite exp_Ropp; field; apply Rgt_not_eq, exp_pos). rewrite ln_exp, Rmult_1_l in Hc.
  change (npdf (dd1 s lk) = k * npdf (dd2 s lk)) in Hc.
  assert (Ep : p = Phi (dd1 s lk) - k * Phi (dd2 s lk)).
  { rewrite <- E. unfold cstd, black. fold k. replace (1 / k) with (exp (- lk)) by (unfold k; rewrite exp_Ropp; field; apply Rgt_not_eq, exp_pos). rewrite ln_exp, !Rmult_1_l. reflexivity. }
  rewrite Hc in G. pose proof (npdf_pos (dd2 s lk)) as N2. set (a := Phi (dd1 s lk)) in *. set (b := Phi (dd2 s lk)) in *. set (n := npdf (dd2 s lk)) in *. clearbody k a b n.
  assert (G2 : a * (1 - a) <= k ^ 2 * (b * (1 - b))).
  { replace (a / (k * n) * ((1 - a) / (k * n))) with (a * (1 - a) / (k ^ 2 * n ^ 2)) in G by (field; lra). replace (b / n * ((1 - b) / n)) with (k ^ 2 * (b * (1 - b)) / (k ^ 2 * n ^ 2)) in G by (field; lra).
    apply (Rmult_le_reg_r (/ (k ^ 2 * n ^ 2))); [|exact G]. apply Rinv_0_lt_compat. apply Rmult_lt_0_compat; apply pow_lt; lra. }
  apply (Rmult_le_reg_r (2 * p + (k - 1))); [lra|]. replace (p * (k + p) / (2 * p + (k - 1)) * (2 * p + (k - 1))) with (p * (k + p)) by (field; lra).
  rewrite Ep. clear - G2. lra.
Qed.
Lemma dd1_reg s u lk : 0 <= lk -> 0 < s -> 0 < u -> dd1 s lk <= dd1 u lk -> s <= u.
Proof.
  intros Hl Hs Hu H. destruct (Rle_dec s u) as [A|A]; [exact A|]. exfalso. apply Rnot_le_lt in A.
  assert (lk / s <= lk / u). { unfold Rdiv. apply Rmult_le_compat_l; [exact Hl|]. apply Rinv_le_contravar; lra. } unfold dd1, Rdiv in *. lra.
Qed.
(** the small at-the-money start *)
Definition s0f (p : R) : R := sqrt (2 * PI) * p * (1 + PI * p ^ 2 / 12).
Lemma atm_small p : 0 < p -> 0 < s0f p /\ cstd (s0f p) 0 <= p.
Proof.
  intros Hp. pose proof sqrt_2PI_pos as Hq. pose proof PI_RGT_0 as HPI.
  assert (Hpos : 0 < s0f p). { unfold s0f. assert (0 <= PI * p ^ 2 / 12). { apply Rmult_le_pos; [|lra]. apply Rmult_le_pos; [lra|apply pow2_ge_0]. } apply Rmult_lt_0_compat; [now apply Rmult_lt_0_compat|lra]. }
  split; [exact Hpos|].
  assert (E : cstd (s0f p) 0 = Phi (s0f p / 2) - Phi (- (s0f p / 2))).
  { unfold cstd, black. rewrite exp_0. replace (1 / 1) with 1 by field. rewrite ln_1, !Rmult_1_l. f_equal; [|f_equal]; f_equal; field; lra. }
  rewrite E. pose (f := fun p => p - (Phi (s0f p / 2) - Phi (- (s0f p / 2)))).
  pose (df := fun p => 1 - npdf (s0f p / 2) * (sqrt (2 * PI) * (1 + PI * p ^ 2 / 4))).
  pose proof (nondecreasing_on f df 0 p ltac:(lra)) as H. enough (H0 : f 0 <= f p).
  { unfold f in H0. unfold s0f at 1 2 in H0. replace (sqrt (2 * PI) * 0 * (1 + PI * 0 ^ 2 / 12) / 2) with 0 in H0 by field. rewrite Ropp_0 in H0. lra. }
  apply H.
  - intros z Hz. unfold f, df. assert (Ds : is_derive s0f z (sqrt (2 * PI) * (1 + PI * z ^ 2 / 4))) by (unfold s0f; auto_derive; [exact I|]; Req; field).
    pose proof (is_derive_Phi (s0f z / 2)) as D1. pose proof (is_derive_Phi (- (s0f z / 2))) as D2. rewrite npdf_even in D2.
    assert (Es : ex_derive s0f z) by (eexists; exact Ds). assert (Vs : Derive s0f z = sqrt (2 * PI) * (1 + PI * z ^ 2 / 4)) by (now apply is_derive_unique).
    assert (E1 : ex_derive Phi (s0f z / 2)) by (eexists; exact D1). assert (V1 : Derive Phi (s0f z / 2) = npdf (s0f z / 2)) by (now apply is_derive_unique).
    assert (E2 : ex_derive Phi (- (s0f z / 2))) by (eexists; exact D2). assert (V2 : Derive Phi (- (s0f z / 2)) = npdf (s0f z / 2)) by (now apply is_derive_unique).
    set (g := s0f) in *. set (P := Phi) in *. clearbody g P. auto_derive; [now repeat split|].
    change (Derive (fun x => g x) z) with (Derive g z). change (Derive (fun x => P x) (g z / 2)) with (Derive P (g z / 2)). change (Derive (fun x => P x) (- (g z / 2))) with (Derive P (- (g z / 2))).
    change (Derive (fun x => P x) (g z * / 2)) with (Derive P (g z / 2)). change (Derive (fun x => P x) (- (g z * / 2))) with (Derive P (- (g z / 2))).
    rewrite Vs, V1, V2. Req. field.
  - intros z Hz. unfold df. unfold npdf. set (x := s0f z / 2).
    replace (exp (- (x * x) / 2) / sqrt (2 * PI) * (sqrt (2 * PI) * (1 + PI * z ^ 2 / 4))) with (exp (- (x * x) / 2) * (1 + PI * z ^ 2 / 4)) by (field; lra).
    assert (X : PI * z ^ 2 / 4 <= x * x / 2).
    { unfold x, s0f. replace (sqrt (2 * PI) * z * (1 + PI * z ^ 2 / 12) / 2 * (sqrt (2 * PI) * z * (1 + PI * z ^ 2 / 12) / 2) / 2) with ((sqrt (2 * PI) * sqrt (2 * PI)) * z ^ 2 * (1 + PI * z ^ 2 / 12) ^ 2 / 8) by field.
      rewrite sqrt_sqrt by lra. assert (0 <= PI * z ^ 2). { apply Rmult_le_pos; [lra|apply pow2_ge_0]. } set (y := PI * z ^ 2) in *. replace (2 * PI * z ^ 2) with (2 * y) by (unfold y; ring). clearbody y. nra. }
    set (y := PI * z ^ 2 / 4) in *. pose proof (exp_ineq1_le y) as He. pose proof (exp_pos y) as Py.
    assert (exp (- (x * x) / 2) <= exp (- y)) by (apply exp_le; lra). rewrite exp_Ropp in *. assert (Hy : 0 <= y). { unfold y. apply Rmult_le_pos; [|lra]. apply Rmult_le_pos; [lra|apply pow2_ge_0]. }
    assert (exp (- (x * x) / 2) * (1 + y) <= / exp y * exp y) by (apply Rmult_le_compat; [left; apply exp_pos|lra|assumption|exact He]). rewrite Rinv_l in * by lra. lra.
Qed.
Lemma npdf_le1 x : npdf x <= 1.
Proof.
  unfold npdf. pose proof sqrt_2PI_pos as Hq. assert (1 <= sqrt (2 * PI)). { rewrite <- sqrt_1 at 1. apply sqrt_le_1_alt. pose proof PI2_1. lra. }
  assert (exp (- (x * x) / 2) <= 1). { rewrite <- exp_0. apply exp_le. nra. } apply (Rmult_le_reg_r (sqrt (2 * PI))); [exact Hq|].
  replace (exp (- (x * x) / 2) / sqrt (2 * PI) * sqrt (2 * PI)) with (exp (- (x * x) / 2)) by (field; lra). lra.
Qed.
Lemma cstd_root lk p : 0 <= lk -> 0 < p < 1 -> exists t, 0 < t /\ cstd t lk = p.
Proof.
  intros Hl Hp. destruct (black_lim_inf 1 (exp lk) ltac:(lra) (exp_pos lk) p ltac:(lra)) as (s1 & H1 & B1). fold (cstd s1 lk) in B1.
  set (a := Rmin (p / 2) (/ 250)). assert (Ha : 0 < a) by (apply Rmin_glb_lt; lra). assert (Ha1 : a <= p / 2) by apply Rmin_l. assert (Ha2 : a <= / 250) by apply Rmin_r. clearbody a.
  assert (A : cstd a lk < p).
  { rewrite cstd_pv by exact Ha. assert (dd1 a lk <= / 500). { unfold dd1. assert (0 <= lk / a) by (apply Rmult_le_pos; [lra|left; now apply Rinv_0_lt_compat]). unfold Rdiv in *. lra. }
    pose proof (pv_le a lk Ha H) as L. pose proof (pv_pos a lk Ha). pose proof (npdf_le1 (dd1 a lk)). pose proof (npdf_pos (dd1 a lk)).
    apply Rle_lt_trans with (1 * (101 / 100 * a)); [apply Rmult_le_compat; lra|lra]. }
  assert (Hc : forall z, a <= z <= s1 -> continuity_pt (fun s => cstd s lk - p) z).
  { intros z Hz. apply continuity_pt_filterlim. apply (ex_derive_continuous_R (fun s => cstd s lk - p) z).
    eexists. apply (is_derive_minus_R (fun s => cstd s lk) (fun _ => p)); [|apply is_derive_const_R]. apply is_derive_black_s; [now left|lra|lra|apply exp_pos]. }
  assert (a < s1) by lra. destruct (Ranalysis5.IVT_interv (fun s => cstd s lk - p) a s1 Hc) as (z & Hz & Hz0); try lra. exists z. split; lra.
Qed.
(** the starting point *)
Lemma init_below_cstd ppf lk p : 0 <= lk -> 0 < p < 1 -> (forall q, 0 < q < 1 -> Phi (ppf q) = q) ->
  0 < iv_init ppf (exp lk) p /\ cstd (iv_init ppf (exp lk) p) lk <= p.
Proof.
  intros Hl Hp Hppf. destruct (cstd_root lk p Hl Hp) as (t & Ht & Et). 
  destruct (qlow_bound t lk p Ht Hl Et) as [Q0 Q1]. pose proof (Phi_lt_1 (dd1 t lk)) as Q2. pose proof (Hppf (qlow p lk) ltac:(lra)) as Hq.
  assert (B : 0 < d1sigma (ppf (qlow p lk)) lk /\ cstd (d1sigma (ppf (qlow p lk)) lk) lk <= p).
  { destruct (d1sigma_correct (ppf (qlow p lk)) lk Hl) as [S0 S1].
    - destruct Hl as [Hl|Hl]; [now left|right]. destruct (Rlt_dec 0 (ppf (qlow p lk))) as [A|A]; [exact A|exfalso]. apply Rnot_lt_le in A.
      assert (P : Phi (ppf (qlow p lk)) <= Phi 0). { destruct A as [A| ->]; [left; now apply Phi_incr|lra]. }
      rewrite Hq in P. assert (P0 : Phi 0 = / 2). { pose proof (Phi_opp 0) as O. rewrite Ropp_0 in O. lra. }
      unfold qlow in P. rewrite <- Hl, exp_0 in P. replace (p * (1 + p) / (2 * p + (1 - 1))) with ((1 + p) / 2) in P by (field; lra). lra.
    - split; [exact S0|]. change (dd1 (d1sigma (ppf (qlow p lk)) lk) lk = ppf (qlow p lk)) in S1.
      assert (D : dd1 (d1sigma (ppf (qlow p lk)) lk) lk <= dd1 t lk).
      { rewrite S1. destruct (Rle_dec (ppf (qlow p lk)) (dd1 t lk)) as [A|A]; [exact A|exfalso]. apply Rnot_le_lt in A. apply Phi_incr in A. lra. }
      apply dd1_reg in D; try assumption. apply Rle_trans with (cstd t lk); [|lra]. destruct D as [D| ->]; [left; now apply cstd_incr|lra]. }
  unfold iv_init. rewrite ln_exp. fold (qlow p lk). destruct (Req_EM_T lk 0) as [E|E]; [|exact B]. destruct (Rlt_dec p (/ 10000)) as [E2|E2]; [|exact B].
  fold (s0f p). rewrite E. apply atm_small. lra.
Qed.
Lemma init_below ppf lk p : 0 <= lk -> 0 < p < 1 -> (forall q, 0 < q < 1 -> Phi (ppf q) = q) ->
  Inv lk p (iv_init ppf (exp lk) p).
Proof.
  intros Hl Hp Hppf. destruct (init_below_cstd ppf lk p Hl Hp Hppf) as [H1 H2]. pose proof (cstd_pos _ lk H1) as Hc. assert (0 <= lerr (iv_init ppf (exp lk) p) lk p). { unfold lerr. enough (ln (cstd (iv_init ppf (exp lk) p) lk) <= ln p) by lra. now apply ln_le_R. }
  split; [exact H1|]. split; [lra|]. intros Hn. lra.
Qed.
