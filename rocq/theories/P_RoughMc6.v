(** One-point Gauss rules never overestimate the kernel pieces; the natural logarithm in get_num_nodes leaves a tail above the tolerance. *)
From Coq Require Import Reals List Lra Lia Psatz ZArith.
From Coquelicot Require Import Coquelicot.
From Verif Require Import Base Sums Spec_Cev P_Gamma P_Gamma2 P_Digamma M_Fd M_Opt M_Rough P_Rough M_RoughMc Spec_RoughMc P_RoughMc P_RoughMc5 P_CevMc.
Import ListNotations.
Open Scope R_scope.
Lemma exp_pow (x : R) n : exp (INR n * x) = exp x ^ n.
Proof. induction n; [cbn [INR pow]; now rewrite Rmult_0_l, exp_0|]. rewrite S_INR. cbn [pow]. rewrite <- IHn, <- exp_plus. f_equal. ring. Qed.
Lemma ln_le_sub1 x : 0 < x -> ln x <= x - 1.
Proof. intros H. pose proof (exp_ineq1_le (ln x)). rewrite exp_ln in H0 by exact H. lra. Qed.
(** Legendre: node 0, weight 2 *)
Lemma midpoint_error al j t : 0 < al < 1 -> exists e, 0 <= e /\ legendre_error [(0, 2)] (leg_h al j t) e.
Proof.
  intros Hal. set (h := leg_h al j t). set (b := Rpower 2 (j - 1)). assert (Pb : 0 < b) by apply two_pos.
  assert (X : ex_RInt h (- (1)) 1).
  { apply (ex_RInt_continuous (V := R_CompleteNormedModule)). intros s Hs. rewrite Rmin_left, Rmax_right in Hs by lra. apply (ex_derive_continuous (K := R_AbsRing) (V := R_NormedModule)). unfold h, leg_h. fold b. cbv zeta. unfold Rpower. auto_derive.
    repeat (match goal with |- _ /\ _ => split end); try exact I; apply Rmult_lt_0_compat; lra. }
  set (k := (al - 1) / 3 - b * t).
  assert (LB : forall s, - (1) < s < 1 -> h 0 * (1 + k * s) <= h s).
  { intros s Hs. unfold h, leg_h. fold b. cbv zeta. unfold Rpower. rewrite <- !exp_plus.
    set (p0 := (al - 1) * ln (b * (0 + 3)) + - (b * (0 + 3)) * t). set (p1 := (al - 1) * ln (b * (s + 3)) + - (b * (s + 3)) * t).
    assert (E : k * s <= p1 - p0).
    { unfold p1, p0, k. rewrite !ln_mult by lra. assert (L : ln (s + 3) - ln (0 + 3) <= s / 3). { rewrite <- ln_div by lra. pose proof (ln_le_sub1 ((s + 3) / (0 + 3)) ltac:(apply Rdiv_lt_0_compat; lra)). lra. } nra. }
    replace p1 with (p0 + (p1 - p0)) by ring. rewrite exp_plus. apply Rmult_le_compat_l; [left; apply exp_pos|]. pose proof (exp_ineq1_le (p1 - p0)). lra. }
  assert (Il : is_RInt (fun s => h 0 * (1 + k * s)) (- (1)) 1 (2 * h 0)).
  { replace (2 * h 0) with (minus (h 0 * (1 + k * 1 ^ 2 / 2)) (h 0 * (- (1) + k * (- (1)) ^ 2 / 2))) by (unfold minus, plus, opp; cbn; field).
    apply (is_RInt_derive (V := R_CompleteNormedModule) (fun s => h 0 * (s + k * s ^ 2 / 2))); intros s _.
    - auto_derive; [exact I|]. Req. field.
    - apply (ex_derive_continuous (K := R_AbsRing) (V := R_NormedModule)). auto_derive. exact I. }
  destruct X as [I0 HI].
  exists (I0 - 2 * h 0). split.
  - assert (2 * h 0 <= I0); [|lra]. rewrite <- (is_RInt_unique _ _ _ _ Il), <- (is_RInt_unique _ _ _ _ HI). apply RInt_le; [lra|eexists; exact Il|eexists; exact HI|exact LB].
  - unfold legendre_error, quad, lsum. cbn [map fold_right fst snd]. assert (EE : 2 * h 0 + 0 + (I0 - 2 * h 0) = I0) by (clear; clearbody h; Req; ring). now rewrite EE.
Qed.
Section J.
Variable Gam : R -> R.
Hypothesis HG : gamma_function Gam.
Variables (al t : R).
Hypothesis (Hal : 0 < al < 1) (Ht : 0 < t).
(** Jacobi with weight (1+s)^(al-1): the one-point Gauss rule *)
Definition gj1 : list (R * R) := [(2 * al / (al + 1) - 1, Rpower 2 al / al)].
Lemma jacobi1_error M : exists e, 0 <= e /\ jacobi_error (al - 1) gj1 (jac_h M t) e.
Proof.
  set (c := Rpower 2 (- M - 1)). assert (Pc : 0 < c) by apply two_pos. set (ka := c * t). assert (Pk : 0 < ka) by now apply Rmult_lt_0_compat.
  destruct (HG al ltac:(lra)) as [PG [P HP]]. pose proof HP as [D [L _]].
  (* F u = Gam al * ka^(-al) * P (ka u) *)
  set (F := fun u => Gam al * Rpower ka (- al) * P (ka * u)).
  assert (DF : forall u, 0 < u -> is_derive F u (Rpower u (al - 1) * jac_h M t (u - 1))).
  { intros u Hu. assert (Pku : 0 < ka * u) by now apply Rmult_lt_0_compat. eapply is_derive_eq.
    - unfold F. apply is_derive_scal_R. apply (is_derive_comp_R P (fun y => ka * y) u (gamma_pdf Gam al (ka * u)) ka); [now apply D|]. auto_derive; [exact I|ring].
    - unfold gamma_pdf, jac_h. fold c. replace (u - 1 + 1) with u by ring. rewrite <- Rpower_mult_distr by assumption. replace (exp (- (c * u) * t)) with (exp (- (ka * u))) by (f_equal; unfold ka; ring).
      replace (Rpower ka (- al)) with (/ (ka * Rpower ka (al - 1))).
      + assert (0 < Rpower ka (al - 1)) by apply exp_pos. field. lra.
      + rewrite Rpower_Ropp. f_equal. replace al with (al - 1 + 1) at 2 by ring. rewrite Rpower_plus, Rpower_1 by exact Pk. ring. }
  assert (LF : filterlim F (at_right 0) (locally 0)).
  { unfold F. apply (lim_scal_at0 (fun u => P (ka * u))). apply (filterlim_comp _ _ _ (fun u => ka * u) P (at_right 0) (at_right 0)); [|exact L].
    intros S [d Hd]. assert (Pd : 0 < d / ka) by (apply Rdiv_lt_0_compat; [apply cond_pos|exact Pk]). exists (mkposreal _ Pd). intros y Hy Hy0. apply Hd.
    - change (Rabs (ka * y - 0) < d). change (Rabs (y - 0) < d / ka) in Hy. rewrite Rminus_0_r in *. rewrite Rabs_right in * by nra. apply (Rmult_lt_compat_l ka) in Hy; [|exact Pk]. replace (ka * (d / ka)) with (pos d) in Hy by (field; lra). lra.
    - now apply Rmult_lt_0_compat. }
  set (u0 := ka * (2 * al / (al + 1))). set (G := fun u => exp (- u0) * ((1 + u0) * (Rpower u al / al) - ka * (Rpower u (al + 1) / (al + 1)))).
  assert (DG : forall u, 0 < u -> is_derive G u (Rpower u (al - 1) * (exp (- u0) * (1 + u0 - ka * u)))).
  { intros u Hu. unfold G, Rpower. auto_derive; [split; [exact Hu|split; [exact Hu|exact I]]|]. Req.
    replace ((al + 1) * ln u) with ((al - 1) * ln u + (ln u + ln u)) by ring. replace (al * ln u) with ((al - 1) * ln u + ln u) by ring. rewrite !exp_plus, !exp_ln by exact Hu. set (E := exp ((al - 1) * ln u)). set (E0 := exp (- u0)). clearbody E E0. field. lra. }
  assert (LG : filterlim G (at_right 0) (locally 0)).
  { assert (RL := pow_lim0).
    unfold G. apply (lim_scal_at0 (fun u => (1 + u0) * (Rpower u al / al) - ka * (Rpower u (al + 1) / (al + 1)))).
    assert (Z := lim_plus_at0 _ _ 0 0 (lim_scal_at0 _ ((1 + u0) / al) (RL al ltac:(lra))) (lim_scal_at0 _ (- (ka / (al + 1))) (RL (al + 1) ltac:(lra)))). rewrite Rplus_0_l in Z. eapply filterlim_ext; [|exact Z]. intros u. cbv beta. field. lra. }
  assert (C := half_compare G F _ _ 0 DG DF ltac:(
    intros u Hu; apply Rmult_le_compat_l; [left; apply exp_pos|]; unfold jac_h; fold c; replace (- (c * (u - 1 + 1)) * t) with (- u0 + (u0 - ka * u)) by (unfold ka; ring); rewrite exp_plus; apply Rmult_le_compat_l; [left; apply exp_pos|]; pose proof (exp_ineq1_le (u0 - ka * u)); lra) LG LF 2 Rlt_0_2).
  exists (F 2 - quad gj1 (jac_h M t)). assert (EQ : quad gj1 (jac_h M t) = G 2).
  { unfold quad, gj1, lsum. cbn [map fold_right fst snd]. unfold jac_h, G. fold c. replace (- (c * (2 * al / (al + 1) - 1 + 1)) * t) with (- u0) by (unfold u0, ka; field; lra).
    rewrite Rpower_plus, Rpower_1 by lra. unfold u0. set (E0 := exp (- (ka * (2 * al / (al + 1))))). set (E := Rpower 2 al). clearbody E E0. field. lra. }
  split; [rewrite EQ; lra|]. exists F. split; [exact DF|]. split; [exact LF|]. Req. ring.
Qed.
End J.
(** with rules that do not overestimate, the kernel sum lies below the kernel by at least the tail *)
Lemma nodes_under Gam al t P M N qj qs ql : gamma_function Gam -> 0 < al < 1 -> 0 < t -> cdf_of (gamma_pdf Gam al) P ->
  (exists e, 0 <= e /\ jacobi_error (al - 1) qj (jac_h (INR M) t) e) ->
  (forall i, (i < M)%nat -> exists e, 0 <= e /\ legendre_error qs (leg_h al (INR i - INR M) t) e) ->
  (forall j, (j <= N)%nat -> exists e, 0 <= e /\ legendre_error ql (leg_h al (INR j) t) e) ->
  Rpower t (- al) * (1 - P (t * 2 ^ S N)) <= Rpower t (- al) - kernel_sum (rm_all_nodes Gam al M N qj qs ql) t.
Proof.
  intros HG Hal Ht HP [eJ [PJ HJ]] Hs Hl. pose proof (Gam_pos Gam HG al ltac:(lra)) as PG.
  assert (Cs : exists es : nat -> R, forall i, (i < M)%nat -> 0 <= es i /\ legendre_error qs (leg_h al (INR i - INR M) t) (es i)).
  { exists (fun i => RInt (leg_h al (INR i - INR M) t) (- (1)) 1 - quad qs (leg_h al (INR i - INR M) t)). intros i Hi. destruct (Hs i Hi) as [e [Pe He]]. unfold legendre_error in *. rewrite (is_RInt_unique _ _ _ _ He). replace (quad qs (leg_h al (INR i - INR M) t) + e - quad qs (leg_h al (INR i - INR M) t)) with e by ring. now split. }
  assert (Cl : exists el : nat -> R, forall j, (j <= N)%nat -> 0 <= el j /\ legendre_error ql (leg_h al (INR j) t) (el j)).
  { exists (fun j => RInt (leg_h al (INR j) t) (- (1)) 1 - quad ql (leg_h al (INR j) t)). intros j Hj. destruct (Hl j Hj) as [e [Pe He]]. unfold legendre_error in *. rewrite (is_RInt_unique _ _ _ _ He). replace (quad ql (leg_h al (INR j) t) + e - quad ql (leg_h al (INR j) t)) with e by ring. now split. }
  destruct Cs as [es Ces]. destruct Cl as [el Cel].
  rewrite (nodes_error Gam HG al t P Hal Ht HP M N qj qs ql eJ es el HJ (fun i Hi => proj2 (Ces i Hi)) (fun j Hj => proj2 (Cel j Hj))).
  apply Rle_trans with (Rpower t (- al) * (1 - P (t * 2 ^ S N)) + 0); [lra|]. apply Rplus_le_compat_l. apply Rmult_le_pos; [|left; now apply Rinv_0_lt_compat].
  apply Rplus_le_le_0_compat; [apply Rplus_le_le_0_compat|].
  - apply Rmult_le_pos; [left; apply exp_pos|exact PJ].
  - apply rsum_nonneg. intros i Hi. apply Rmult_le_pos; [left; apply exp_pos|now apply Ces].
  - apply rsum_nonneg. intros j Hj. apply Rmult_le_pos; [left; apply exp_pos|apply Cel; lia].
Qed.
(** the cut-off chosen for texp = 1, n_ts = 1000 and the default tolerance *)
Lemma exp10_ge : 10000 <= exp 10.
Proof.
  assert (A : 9 / 8 <= exp (/ 8)) by (pose proof (exp_ineq1_le (/ 8)); lra). replace 10 with (INR 10 * (INR 8 * / 8)) by (cbn [INR]; field).
  assert (B : 5 / 2 + 3 / 50 <= exp (INR 8 * / 8)). { rewrite exp_pow. apply Rle_trans with ((9 / 8) ^ 8); [lra|]. apply pow_incr. lra. }
  rewrite exp_pow. apply Rle_trans with ((5 / 2 + 3 / 50) ^ 10); [lra|]. apply pow_incr. lra.
Qed.
Lemma cut_le10 (N : nat) : snd (fst (fst (fst (rm_nodes 1 (1 / 1000) (1 / 10000) 1)))) = INR N -> (N <= 10)%nat.
Proof.
  unfold rm_nodes. cbn [fst snd]. intros E. pose proof exp10_ge as X.
  assert (L1 : ln (1 / (1 / 10000)) <= 10). { rewrite <- (ln_exp 10). apply ln_le; lra. }
  assert (L0 : 0 < ln (1 / (1 / 10000))) by (rewrite <- ln_1; apply ln_increasing; lra).
  assert (L2 : ln (ln (1 / (1 / 10000)) / (1 / 1000)) <= 10). { replace 10 with (ln (exp 10)) by apply ln_exp. apply ln_le; lra. }
  set (y := ln (ln (1 / (1 / 10000)) / (1 / 1000))) in *. pose proof (base_Int_part (- y)) as [_ B]. assert (C : (- 11 < Int_part (- y))%Z) by (apply lt_IZR; lra).
  rewrite Rmult_1_l, opp_IZR in E. assert (IZR (- 10) <= IZR (Int_part (- y))) by (apply IZR_le; lia). apply INR_le. rewrite <- E. cbn [INR]. lra.
Qed.
Lemma tolerance_missed Gam M N qj qs ql : gamma_function Gam ->
  fst (fst (fst (rm_nodes 1 (1 / 1000) (1 / 10000) 1))) = (INR M, INR N) ->
  (exists e, 0 <= e /\ jacobi_error (2 / 5 - 1) qj (jac_h (INR M) (1 / 1000)) e) ->
  (forall i, (i < M)%nat -> exists e, 0 <= e /\ legendre_error qs (leg_h (2 / 5) (INR i - INR M) (1 / 1000)) e) ->
  (forall j, (j <= N)%nat -> exists e, 0 <= e /\ legendre_error ql (leg_h (2 / 5) (INR j) (1 / 1000)) e) ->
  1 / 10000 < Rpower (1 / 1000) (- (2 / 5)) - kernel_sum (rm_all_nodes Gam (2 / 5) M N qj qs ql) (1 / 1000).
Proof.
  intros HG E HJ Hs Hl. assert (HN : (N <= 10)%nat) by (apply cut_le10; now rewrite E).
  destruct (HG (2 / 5) ltac:(lra)) as [PG [P HP]]. assert (Hal : 0 < 2 / 5 < 1) by lra.
  apply Rlt_le_trans with (2 := nodes_under Gam (2 / 5) (1 / 1000) P M N qj qs ql HG Hal ltac:(lra) HP HJ Hs Hl).
  assert (T1 : 1 - P (2048 / 1000) <= 1 - P (1 / 1000 * 2 ^ S N)).
  { assert (P (1 / 1000 * 2 ^ S N) <= P (2048 / 1000)); [|lra]. apply (P_mono Gam HG (2 / 5) P Hal HP). - apply Rmult_lt_0_compat; [lra|apply pow_lt; lra].
    - assert (2 ^ S N <= 2 ^ 11) by (apply Rle_pow; [lra|lia]). replace (2 ^ 11) with 2048 in H by ring. lra. }
  pose proof (tail_ge Gam HG (2 / 5) P Hal HP (2048 / 1000) ltac:(lra)) as T2.
  assert (GU : Gam (2 / 5) <= 5 / 2).
  { assert (G1 : Gam 1 = 1) by exact (Gam_1 Gam HG).
    pose proof (gautschi Gam HG 1 (2 / 5) Rlt_0_1 ltac:(lra)) as Q. rewrite G1 in Q. rewrite Rplus_comm, (Gam_succ Gam HG (2 / 5)) in Q by lra. replace (Rpower 1 (2 / 5)) with 1 in Q by (unfold Rpower; rewrite ln_1, Rmult_0_r, exp_0; reflexivity). lra. }
  assert (PD : / 243 / 5 / (5 / 2) <= gamma_pdf Gam (2 / 5) (2 * (2048 / 1000))).
  { unfold gamma_pdf. set (y := 2 * (2048 / 1000)). assert (Py : 4 <= y <= 5) by (unfold y; lra).
    assert (A1 : / 5 <= Rpower y (2 / 5 - 1)). { apply Rle_trans with (Rpower y (- (1))). - rewrite Rpower_Ropp, Rpower_1 by lra. apply Rinv_le_contravar; lra. - unfold Rpower. apply exp_le. assert (0 < ln y) by (rewrite <- ln_1; apply ln_increasing; lra). lra. }
    assert (A2 : / 243 <= exp (- y)). { rewrite exp_Ropp. apply Rinv_le_contravar; [apply exp_pos|]. apply Rle_trans with (exp (INR 5 * 1)); [apply exp_le; cbn [INR]; lra|]. rewrite exp_pow. replace 243 with (3 ^ 5) by ring. apply pow_incr. split; [left; apply exp_pos|apply exp_le_3]. }
    assert (A3 : / (5 / 2) <= / Gam (2 / 5)) by (apply Rinv_le_contravar; lra). unfold Rdiv at 1 2. apply Rmult_le_compat; [lra|lra| |exact A3]. rewrite (Rmult_comm (Rpower y (2 / 5 - 1))). apply Rmult_le_compat; lra. }
  assert (RT : 1 <= Rpower (1 / 1000) (- (2 / 5))). { unfold Rpower. rewrite <- exp_0 at 1. apply exp_le. assert (ln (1 / 1000) <= 0) by (replace 0 with (ln 1) by apply ln_1; apply ln_le; lra). lra. }
  set (r := Rpower (1 / 1000) (- (2 / 5))) in *. nra.
Qed.
