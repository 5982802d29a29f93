(** MultifactorApprox of heston_rough_mc.py. *)
From Coq Require Import Reals List Lra Lia Psatz ZArith.
From Coquelicot Require Import Coquelicot.
From Verif Require Import Base Sums Spec_Cev P_Gamma P_Gamma2 M_Fd M_Opt M_Rough P_Rough M_RoughMc Spec_RoughMc P_RoughMc P_RoughMc2.
Import ListNotations.
Open Scope R_scope.
Lemma rp_exp x y : 0 < x -> Rpower x (y + 1) = x * Rpower x y.
Proof. intros H. rewrite Rpower_plus, Rpower_1 by exact H. ring. Qed.
Section MF.
Variable Gam : R -> R.
Hypothesis HG : gamma_function Gam.
Variables (al texp : R) (N : nat).
Hypothesis (Hal : 0 < al < 1) (HT : 0 < texp) (HN : (0 < N)%nat).
Let eta := rm_eta al texp N.
Let e1 : R := Rpower (INR N) (- (1 / 5)) / texp * Rpower (sqrt 10 * al / (2 + al)) (2 / 5).
Lemma e1_pos : 0 < e1. Proof. unfold e1. apply Rmult_lt_0_compat; [|apply exp_pos]. apply Rdiv_lt_0_compat; [apply exp_pos|exact HT]. Qed.
Lemma eta_lin j : eta j = INR j * e1. Proof. unfold eta, rm_eta, e1. unfold Rdiv. ring. Qed.
Lemma eta_nonneg j : 0 <= eta j. Proof. rewrite eta_lin. apply Rmult_le_pos; [apply pos_INR|left; apply e1_pos]. Qed.
Lemma eta_incr j : eta j < eta (S j). Proof. rewrite !eta_lin, S_INR. pose proof e1_pos. lra. Qed.
Lemma mass_pow r a b : 0 < r -> 0 <= a < b -> mass_between (fun y => Rpower y (r - 1)) a b (npow b r / r - npow a r / r).
Proof.
  intros Hr Hab. unfold mass_between. pose proof (cell_pow r b 0 (b - a) Hr ltac:(lra) ltac:(lra)) as P. replace (b - 0) with b in P by ring. replace (b - (b - a)) with a in P by ring. exact P.
Qed.
Lemma G1 : Gam (1 + al) = al * Gam al. Proof. rewrite Rplus_comm. apply (Gam_succ Gam HG). lra. Qed.
Lemma c_mass j : mass_between (mixing Gam al) (eta j) (eta (S j)) (rm_c Gam al texp N j).
Proof.
  pose proof (eta_nonneg j). pose proof (eta_incr j). pose proof (Gam_pos Gam HG al ltac:(lra)). pose proof (Gam_pos Gam HG (1 - al) ltac:(lra)).
  pose proof (cell_scal (/ (Gam (1 - al) * Gam al)) _ _ _ _ _ (mass_pow al (eta j) (eta (S j)) ltac:(lra) ltac:(lra))) as P.
  unfold rm_c. fold eta. rewrite G1. replace ((npow (eta (S j)) al - npow (eta j) al) / Gam (1 - al) / (al * Gam al)) with (/ (Gam (1 - al) * Gam al) * (npow (eta (S j)) al / al - npow (eta j) al / al)) by (field; lra).
  unfold mass_between, cell_integral in *. eapply is_RInt_gen_ext; [|exact P]. apply (Filter_prod _ _ _ (fun x => True) (fun x => True)); [exact I|apply filter_true|]. intros y1 y2 _ _ s _. unfold mixing. Req. unfold Rdiv. ring.
Qed.
Lemma dpow_pos j r : 0 < r -> 0 < npow (eta (S j)) r - npow (eta j) r.
Proof.
  intros Hr. pose proof (eta_nonneg j) as P0. pose proof (eta_incr j). rewrite (npow_1 (eta (S j))) by lra. destruct P0 as [P0| <-].
  - rewrite npow_1 by exact P0. apply Rlt_Rminus. unfold Rpower. apply exp_increasing. apply Rmult_lt_compat_l; [exact Hr|]. now apply ln_increasing.
  - rewrite npow_0 by exact Hr. rewrite Rminus_0_r. apply exp_pos.
Qed.
Lemma c_pos j : 0 < rm_c Gam al texp N j.
Proof.
  unfold rm_c. fold eta. pose proof (dpow_pos j al ltac:(lra)). pose proof (Gam_pos Gam HG (1 + al) ltac:(lra)). pose proof (Gam_pos Gam HG (1 - al) ltac:(lra)).
  apply Rdiv_lt_0_compat; [apply Rdiv_lt_0_compat; assumption|assumption].
Qed.
Lemma cg_mass j : mass_between (fun y => y * mixing Gam al y) (eta j) (eta (S j)) (rm_c Gam al texp N j * rm_gam al texp N j).
Proof.
  pose proof (eta_nonneg j). pose proof (eta_incr j). pose proof (Gam_pos Gam HG al ltac:(lra)). pose proof (Gam_pos Gam HG (1 - al) ltac:(lra)). pose proof (dpow_pos j al ltac:(lra)).
  pose proof (cell_scal (/ (Gam (1 - al) * Gam al)) _ _ _ _ _ (mass_pow (al + 1) (eta j) (eta (S j)) ltac:(lra) ltac:(lra))) as P.
  unfold rm_c, rm_gam. fold eta. rewrite G1. match goal with |- mass_between _ _ _ ?q => replace q with (/ (Gam (1 - al) * Gam al) * (npow (eta (S j)) (al + 1) / (al + 1) - npow (eta j) (al + 1) / (al + 1))) by (field; repeat split; lra) end.
  unfold mass_between, cell_integral in *. eapply is_RInt_gen_ext; [|exact P].
  apply (Filter_prod _ _ _ (fun x => x = 0) (fun x => x < eta (S j) - eta j)); [reflexivity|exists (mkposreal 1 Rlt_0_1); intros y _ Hy; exact Hy|]. intros y1 y2 -> Hy2 s. cbn [fst snd]. intros Hs. unfold mixing. Req.
  assert (Ps : 0 < eta (S j) - s). { destruct (Rle_dec 0 y2); [rewrite Rmax_right in Hs by lra|rewrite Rmax_left in Hs by lra]; lra. }
  replace (al + 1 - 1) with (al - 1 + 1) by ring. rewrite rp_exp by exact Ps. field. lra.
Qed.
(** the rate of a factor lies strictly inside its interval *)
Lemma ratio_bounds (a b : R) : 0 <= a < b -> a * ((npow b al - npow a al) / al) < (npow b (al + 1) - npow a (al + 1)) / (al + 1) < b * ((npow b al - npow a al) / al).
Proof.
  intros [Ha Hb]. destruct Ha as [Ha| <-].
  2: { rewrite !npow_0 by lra. rewrite !npow_1 by lra. rewrite rp_exp by lra. assert (P : 0 < b * Rpower b al) by (apply Rmult_lt_0_compat; [lra|apply exp_pos]). rewrite !Rminus_0_r. split.
       - rewrite Rmult_0_l. apply Rdiv_lt_0_compat; lra.
       - apply Rminus_gt_0_lt. replace (b * (Rpower b al / al) - b * Rpower b al / (al + 1)) with (b * Rpower b al * (/ al - / (al + 1))) by (field; lra). apply Rmult_lt_0_compat; [exact P|]. apply Rlt_Rminus. apply Rinv_lt_contravar; nra. }
  rewrite !npow_1 by lra.
  assert (D : forall c y, 0 < y -> is_derive (fun y => Rpower y (al + 1) / (al + 1) - c * (Rpower y al / al)) y (Rpower y (al - 1) * (y - c))).
  { intros c y Hy. unfold Rpower. auto_derive; [split; [exact Hy|split; [exact Hy|exact I]]|]. Req.
    replace ((al + 1) * ln y) with ((al - 1) * ln y + (ln y + ln y)) by ring. replace (al * ln y) with ((al - 1) * ln y + ln y) by ring. rewrite !exp_plus, !exp_ln by exact Hy. field. lra. }
  assert (MV : forall c, exists y, a < y < b /\ Rpower b (al + 1) / (al + 1) - c * (Rpower b al / al) - (Rpower a (al + 1) / (al + 1) - c * (Rpower a al / al)) = Rpower y (al - 1) * (y - c) * (b - a)).
  { intros c. destruct (MVT_cor2 (fun y => Rpower y (al + 1) / (al + 1) - c * (Rpower y al / al)) (fun y => Rpower y (al - 1) * (y - c)) a b Hb) as [y [E Hy]].
    - intros y Hy. apply is_derive_Reals. apply D. lra.
    - exists y. split; [exact Hy|exact E]. }
  split.
  - destruct (MV a) as [y [Hy E]]. assert (0 < Rpower y (al - 1) * (y - a) * (b - a)) by (apply Rmult_lt_0_compat; [apply Rmult_lt_0_compat; [apply exp_pos|lra]|lra]). unfold Rdiv in *. lra.
  - destruct (MV b) as [y [Hy E]]. assert (0 < Rpower y (al - 1) * (b - y) * (b - a)) by (apply Rmult_lt_0_compat; [apply Rmult_lt_0_compat; [apply exp_pos|lra]|lra]). unfold Rdiv in *. lra.
Qed.
Lemma gam_between j : eta j < rm_gam al texp N j < eta (S j).
Proof.
  pose proof (eta_nonneg j). pose proof (eta_incr j). pose proof (dpow_pos j al ltac:(lra)) as P. destruct (ratio_bounds (eta j) (eta (S j)) ltac:(lra)) as [A B].
  unfold rm_gam. fold eta. set (x1 := npow (eta (S j)) (al + 1) - npow (eta j) (al + 1)) in *. set (x0 := npow (eta (S j)) al - npow (eta j) al) in *.
  replace (x1 / x0 * al / (1 + al)) with (x1 / (al + 1) / (x0 / al)) by (field; lra). assert (Q : 0 < x0 / al) by (apply Rdiv_lt_0_compat; lra).
  split; apply Rmult_lt_reg_r with (x0 / al); try exact Q; unfold Rdiv at 2; unfold Rdiv in *; (rewrite Rmult_assoc with (r1 := x1 * / (al + 1)), Rinv_l, Rmult_1_r by lra); lra.
Qed.
Lemma gam_pos j : 0 < rm_gam al texp N j. Proof. pose proof (gam_between j). pose proof (eta_nonneg j). lra. Qed.
End MF.
(** explicit Euler factors stay inside (-1, 1) *)
Lemma mf_stable al texp n j : 0 < al <= / 2 -> 0 < texp -> (0 < n)%nat -> (j < rm_n_exp n)%nat -> 0 < rm_gam al texp (rm_n_exp n) j * rm_dt texp n < 2.
Proof.
  intros Hal HT Hn Hj. assert (PN : (0 < rm_n_exp n)%nat) by lia. pose proof (gam_between al texp (rm_n_exp n) ltac:(lra) HT j) as [G0 Gu]. pose proof (gam_pos al texp (rm_n_exp n) ltac:(lra) HT j) as Gp.
  assert (In : 1 <= INR n) by (apply (le_INR 1); lia). assert (Pd : 0 < rm_dt texp n) by (unfold rm_dt; apply Rdiv_lt_0_compat; lra). split; [now apply Rmult_lt_0_compat|].
  set (N := rm_n_exp n) in *. assert (IN : 1 <= INR N) by (apply (le_INR 1); lia).
  apply Rlt_le_trans with (rm_eta al texp N (S j) * rm_dt texp n); [now apply Rmult_lt_compat_r|].
  (* eta_(j+1) <= eta_N = N^(4/5)/texp * c *)
  assert (C1 : Rpower (sqrt 10 * al / (2 + al)) (2 / 5) <= 1).
  { assert (S10 : 0 < sqrt 10 < 4) by (split; [apply sqrt_lt_R0; lra|]; apply Rlt_le_trans with (sqrt 16); [apply sqrt_lt_1_alt; lra|]; replace 16 with (4 * 4) by ring; rewrite sqrt_square; lra).
    set (q := sqrt 10 * al / (2 + al)). assert (Q : 0 < q <= 1). { unfold q. split; [apply Rdiv_lt_0_compat; [apply Rmult_lt_0_compat; lra|lra]|]. apply Rmult_le_reg_r with (2 + al); [lra|]. unfold Rdiv. rewrite Rmult_assoc, Rinv_l by lra. nra. }
    unfold Rpower. rewrite <- exp_0. apply exp_le. assert (ln q <= 0) by (rewrite <- ln_1; apply ln_le; lra). lra. }
  assert (NB : INR N <= 2 * Rpower (INR n) (5 / 4)).
  { assert (R1 : 1 <= Rpower (INR n) (5 / 4)) by (unfold Rpower; rewrite <- exp_0; apply exp_le; apply Rmult_le_pos; [lra|]; rewrite <- ln_1; apply ln_le; lra).
    unfold N, rm_n_exp, n_ceil. set (y := Rpower (INR n) (5 / 4)) in *. assert (Z0 : (0 <= - Int_part (- y))%Z). { apply le_IZR. rewrite opp_IZR. pose proof (base_Int_part (- y)). lra. }
    rewrite INR_IZR_INZ, Z2Nat.id by exact Z0. rewrite opp_IZR. pose proof (base_Int_part (- y)). lra. }
  assert (N45 : Rpower (INR N) (4 / 5) <= 2 * INR n).
  { apply Rle_trans with (Rpower (2 * Rpower (INR n) (5 / 4)) (4 / 5)).
    - unfold Rpower. apply exp_le. apply Rmult_le_compat_l; [lra|]. apply ln_le; [lra|]. exact NB.
    - rewrite <- Rpower_mult_distr by (try apply exp_pos; lra). rewrite Rpower_mult. replace (5 / 4 * (4 / 5)) with 1 by field. rewrite Rpower_1 by lra. apply Rmult_le_compat_r; [lra|].
      rewrite <- (Rpower_1 2) at 2 by lra. unfold Rpower. apply exp_le. assert (0 < ln 2) by (rewrite <- ln_1; apply ln_increasing; lra). lra. }
  unfold rm_eta, rm_dt. replace (INR (S j) * Rpower (INR N) (- (1 / 5)) / texp * Rpower (sqrt 10 * al / (2 + al)) (2 / 5) * (texp / INR n)) with (INR (S j) * Rpower (INR N) (- (1 / 5)) * Rpower (sqrt 10 * al / (2 + al)) (2 / 5) / INR n) by (field; lra).
  apply Rmult_le_reg_r with (INR n); [lra|]. unfold Rdiv at 1. rewrite Rmult_assoc, Rinv_l, Rmult_1_r by lra.
  apply Rle_trans with (INR N * Rpower (INR N) (- (1 / 5)) * 1).
  - apply Rmult_le_compat; [apply Rmult_le_pos; [apply pos_INR|left; apply exp_pos]|left; apply exp_pos| |exact C1]. apply Rmult_le_compat_r; [left; apply exp_pos|]. apply le_INR. lia.
  - rewrite Rmult_1_r. rewrite <- (Rpower_1 (INR N)) at 1 by lra. rewrite <- Rpower_plus. replace (1 + - (1 / 5)) with (4 / 5) by field. exact N45.
Qed.
(** the recursion unrolled *)
Lemma mf_spec Gam p texp dt N (Z V : nat -> R) n : gamma_function Gam -> 0 < rh_alpha p < 1 -> 0 < texp -> (0 < N)%nat ->
  (forall i, (i <= n)%nat -> exists U, mf_state Gam p texp dt N Z i = Some (V i, U)) ->
  (forall i, (i < n)%nat -> 0 <= V i) /\
  exists In, is_RInt (exp_sum N (rm_gam (rh_alpha p) texp N) (rm_c Gam (rh_alpha p) texp N)) 0 (INR n * dt) In /\
  V n = rh_sigma p + rh_mr p * rh_theta p * In +
    rsum n (fun k => (- rh_mr p * V k * dt + rm_g p (V k) * sqrt dt * Z k) *
      rsum N (fun j => rm_c Gam (rh_alpha p) texp N j * (1 - rm_gam (rh_alpha p) texp N j * dt) ^ (n - 1 - k))).
Proof.
  intros HG Hal HT HN A. set (c := rm_c Gam (rh_alpha p) texp N). set (g := rm_gam (rh_alpha p) texp N). set (inc := fun k => - rh_mr p * V k * dt + rm_g p (V k) * sqrt dt * Z k).
  assert (Pg : forall j, 0 < g j) by (intros j; apply gam_pos; assumption).
  assert (Pos : forall i, (i < n)%nat -> 0 <= V i).
  { intros i Hi. destruct (A (S i) ltac:(lia)) as [U E]. destruct (A i ltac:(lia)) as [U0 E0]. cbn [mf_state] in E. rewrite E0 in E. destruct (root_ok (V i)) eqn:R; [now apply root_ok_iff|discriminate]. }
  split; [exact Pos|].
  assert (IU : forall i U, (i <= n)%nat -> mf_state Gam p texp dt N Z i = Some (V i, U) -> forall j, U j = rsum i (fun k => inc k * (1 - g j * dt) ^ (i - 1 - k))).
  { induction i; intros U Hi E j.
    - cbn [mf_state] in E. inversion E. reflexivity.
    - destruct (A i ltac:(lia)) as [U0 E0]. cbn [mf_state] in E. rewrite E0 in E. rewrite (proj2 (root_ok_iff _) (Pos i ltac:(lia))) in E.
      assert (EU := f_equal (fun o => match o with Some (_, q) => q j | None => 0 end) E). cbv beta iota zeta in EU. rewrite <- EU. unfold rm_V_tJ. fold g. rewrite (IHi U0 ltac:(lia) E0 j). cbn [rsum].
      replace (S i - 1 - i)%nat with 0%nat by lia. rewrite pow_O, Rmult_1_r. fold (inc i). rewrite (rsum_ext i (fun k => inc k * (1 - g j * dt) ^ (S i - 1 - k)) (fun k => (1 - g j * dt) * (inc k * (1 - g j * dt) ^ (i - 1 - k)))).
      + now rewrite rsum_scal.
      + intros k Hk. replace (S i - 1 - k)%nat with (S (i - 1 - k)) by lia. cbn [pow]. ring. }
  exists (rsum N (fun j => c j / g j * (1 - exp (- g j * (INR n * dt))))). split.
  - pose proof (exp_sum_cell N g (fun j => c j) 0 (- (INR n * dt)) 0 ltac:(intros l _; pose proof (Pg l); lra)) as Q.
    apply (is_RInt_comp_opp (V := R_NormedModule) (fun s => exp_sum N g c (0 - s)) 0 (INR n * dt)) in Q || idtac.
    assert (Q2 : forall L, is_RInt (exp_sum L g c) 0 (INR n * dt) (rsum L (fun j => c j / g j * (1 - exp (- g j * (INR n * dt)))))).
    { clear Q. induction L; unfold exp_sum; cbn [rsum].
      - assert (Q := is_RInt_const (V := R_NormedModule) 0 (INR n * dt) 0). change (scal (INR n * dt - 0) 0) with ((INR n * dt - 0) * 0) in Q. rewrite Rmult_0_r in Q. exact Q.
      - apply (is_RInt_plus (V := R_NormedModule)); [exact IHL|]. pose proof (Pg L).
        replace (c L / g L * (1 - exp (- g L * (INR n * dt)))) with (minus (- (c L / g L) * exp (- g L * (INR n * dt))) (- (c L / g L) * exp (- g L * 0))) by (unfold minus, plus, opp; cbn; rewrite Rmult_0_r, exp_0; ring).
        apply (is_RInt_derive (fun s => - (c L / g L) * exp (- g L * s))); intros s _.
        + auto_derive; [exact I|]. Req. field. lra.
        + apply (ex_derive_continuous (K := R_AbsRing) (V := R_NormedModule)). auto_derive. exact I. }
    apply Q2.
  - destruct n.
    + destruct (A 0%nat ltac:(lia)) as [U E]. cbn [mf_state] in E. inversion E as [E1]. rewrite (rsum_eq0 N); [cbn [rsum]; ring|]. intros k _. cbn [INR]. rewrite Rmult_0_l, Rmult_0_r, exp_0. ring.
    + destruct (A (S n) ltac:(lia)) as [U E]. pose proof (IU (S n) U ltac:(lia) E) as IUn. destruct (A n ltac:(lia)) as [U0 E0]. cbn [mf_state] in E. rewrite E0 in E. rewrite (proj2 (root_ok_iff _) (Pos n ltac:(lia))) in E.
      assert (Ev := f_equal (fun o => match o with Some (q, _) => q | None => 0 end) E). assert (EU := f_equal (fun o => match o with Some (_, q) => q | None => fun _ => 0 end) E). cbv beta iota zeta in Ev, EU. fold c g in Ev, EU. rewrite <- Ev. unfold rm_grid. f_equal.
      rewrite (rsum_ext N _ (fun j => c j * U j)) by (intros j _; rewrite <- EU; reflexivity).
      rewrite (rsum_ext N _ (fun j => rsum (S n) (fun k => inc k * (c j * (1 - g j * dt) ^ (S n - 1 - k))))).
      * rewrite rsum_swap. apply rsum_ext. intros k _. now rewrite rsum_scal.
      * intros j _. rewrite IUn, <- rsum_scal. apply rsum_ext. intros k _. ring.
Qed.
