(** The loop of chi2_cdf_appr sums the non-central chi-square series until the remainder is below 1e-7. *)
From Coq Require Import Reals Lra Lia Psatz Arith Bool.
From Coquelicot Require Import Coquelicot.
From Verif Require Import Base Sums Spec_Cev Spec_CevMc P_Gamma P_Gamma2 P_Ncx2 P_Ncx3 P_CevMc M_SabrCai.
Open Scope R_scope.
Section D.
Variable Gam : R -> R.
Hypothesis HG : gamma_function Gam.
Variables x sg l : R.
Hypothesis Hx : 0 < x.
Hypothesis Hs : 0 < sg.
Hypothesis Hl : 0 <= l.
Definition dT (j : nat) : R := Rpower (x / 2) (sg / 2 + INR j) * exp (- x / 2) / Gam (sg / 2 + INR j + 1).
Definition dY (j : nat) : R := rsum (S j) (pois (l / 2)).
Lemma dT_pos j : 0 < dT j.
Proof. unfold dT, Rdiv. apply Rmult_lt_0_compat; [apply Rmult_lt_0_compat; apply exp_pos|]. apply Rinv_0_lt_compat, (Gam_pos Gam HG). pose proof (pos_INR j). lra. Qed.
Lemma dT_0 : dT 0 = 1 / Gam (sg / 2 + 1) * Rpower (x / 2) (sg / 2) * exp (- x / 2).
Proof. unfold dT. cbn [INR]. rewrite !Rplus_0_r. unfold Rdiv. ring. Qed.
Lemma dT_S j : dT (S j) = dT j * x / (sg + 2 * INR (S j)).
Proof.
  unfold dT. rewrite S_INR. pose proof (pos_INR j). replace (sg / 2 + (INR j + 1)) with (sg / 2 + INR j + 1) by ring.
  rewrite (Gam_succ Gam HG (sg / 2 + INR j + 1)) by lra. rewrite Rpower_plus, Rpower_1 by lra. pose proof (Gam_pos Gam HG (sg / 2 + INR j + 1) ltac:(lra)). field. split; lra.
Qed.
Lemma dU_S j : pois (l / 2) (S j) = pois (l / 2) j * l / (2 * INR (S j)).
Proof. unfold pois. rewrite fact_simpl, mult_INR. cbn [pow]. pose proof (fact_pos j). assert (0 < INR (S j)) by (apply lt_0_INR; lia). field. split; lra. Qed.
Lemma dY_S j : dY (S j) = dY j + pois (l / 2) (S j).
Proof. reflexivity. Qed.
Lemma dY_0 : dY 0 = exp (- l / 2).
Proof. unfold dY. cbn [rsum]. rewrite pois_0, Rplus_0_l. f_equal. field. Qed.
Lemma dY_bd j : 0 <= dY j <= 1.
Proof.
  unfold dY. split; [apply rsum_nonneg; intros; apply pois_pos; lra|]. pose proof (ptail_pos (S j) (l / 2) ltac:(lra)) as P. rewrite ptail_sum in P. lra.
Qed.
Lemma dY_ee j : dY j = exp (- (l / 2)) * ee j (l / 2).
Proof. induction j; [unfold dY; cbn [rsum ee]; rewrite pois_0; ring|]. rewrite dY_S, IHj. cbn [ee]. unfold pois. unfold Rdiv. ring. Qed.
Definition dsum (k : nat) : R := rsum k (fun j => dY j * dT j).
Lemma ding_series : is_series (fun j => dY j * dT j) (Hn Gam (sg / 2) (l / 2) (x / 2)).
Proof.
  unfold Hn, hform. rewrite <- !Rmult_assoc. unfold PSeries.
  apply (is_series_ext (fun n => (exp (- (l / 2)) * Rpower (x / 2) (sg / 2) * exp (- (x / 2))) * (Hcf Gam (sg / 2) (l / 2) n * (x / 2) ^ n))).
  - intros n. cbv beta. Req. rewrite dY_ee. unfold dT, Hcf. rewrite Rpower_plus, Rpower_pow by lra. replace (- x / 2) with (- (x / 2)) by field. unfold Rdiv. ring.
  - apply (is_series_scal (K := R_AbsRing) (V := R_NormedModule)). apply Series_correct. apply ps_ex. apply Hcf_cv; [exact HG|lra].
Qed.
(** geometric bound of the remainder *)
Lemma dT_tail k i : x < sg + 2 * INR (S k) -> dT (S k + i) <= dT k * (x / (sg + 2 * INR (S k))) ^ S i.
Proof.
  intros H. set (r := x / (sg + 2 * INR (S k))). assert (Hr : 0 < r) by (apply Rdiv_lt_0_compat; lra).
  induction i; [rewrite Nat.add_0_r, dT_S; unfold r; apply Req_le; unfold Rdiv; cbn [pow]; ring|].
  rewrite Nat.add_succ_r, dT_S. apply Rle_trans with (dT (S k + i) * r).
  - unfold Rdiv at 1. rewrite Rmult_assoc. apply Rmult_le_compat_l; [left; apply dT_pos|]. unfold r, Rdiv. apply Rmult_le_compat_l; [lra|]. apply Rinv_le_contravar; [lra|].
    assert (INR (S k) <= INR (S (S k + i))) by (apply le_INR; lia). lra.
  - replace (dT k * r ^ S (S i)) with (dT k * r ^ S i * r) by (cbn [pow]; ring). apply Rmult_le_compat_r; [lra|exact IHi].
Qed.
Lemma ding_tail k : x < sg + 2 * INR (S k) -> let v := Hn Gam (sg / 2) (l / 2) (x / 2) - dsum (S k) in 0 < v <= dT k * x / (sg + 2 * INR (S k) - x).
Proof.
  intros H v. set (r := x / (sg + 2 * INR (S k))). assert (Hr : 0 < r < 1). { split; [apply Rdiv_lt_0_compat; lra|]. unfold r. apply Rlt_div_l; lra. }
  pose proof ding_series as E. pose proof (is_series_unique _ _ E) as U.
  assert (X : ex_series (fun i => dY (S k + i) * dT (S k + i))) by (apply (ex_series_incr_n (fun j => dY j * dT j) (S k)); eexists; exact E).
  assert (V : v = Series (fun i => dY (S k + i) * dT (S k + i))).
  { unfold v. rewrite <- U. rewrite (Series_incr_n _ (S k)) by (try lia; eexists; exact E). cbn [pred].
    unfold dsum. rewrite rsum_sum_n, sum_n_Reals. ring. }
  assert (Yp : forall j, 0 < dY j). { intros j. unfold dY. rewrite rsum_shift. pose proof (exp_pos (- (l / 2))). rewrite pois_0. assert (0 <= rsum j (fun k => pois (l / 2) (S k))) by (apply rsum_nonneg; intros; apply pois_pos; lra). lra. }
  split.
  - rewrite V. rewrite Series_incr_1 by exact X. assert (0 <= Series (fun n => dY (S k + S n) * dT (S k + S n))).
    { apply Series_nonneg; [now apply (ex_series_incr_1 (fun i => dY (S k + i) * dT (S k + i)))|]. intros n. apply Rmult_le_pos; left; [apply Yp|apply dT_pos]. }
    pose proof (Rmult_lt_0_compat _ _ (Yp (S k + 0)%nat) (dT_pos (S k + 0))). lra.
  - rewrite V. assert (G : is_series (fun i => dT k * r * r ^ i) (dT k * r * / (1 - r))).
    { apply (is_series_scal (K := R_AbsRing) (V := R_NormedModule)). apply is_series_geom. rewrite Rabs_right; lra. }
    replace (dT k * x / (sg + 2 * INR (S k) - x)) with (dT k * r * / (1 - r)).
    + rewrite <- (is_series_unique _ _ G). apply Series_le; [|eexists; exact G]. intros n. split; [apply Rmult_le_pos; left; [apply Yp|apply dT_pos]|].
      apply Rle_trans with (1 * dT (S k + n)); [apply Rmult_le_compat_r; [left; apply dT_pos|apply dY_bd]|]. rewrite Rmult_1_l.
      eapply Rle_trans; [apply dT_tail; exact H|]. apply Req_le. fold r. cbn [pow]. ring.
    + unfold r. field. split; lra.
Qed.
Definition stop (k : nat) : Prop := match k with O => False | S j => x < sg + 2 * INR k /\ dT j * x / (sg + 2 * INR k - x) <= / 10 ^ 7 end.
Lemma stop_exists : exists k, stop (S k).
Proof.
  assert (L : is_lim_seq dT 0).
  { assert (E : exists k, x < sg + 2 * INR (S k)). { destruct (Rcomplements.nfloor_ex (x / 2) ltac:(lra)) as [n Hn]. exists n. rewrite S_INR. lra. }
    destruct E as [k0 E]. apply (is_lim_seq_incr_n _ (S k0)). set (r := x / (sg + 2 * INR (S k0))). assert (Hr : 0 < r < 1). { split; [apply Rdiv_lt_0_compat; lra|]. unfold r. apply Rlt_div_l; lra. }
    apply (is_lim_seq_le_le (fun _ => 0) _ (fun i => dT k0 * r * r ^ i)).
    - intros n. split; [left; apply dT_pos|]. rewrite Nat.add_comm. eapply Rle_trans; [apply dT_tail; exact E|]. apply Req_le. fold r. cbn [pow]. ring.
    - apply is_lim_seq_const.
    - replace (Finite 0) with (Rbar_mult (dT k0 * r) 0) by (cbn; f_equal; ring). apply is_lim_seq_scal_l. apply is_lim_seq_geom. rewrite Rabs_right; lra. }
  destruct (proj2 (is_lim_seq_spec _ _) L (mkposreal (/ 10 ^ 7) ltac:(apply Rinv_0_lt_compat; lra))) as [N HN]. cbn [pos] in HN.
  destruct (Rcomplements.nfloor_ex x ltac:(lra)) as [n Hn]. set (k := (N + n)%nat). exists k. unfold stop.
  assert (A : 2 * x < sg + 2 * INR (S k)). { assert (INR n + 1 <= INR (S k)) by (rewrite <- S_INR; apply le_INR; unfold k; lia). lra. }
  split; [lra|]. specialize (HN k ltac:(unfold k; lia)). rewrite Rminus_0_r, Rabs_right in HN by (left; apply dT_pos). pose proof (dT_pos k).
  apply Rle_trans with (dT k * 1); [|lra]. unfold Rdiv. rewrite Rmult_assoc. apply Rmult_le_compat_l; [lra|]. apply Rle_div_l; [lra|]. lra.
Qed.
Lemma ding_run N : forall k fuel, stop (S N) -> (k <= N)%nat -> (N - k < fuel)%nat ->
  exists k', stop (S k') /\ ding_loop Gam x sg l fuel (S k) (dT k) (pois (l / 2) k) (dY k) (dsum (S k)) = Some (dsum (S k')).
Proof.
  intros k. remember (N - k)%nat as d eqn:Ed. revert k Ed. induction d as [|d IH]; intros k Ed fuel HN Hk Hf; (destruct fuel as [|fuel]; [lia|]); cbn [ding_loop Nat.leb andb].
  - assert (k = N) by lia. subst k. destruct HN as [A B]. destruct (Rlt_dec _ _) as [_|N1]; [|contradiction]. destruct (Rle_dec _ _) as [_|N1]; [|contradiction]. cbn [andb]. exists N. split; [split; assumption|reflexivity].
  - destruct (Rlt_dec _ _) as [A|A]; [destruct (Rle_dec _ _) as [B|B]|]; cbn [andb]; [exists k; split; [split; assumption|reflexivity]| |];
    (rewrite <- dT_S, <- dU_S, <- dY_S; change (dsum (S k) + dY (S k) * dT (S k)) with (dsum (S (S k))); apply IH; [lia|exact HN|lia|lia]).
Qed.
Lemma ding_fuel fuel : forall k t u y c v, ding_loop Gam x sg l fuel k t u y c = Some v -> forall n, (fuel <= n)%nat -> ding_loop Gam x sg l n k t u y c = Some v.
Proof.
  induction fuel as [|f IH]; intros k t u y c v H n Hn; [discriminate|]. destruct n as [|n]; [lia|]. cbn [ding_loop] in *. destruct (_ && _)%bool; [exact H|]. apply (IH _ _ _ _ _ _ H). lia.
Qed.
Lemma ding_correct : exists k N, stop (S k) /\ forall fuel, (N <= fuel)%nat -> ding_loop Gam x sg l fuel 0 0 0 0 0 = Some (dsum (S k)).
Proof.
  destruct stop_exists as [N HN]. destruct (ding_run N 0 (S N) HN ltac:(lia) ltac:(lia)) as (k' & S' & E). exists k', (S (S N)). split; [exact S'|].
  intros fuel Hf. apply (ding_fuel (S (S N))); [|exact Hf]. change (ding_loop Gam x sg l (S (S N)) 0 0 0 0 0) with
    (ding_loop Gam x sg l (S N) 1 (1 / Gam (sg / 2 + 1) * Rpower (x / 2) (sg / 2) * exp (- x / 2)) (exp (- l / 2)) (exp (- l / 2)) (0 + exp (- l / 2) * (1 / Gam (sg / 2 + 1) * Rpower (x / 2) (sg / 2) * exp (- x / 2)))).
  rewrite <- dT_0. assert (P : exp (- l / 2) = pois (l / 2) 0) by (rewrite pois_0; f_equal; field). rewrite <- E. rewrite P. unfold dsum. cbn [rsum].
  replace (dY 0) with (pois (l / 2) 0) by (rewrite dY_0, P; reflexivity). reflexivity.
Qed.
End D.
