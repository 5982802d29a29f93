(** Variance paths of the Heston schemes: range, exact first two moments of the QE path at every date. *)
From Coq Require Import Reals Lra Lia Arith.
From Coquelicot Require Import Coquelicot.
From Verif Require Import Base Gauss Sums M_Opt M_Mgf M_Heston M_HestonMc M_HestonMc2 Spec_Expect P_Expect P_KlLaw P_Cir P_Cir2 P_Qe M_HPath.
Open Scope R_scope.

Lemma hv_raises p scheme dts draws : hv_paths p scheme dts draws = None <-> (4 < scheme)%nat.
Proof.
  unfold hv_paths, hv_step. do 5 (destruct scheme as [|scheme]; [split; [discriminate|lia]|]). split; [lia|reflexivity].
Qed.
Lemma cir_var_pos' c t v : 0 < c_mr c -> 0 < c_theta c -> c_xi c <> 0 -> 0 < t -> 0 <= v -> 0 < cir_var c t v.
Proof.
  intros Hk Ht Hx HT Hv. destruct (Rle_lt_or_eq_dec 0 v Hv) as [H|<-]; [apply cir_var_pos; try assumption; lra|].
  destruct c as [xi k th]. cbn [c_mr c_theta c_xi] in *. rewrite cir_var_eq by lra. unfold wV.
  assert (E : exp (- (k * t)) < 1) by (rewrite <- exp_0; apply exp_increasing; nra). set (e := exp (- (k * t))) in *.
  pose proof (pow2_gt_0 xi Hx).
  match goal with |- 0 < ?X => replace X with (xi ^ 2 * th * (1 - e) ^ 2 / (2 * k)) by (field; lra) end.
  apply Rdiv_lt_0_compat; [|lra]. apply Rmult_lt_0_compat; [nra|]. apply pow_lt. lra.
Qed.
Lemma cir_mean_pos' c t v : 0 < c_theta c -> 0 < c_mr c -> 0 < t -> 0 <= v -> 0 < cir_mean c t v.
Proof.
  intros Hth Hk Ht Hv. unfold cir_mean. pose proof (exp_pos (- (c_mr c * t))).
  assert (exp (- (c_mr c * t)) < 1). { rewrite <- exp_0. apply exp_increasing. nra. } nra.
Qed.
Lemma hv_step_nonneg p scheme st dt v x : 0 < v_mr p -> 0 < v_theta p -> v_vov p <> 0 -> 0 < dt -> 0 <= v -> (scheme = 2%nat \/ scheme = 3%nat -> 0 <= x) ->
  hv_step p scheme = Some st -> 0 <= st dt v x.
Proof.
  intros Hk Ht Hx Hd Hv Hs. unfold hv_step.
  assert (Sc : 0 <= cir_exp_h (heston_cir p) dt / cir_phi (heston_cir p) dt).
  { unfold cir_phi, cir_exp_h. cbv zeta. cbn [heston_cir c_mr c_xi]. pose proof (exp_pos (- (v_mr p * dt / 2))) as P.
    assert (E : exp (- (v_mr p * dt / 2)) < 1) by (rewrite <- exp_0; apply exp_increasing; nra). set (e := exp (- (v_mr p * dt / 2))) in *.
    assert (I : 1 < / e) by (rewrite <- Rinv_1; apply Rinv_lt_contravar; lra).
    apply Rmult_le_pos; [lra|]. apply Rlt_le, Rinv_0_lt_compat. apply Rmult_lt_0_compat; [|apply Rinv_0_lt_compat; lra]. pose proof (pow2_gt_0 _ Hx). apply Rdiv_lt_0_compat; lra. }
  destruct scheme as [|[|[|[|[|s]]]]]; intros E; inversion E; subst; clear E.
  - unfold cir_euler. apply Rmax_r.
  - unfold cir_euler. apply Rmax_r.
  - unfold cir_ncx2_args. apply Rmult_le_pos; [exact Sc|apply Hs; now left].
  - unfold cir_pois_gamma_args. apply Rmult_le_pos; [lra|apply Hs; now right].
  - apply qe_nonneg; [apply cir_mean_pos'|apply cir_var_pos']; assumption.
Qed.
Lemma hv_nonneg p scheme dts draws path : 0 <= v_sigma p -> 0 < v_mr p -> 0 < v_theta p -> v_vov p <> 0 -> (forall i, 0 < dts i) ->
  (scheme = 2%nat \/ scheme = 3%nat -> forall i, 0 <= draws i) -> hv_paths p scheme dts draws = Some path -> forall i, 0 <= path i.
Proof.
  intros Hs Hk Ht Hx Hd Hdr. unfold hv_paths. destruct (hv_step p scheme) as [st|] eqn:E; [|discriminate]. intros Eq. inversion Eq; subst; clear Eq.
  induction i as [|i IH]; cbn [hv_entry]; [exact Hs|]. apply (hv_step_nonneg p scheme st); try assumption; [apply Hd|]. intros H. exact (Hdr H i).
Qed.

Section Qe.
Variable (p : svp) (dts : nat -> R).
Hypothesis (Hs : 0 <= v_sigma p) (Hk : 0 < v_mr p) (Ht : 0 < v_theta p) (Hx : v_vov p <> 0) (Hd : forall i, 0 < dts i).
Let c := heston_cir p.
Let st := fun dt v z => qe_var (cir_mean c dt v) (cir_var c dt v) z.
Let T n := rsum n dts.
Lemma qe_entry_nonneg z i : 0 <= hv_entry st dts (v_sigma p) z i.
Proof.
  induction i as [|i IH]; cbn [hv_entry]; [exact Hs|]. unfold st at 1. apply qe_nonneg; [apply cir_mean_pos'|apply cir_var_pos']; try assumption; apply Hd.
Qed.
Lemma hv_entry_upd z n y i : (i <= n)%nat -> hv_entry st dts (v_sigma p) (upd z n y) i = hv_entry st dts (v_sigma p) z i.
Proof.
  induction i as [|i IH]; intros Hi; [reflexivity|]. cbn [hv_entry]. rewrite IH by lia. unfold upd at 1. destruct (Nat.eqb_spec i n); [lia|reflexivity].
Qed.
Lemma T_nonneg n : 0 <= T n.
Proof. unfold T. induction n as [|n IH]; cbn [rsum]; [lra|]. pose proof (Hd n). lra. Qed.
Lemma qe_quad n : forall a b q, normals_expect n (fun z => a + b * hv_entry st dts (v_sigma p) z n + q * hv_entry st dts (v_sigma p) z n ^ 2)
  (a + b * cir_mean c (T n) (v_sigma p) + q * (cir_mean c (T n) (v_sigma p) ^ 2 + cir_var c (T n) (v_sigma p))).
Proof.
  assert (Kc : c_mr c <> 0) by (unfold c, heston_cir; cbn [c_mr]; lra).
  induction n as [|n IH]; intros a b q.
  - cbn [normals_expect hv_entry]. intros z. unfold T. cbn [rsum]. unfold cir_mean, cir_var. cbv zeta. rewrite Rmult_0_r, Ropp_0, exp_0. ring.
  - cbn [normals_expect]. set (V := fun z => hv_entry st dts (v_sigma p) z n). set (d := dts n).
    exists (fun z => a + b * cir_mean c d (V z) + q * (cir_mean c d (V z) ^ 2 + cir_var c d (V z))). split.
    + intros z. pose proof (qe_entry_nonneg z n) as P. fold (V z) in P.
      assert (M : 0 < cir_mean c d (V z)) by (apply cir_mean_pos'; try assumption; apply Hd).
      assert (W : 0 < cir_var c d (V z)) by (apply cir_var_pos'; try assumption; apply Hd).
      apply (gauss_expect_ext (fun y => (a + b * qe_var (cir_mean c d (V z)) (cir_var c d (V z)) y) + q * qe_var (cir_mean c d (V z)) (cir_var c d (V z)) y ^ 2)).
      * intros y. cbn [hv_entry]. rewrite hv_entry_upd by lia. fold (V z). unfold upd. rewrite Nat.eqb_refl. fold d. reflexivity.
      * apply gauss_expect_plus; [apply gauss_expect_plus; [apply gauss_expect_const|apply gauss_expect_scal, qe_mean; assumption]|apply gauss_expect_scal, qe_second; assumption].
    + (* the conditional moments are quadratic in the current variance *)
      set (e := exp (- (c_mr c * d))). set (th := c_theta c). set (w0 := cir_var c d 0). set (w1 := cir_var c d 1 - cir_var c d 0).
      assert (Lin : forall v, cir_var c d v = w0 + w1 * v). { intros v. unfold w0, w1, cir_var. cbv zeta. ring. }
      assert (Mn : forall v, cir_mean c d v = th * (1 - e) + e * v). { intros v. unfold cir_mean. fold e th. ring. }
      pose proof (IH (a + b * (th * (1 - e)) + q * ((th * (1 - e)) ^ 2 + w0)) (b * e + q * (2 * (th * (1 - e)) * e + w1)) (q * e ^ 2)) as H.
      eapply normals_ext in H.
      2:{ intros z. instantiate (1 := fun z => a + b * cir_mean c d (V z) + q * (cir_mean c d (V z) ^ 2 + cir_var c d (V z))). cbv beta. rewrite Mn, Lin. unfold V. ring. }
      match type of H with normals_expect _ _ ?X => match goal with |- normals_expect _ _ ?Y => replace Y with X; [exact H|] end end.
      assert (TS : T (S n) = T n + d) by reflexivity. rewrite TS, <- cir_mean_compose, (cir_var_compose c d (T n)) by exact Kc. fold e.
      rewrite Mn, Lin. ring.
Qed.
End Qe.
Lemma hv_qe_moments p dts n : 0 <= v_sigma p -> 0 < v_mr p -> 0 < v_theta p -> v_vov p <> 0 -> (forall i, 0 < dts i) ->
  exists path, (forall z, hv_paths p 4 dts z = Some (path z)) /\
    normals_expect n (fun z => path z n) (cir_mean (heston_cir p) (rsum n dts) (v_sigma p)) /\
    normals_expect n (fun z => path z n ^ 2) (cir_mean (heston_cir p) (rsum n dts) (v_sigma p) ^ 2 + cir_var (heston_cir p) (rsum n dts) (v_sigma p)).
Proof.
  intros Hs Hk Ht Hx Hd. eexists. split; [intros z; unfold hv_paths; cbn [hv_step]; reflexivity|]. split.
  - pose proof (qe_quad p dts Hs Hk Ht Hx Hd n 0 1 0) as H. rewrite Rmult_0_l, Rplus_0_l, Rplus_0_r, Rmult_1_l in H. eapply normals_ext; [|exact H]. intros z. cbv beta. ring.
  - pose proof (qe_quad p dts Hs Hk Ht Hx Hd n 0 0 1) as H. rewrite Rmult_0_l, !Rplus_0_l, Rmult_1_l in H. eapply normals_ext; [|exact H]. intros z. cbv beta. ring.
Qed.
Lemma hv_step_pricing p dts draws i path : hv_paths p 4 dts draws = Some path -> path (S i) = fst (fst (qe_step p draws i (dts i) (path i))).
Proof. unfold hv_paths. cbn [hv_step]. intros E. inversion E. reflexivity. Qed.
Lemma hv_poistd p dts dr i path : hv_paths p 3 dts (fun k => snd (dr k)) = Some path -> path i = poistd_vol_path (heston_cir p) dts (v_sigma p) dr i.
Proof.
  unfold hv_paths. cbn [hv_step]. intros E. inversion E; subst; clear E. induction i as [|i IH]; [reflexivity|]. cbn [hv_entry poistd_vol_path]. cbv beta iota zeta delta [cir_pois_gamma_args]. reflexivity.
Qed.
Lemma hv_euler_scaling p d z path : 0 < d -> d <> 1 -> 0 < v_sigma p -> 0 < v_vov p -> z <> 0 ->
  hv_paths p 0 (fun _ => d) (fun _ => z) = Some path -> 0 < path 1%nat ->
  path 1%nat <> v_sigma p + v_mr p * (v_theta p - v_sigma p) * d + v_vov p * sqrt (v_sigma p) * (sqrt d * z).
Proof.
  intros Hd H1 Hs Hv Hz. unfold hv_paths. cbn [hv_step]. intros E. inversion E; subst; clear E. cbn [hv_entry].
  unfold cir_euler. cbv zeta. cbn [heston_cir c_mr c_theta c_xi]. intros P E.
  assert (S0 : 0 < sqrt (v_sigma p)) by (apply sqrt_lt_R0, Hs). unfold Rmax in P, E. destruct (Rle_dec _ 0); [lra|].
  assert (Z : v_vov p * z * sqrt (v_sigma p) * (1 - sqrt d) = 0) by lra.
  assert (1 - sqrt d <> 0). { intros H. assert (Q : sqrt d = 1) by lra. apply H1. rewrite <- (sqrt_sqrt d) by lra. rewrite Q. ring. }
  assert (v_vov p * z * sqrt (v_sigma p) <> 0) by (repeat apply Rmult_integral_contrapositive_currified; lra).
  apply Rmult_integral in Z. tauto.
Qed.
