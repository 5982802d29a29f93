(** Integrals over (0, infinity): toolkit. *)
From Coq Require Import Reals Lra Lia List Psatz Bool.
From Coquelicot Require Import Coquelicot.
From Verif Require Import Base Gauss Sums Spec_Expect Spec_Dist P_Dist2.
Import ListNotations.
Open Scope R_scope.

Lemma half_line_ext f g v : (forall x, 0 < x -> f x = g x) -> half_line f v -> half_line g v.
Proof.
  intros H. unfold half_line. apply is_RInt_gen_ext.
  apply (Filter_prod _ _ _ (fun a => 0 < a) (fun b => 0 < b)).
  - exists (mkposreal 1 Rlt_0_1). intros y _ Hy. exact Hy.
  - exists 0. auto.
  - intros a b Ha Hb x Hx. cbn in Hx. apply H. pose proof (Rmin_glb_lt a b 0 Ha Hb). lra.
Qed.
Lemma half_line_scal f v k : half_line f v -> half_line (fun x => k * f x) (k * v).
Proof. intros H. exact (is_RInt_gen_scal (V := R_NormedModule) f k v H). Qed.
Lemma half_line_plus f g u v : half_line f u -> half_line g v -> half_line (fun x => f x + g x) (u + v).
Proof. intros H1 H2. exact (is_RInt_gen_plus (V := R_NormedModule) f g u v H1 H2). Qed.
Lemma half_line_unique f u v : half_line f u -> half_line f v -> u = v.
Proof.
  intros H1 H2. unfold half_line in *.
  pose proof (is_RInt_gen_unique (V := R_CompleteNormedModule) f u H1). pose proof (is_RInt_gen_unique (V := R_CompleteNormedModule) f v H2). congruence.
Qed.
Lemma half_line_anti (G g : R -> R) (l0 l1 : R) : (forall x, 0 < x -> is_derive G x (g x)) -> (forall x, 0 < x -> continuous g x) ->
  filterlim G (at_right 0) (locally l0) -> is_lim G p_infty l1 -> half_line g (l1 - l0).
Proof.
  intros HD HC L0 L1. unfold half_line, is_RInt_gen. intros P [e He].
  assert (E2 : 0 < e / 2) by (destruct e; cbn; lra).
  assert (A0 : at_right 0 (fun a => Rabs (G a - l0) < e / 2)).
  { apply (L0 (fun y => Rabs (y - l0) < e / 2)). exists (mkposreal _ E2). intros y Hy. exact Hy. }
  apply is_lim_spec in L1. destruct (L1 (mkposreal _ E2)) as [B HB]. cbn in HB.
  apply (Filter_prod _ _ _ (fun a => 0 < a /\ a < 1 /\ Rabs (G a - l0) < e / 2) (fun b => Rmax 1 B < b)).
  - destruct A0 as [d Hd]. exists (mkposreal _ (Rmin_pos 1 d Rlt_0_1 (cond_pos d))). intros y Hy Hy0.
    unfold ball in Hy; cbn in Hy. unfold AbsRing_ball in Hy; cbn in Hy. pose proof (Rmin_l 1 d). pose proof (Rmin_r 1 d).
    split; [exact Hy0|]. split.
    + unfold abs, minus, plus, opp in Hy; cbn in Hy. rewrite Rabs_right in Hy by lra. lra.
    + apply Hd; [|exact Hy0]. unfold ball; cbn. unfold AbsRing_ball; cbn. eapply Rlt_le_trans; [exact Hy|assumption].
  - exists (Rmax 1 B). auto.
  - intros a b (Ha & Ha1 & HGa) Hb. pose proof (Rmax_l 1 B). pose proof (Rmax_r 1 B). cbn [fst snd].
    exists (G b - G a). split.
    + apply (is_RInt_derive G g); intros x; rewrite Rmin_left, Rmax_right by lra; intros Hx; [apply HD|apply HC]; lra.
    + apply He. unfold ball; cbn. unfold AbsRing_ball; cbn. unfold abs, minus, plus, opp; cbn.
      pose proof (HB b ltac:(lra)) as HGb. apply Rabs_def2 in HGa. apply Rabs_def2 in HGb. apply Rabs_def1; lra.
Qed.
(** scaling x = c y *)
Lemma half_line_dilate f v c : 0 < c -> half_line f v -> half_line (fun y => c * f (c * y)) v.
Proof.
  intros Hc H P HP. specialize (H P HP). destruct H as [Q S HQ HS H].
  apply (Filter_prod _ _ _ (fun a => Q (c * a)) (fun b => S (c * b))).
  - destruct HQ as [d Hd]. assert (D : 0 < d / c) by (apply Rdiv_lt_0_compat; [apply cond_pos|exact Hc]). exists (mkposreal _ D). intros y Hy Hy0.
    apply Hd; [|now apply Rmult_lt_0_compat]. unfold ball in *; cbn in *. unfold AbsRing_ball in *; cbn in *. unfold abs, minus, plus, opp in *; cbn in *.
    rewrite Ropp_0, Rplus_0_r in *. rewrite Rabs_mult, (Rabs_right c) by lra. apply (Rmult_lt_compat_l c) in Hy; [|exact Hc].
    replace (c * (d / c)) with (pos d) in Hy by (field; lra). exact Hy.
  - destruct HS as [M HM]. exists (M / c). intros y Hy. apply HM. apply (Rmult_lt_compat_l c) in Hy; [|exact Hc]. replace (c * (M / c)) with M in Hy by (field; lra). exact Hy.
  - intros a b Ha Hb. destruct (H _ _ Ha Hb) as (y & Hy1 & Hy2). exists y. split; [|exact Hy2]. cbn [fst snd] in *.
    apply (is_RInt_ext (fun y => scal c (f (c * y + 0)))). { intros x _. Req. unfold scal; cbn; unfold mult; cbn. now rewrite Rplus_0_r. }
    apply (is_RInt_comp_lin (V := R_NormedModule) f c 0). rewrite !Rplus_0_r. exact Hy1.
Qed.

(** Rpower helpers and limits of x^s exp(-b x) *)
Lemma is_derive_Rpower (s x : R) : 0 < x -> is_derive (fun y => Rpower y s) x (s * Rpower x (s - 1)).
Proof.
  intros Hx. unfold Rpower. auto_derive; [exact Hx|]. Req. replace ((s - 1) * ln x) with (s * ln x + - ln x) by ring.
  rewrite exp_plus, exp_Ropp, exp_ln by exact Hx. field. lra.
Qed.
Lemma Rpower_succ (s x : R) : 0 < x -> x * Rpower x (s - 1) = Rpower x s.
Proof. intros Hx. rewrite <- (Rpower_1 x) at 1 by exact Hx. rewrite <- Rpower_plus. f_equal. ring. Qed.
Lemma Rpower_pos' x s : 0 < Rpower x s. Proof. unfold Rpower. apply exp_pos. Qed.
Lemma exp_lim_m (k : R) : 0 < k -> is_lim (fun x => exp (- k * x)) p_infty 0.
Proof.
  intros Hk. apply (is_lim_le_le_loc (fun _ => 0) (fun x => / k * / x)).
  - exists 0. intros x Hx. split; [left; apply exp_pos|]. replace (- k * x) with (- (k * x)) by ring. rewrite exp_Ropp, <- Rinv_mult.
    assert (0 < k * x) by nra. apply Rinv_le_contravar; [lra|]. pose proof (exp_ineq1_le (k * x)). lra.
  - apply is_lim_const.
  - replace (Finite 0) with (Rbar_mult (/ k) (Rbar_inv p_infty)). 2:{ cbn. f_equal. ring. }
    apply is_lim_scal_l. apply is_lim_inv; [apply is_lim_id|easy].
Qed.
Lemma powexp_lim_p (s b : R) : 0 < b -> 0 <= s -> is_lim (fun x => Rpower x s * exp (- b * x)) p_infty 0.
Proof.
  intros Hb Hs. apply (is_lim_le_le_loc (fun _ => 0) (fun x => exp (- (b / 2) * x))).
  - exists (Rmax 1 ((4 * s / b) ^ 2)). intros x Hx. pose proof (Rmax_l 1 ((4 * s / b) ^ 2)). pose proof (Rmax_r 1 ((4 * s / b) ^ 2)).
    split. { apply Rmult_le_pos; left; [apply Rpower_pos'|apply exp_pos]. }
    unfold Rpower. rewrite <- exp_plus. apply exp_le.
    set (r := sqrt x). assert (R2 : r * r = x) by (apply sqrt_sqrt; lra). assert (Rp : 0 < r) by (apply sqrt_lt_R0; lra).
    assert (L : ln x <= 2 * r). { rewrite <- R2. rewrite ln_mult by exact Rp. assert (ln r <= r - 1). { pose proof (exp_ineq1_le (ln r)) as E. rewrite exp_ln in E by exact Rp. lra. } lra. }
    assert (G : 4 * s / b <= r). { unfold r. rewrite <- (sqrt_pow2 (4 * s / b)). - apply sqrt_le_1_alt. lra. - apply Rmult_le_pos; [lra|left; now apply Rinv_0_lt_compat]. }
    apply (Rmult_le_compat_r b) in G; [|lra]. replace (4 * s / b * b) with (4 * s) in G by (field; lra).
    assert (s * ln x <= s * (2 * r)) by (apply Rmult_le_compat_l; lra).
    assert (H3 : 4 * s * r <= r * b * r) by (apply Rmult_le_compat_r; lra). replace (r * b * r) with (b * (r * r)) in H3 by ring. rewrite R2 in H3. lra.
  - apply is_lim_const.
  - apply exp_lim_m. lra.
Qed.
Lemma powexp_lim_0 (s b : R) : 0 < b -> 0 < s -> filterlim (fun x => Rpower x s * exp (- b * x)) (at_right 0) (locally 0).
Proof.
  intros Hb Hs. intros P [e He]. assert (Ep := cond_pos e).
  exists (mkposreal _ (exp_pos (ln e / s))). intros y Hy Hy0. apply He.
  unfold ball in *; cbn in *. unfold AbsRing_ball in *; cbn in *. unfold abs, minus, plus, opp in *; cbn in *. rewrite Ropp_0, Rplus_0_r in *.
  rewrite Rabs_right in Hy by lra. assert (PP := Rpower_pos' y s). assert (EE := exp_pos (- b * y)). rewrite Rabs_right by nra.
  apply Rle_lt_trans with (Rpower y s * 1). { apply Rmult_le_compat_l; [lra|]. rewrite <- exp_0. apply exp_le. nra. }
  rewrite Rmult_1_r. unfold Rpower. rewrite <- (exp_ln e Ep). apply exp_increasing.
  assert (L : ln y < ln e / s). { rewrite <- (ln_exp (ln e / s)). now apply ln_increasing. }
  apply (Rmult_lt_compat_l s) in L; [|exact Hs]. replace (s * (ln e / s)) with (ln e) in L by (field; lra). exact L.
Qed.
