(** More on the transform; the Euler transformation. *)
From Coq Require Import Reals Lra Lia Psatz Arith List.
From Coquelicot Require Import Coquelicot.
From Verif Require Import Base Sums Spec_NsvhQuad Spec_SabrCai M_Dist P_Dist P_NsvhQuad2 M_SabrCai P_SabrCai3.
Open Scope R_scope.
Lemma arccosh_lt x y : 1 <= x -> x < y -> arccosh x < arccosh y.
Proof.
  intros Hx Hy. unfold arccosh. pose proof (sqrt_pos (x ^ 2 - 1)). apply ln_increasing; [lra|]. assert (sqrt (x ^ 2 - 1) <= sqrt (y ^ 2 - 1)) by (apply sqrt_le_1_alt; nra). lra.
Qed.
Lemma zf0 s : 0 < s -> zf s 0 = cosh (ln s).
Proof. intros Hs. unfold zf, cosh. rewrite exp_Ropp, exp_ln by lra. field. lra. Qed.
Lemma zf_ge1 s lam : 0 < s -> 0 <= lam -> 1 <= zf s lam.
Proof. intros Hs [H| <-]; [left; now apply zf_gt1|]. rewrite zf0 by exact Hs. apply cosh_ge1. Qed.
Lemma arccosh_cosh x : arccosh (cosh x) ^ 2 = x ^ 2.
Proof.
  assert (E : arccosh (cosh x) = Rabs x). { unfold arccosh. rewrite <- (cosh_abs x). set (a := Rabs x). pose proof (Rabs_pos x). fold a in H. replace (cosh a ^ 2 - 1) with (sinh a ^ 2).
    - rewrite <- Rsqr_pow2, sqrt_Rsqr. + replace (cosh a + sinh a) with (exp a) by (unfold cosh, sinh; field). apply ln_exp. + destruct H as [H|H]; [left; now apply sinh_pos0|rewrite <- H, sinh_0; lra].
    - unfold cosh, sinh. rewrite exp_Ropp. field. apply Rgt_not_eq, exp_pos. }
  rewrite E. apply pow2_abs.
Qed.
Lemma mgf_form u w s : 0 < w -> 0 < s -> cond_invavgvar_mgf u w s = exp ((ln s ^ 2 - arccosh (zf s (- u * w ^ 2)) ^ 2) / (2 * w ^ 2)).
Proof. reflexivity. Qed.
Lemma mgf_0 w s : 0 < w -> 0 < s -> cond_invavgvar_mgf 0 w s = 1.
Proof. intros Hw Hs. rewrite mgf_form by assumption. replace (- 0 * w ^ 2) with 0 by ring. rewrite zf0, arccosh_cosh by exact Hs. replace (_ / _) with 0 by (field; lra). apply exp_0. Qed.
Lemma mgf_incr u1 u2 w s : 0 < w -> 0 < s -> u1 < u2 -> u2 <= 0 -> cond_invavgvar_mgf u1 w s < cond_invavgvar_mgf u2 w s.
Proof.
  intros Hw Hs H1 H2. rewrite !mgf_form by assumption. assert (W : 0 < w ^ 2) by (apply pow_lt; lra). apply exp_increasing. unfold Rdiv. apply Rmult_lt_compat_r; [apply Rinv_0_lt_compat; lra|].
  assert (A : zf s (- u2 * w ^ 2) < zf s (- u1 * w ^ 2)). { unfold zf, Rdiv. apply Rplus_lt_compat_l. apply Rmult_lt_compat_r; [apply Rinv_0_lt_compat; lra|]. nra. }
  pose proof (zf_ge1 s (- u2 * w ^ 2) Hs ltac:(nra)) as G. pose proof (arccosh_lt _ _ G A) as L. pose proof (arccosh_ge0 _ G). nra.
Qed.
Lemma mgf_range u w s : 0 < w -> 0 < s -> u <= 0 -> 0 < cond_invavgvar_mgf u w s <= 1.
Proof. intros Hw Hs [H|H]; [|subst; rewrite mgf_0 by assumption; lra]. split; [apply exp_pos|]. rewrite <- (mgf_0 w s Hw Hs). left. apply mgf_incr; lra. Qed.
Lemma mgf_lim w s : 0 < w -> 0 < s -> is_lim (fun th => cond_invavgvar_mgf (- th) w s) p_infty 0.
Proof.
  intros Hw Hs. assert (W : 0 < w ^ 2) by (apply pow_lt; lra). apply is_lim_spec. intros [e He]. cbn [pos].
  set (B := ln s ^ 2 - 2 * w ^ 2 * ln e). assert (HB : exists a, 0 < a /\ B < a ^ 2). { exists (1 + Rabs B). pose proof (Rabs_pos B). pose proof (Rle_abs B). split; [lra|]. nra. } destruct HB as (a & Ha & HB).
  exists (Rmax 0 (cosh a * s / w ^ 2)). intros th Hth. rewrite Rminus_0_r, Rabs_right by (left; apply exp_pos). rewrite mgf_form by assumption.
  assert (T1 : 0 < th) by (eapply Rle_lt_trans; [apply Rmax_l|exact Hth]). assert (T2 : cosh a * s / w ^ 2 < th) by (eapply Rle_lt_trans; [apply Rmax_r|exact Hth]).
  assert (Z : cosh a < zf s (- - th * w ^ 2)). { rewrite Ropp_involutive. unfold zf. apply Rlt_div_l in T2; [|exact W]. assert (cosh a < (/ 2 + th * w ^ 2) / s) by (apply (proj1 (Rlt_div_r (cosh a) (/ 2 + th * w ^ 2) s Hs)); set (W2 := w ^ 2) in *; clearbody W2; lra). lra. }
  assert (C : a < arccosh (zf s (- - th * w ^ 2))). { apply Rle_lt_trans with (arccosh (cosh a)); [|apply arccosh_lt; [apply cosh_ge1|exact Z]]. pose proof (arccosh_cosh a) as E. pose proof (arccosh_ge0 _ (cosh_ge1 a)). set (X := arccosh (cosh a)) in *. clearbody X. destruct (Rle_dec a X) as [|N]; [assumption|]. exfalso. nra. }
  rewrite <- (exp_ln e) by exact He. apply exp_increasing. apply Rlt_div_l; [lra|]. unfold B in HB. nra.
Qed.
(** first moment: E[1/avgvar | sigma_t] *)
Lemma mgf_mean w s : 0 < w -> 0 < s -> s <> 1 -> is_derive (fun u => cond_invavgvar_mgf u w s) 0 (2 * ln s / (s ^ 2 - 1)).
Proof.
  intros Hw Hs N. assert (W : 0 < w ^ 2) by (apply pow_lt; lra). assert (Hz : 1 < zf s 0).
  { rewrite zf0 by exact Hs. rewrite <- (cosh_abs (ln s)), <- cosh_0. apply cosh_lt; [lra|]. apply Rabs_pos_lt. intros E. apply N. rewrite <- (exp_ln s Hs), E. apply exp_0. }
  assert (Dz : is_derive (fun u => zf s (- u * w ^ 2)) 0 (- w ^ 2 / s)) by (unfold zf; auto_derive; [exact I|field; lra]).
  pose proof (gen1 (fun u => zf s (- u * w ^ 2)) (fun _ => - w ^ 2 / s) (fun _ => ln s ^ 2 / (2 * w ^ 2)) (fun _ => 0) (w ^ 2) ltac:(lra) 0) as G.
  cbv beta in G. replace (- 0 * w ^ 2) with 0 in G by ring. specialize (G Hz Dz (is_derive_const_R _ _)).
  apply (is_derive_ext (gE (fun u => zf s (- u * w ^ 2)) (fun _ => ln s ^ 2 / (2 * w ^ 2)) (w ^ 2))).
  { intros u. unfold gE. rewrite mgf_form by assumption. Req. f_equal. field. lra. }
  eapply is_derive_eq; [exact G|]. unfold gE1, gE. replace (- 0 * w ^ 2) with 0 by ring.
  assert (E0 : exp (ln s ^ 2 / (2 * w ^ 2) - arccosh (zf s 0) ^ 2 / (2 * w ^ 2)) = 1). { rewrite zf0, arccosh_cosh by exact Hs. replace (_ - _) with 0 by ring. apply exp_0. } rewrite E0.
  (* phi / sinh phi is even in ln s *)
  assert (R1 : arccosh (zf s 0) = Rabs (ln s)). { pose proof (arccosh_cosh (ln s)) as E. rewrite <- zf0 in E by exact Hs. apply Rsqr_inj; [apply arccosh_ge0; lra|apply Rabs_pos|]. rewrite <- Rsqr_abs. rewrite !Rsqr_pow2. exact E. }
  assert (R2 : sqrt (zf s 0 ^ 2 - 1) = Rabs (s - / s) / 2). { replace (zf s 0 ^ 2 - 1) with (Rsqr ((s - / s) / 2)) by (unfold zf, Rsqr; field; lra). rewrite sqrt_Rsqr_abs. unfold Rdiv. rewrite Rabs_mult, (Rabs_right (/ 2)) by lra. reflexivity. }
  rewrite R1, R2. destruct (Rlt_dec 1 s) as [H|H].
  - assert (0 < ln s) by (rewrite <- ln_1; apply ln_increasing; lra). assert (0 < s - / s). { apply Rlt_Rminus. apply Rlt_trans with 1; [|exact H]. rewrite <- Rinv_1. apply Rinv_lt_contravar; lra. }
    rewrite !Rabs_right by lra. assert (s ^ 2 - 1 <> 0) by nra. field. repeat split; try lra; nra.
  - assert (s < 1) by lra. assert (ln s < 0) by (rewrite <- ln_1; apply ln_increasing; lra). assert (s - / s < 0). { apply Rlt_minus. apply Rlt_trans with 1; [assumption|]. rewrite <- Rinv_1. apply Rinv_lt_contravar; lra. }
    rewrite !Rabs_left by lra. assert (s ^ 2 - 1 <> 0) by nra. field. repeat split; try lra; nra.
Qed.
(** nothing but zero average variance at v = 0 *)
Lemma hjoint_0 s lam : 0 < s -> 0 < lam -> filterlim (fun v => hjoint v s lam / vol_density v s) (at_right 0) (locally 0).
Proof.
  intros Hs Hl. pose proof (zf_ge1 s 0 Hs ltac:(lra)) as Z0. assert (Z1 : zf s 0 < zf s lam). { unfold zf, Rdiv. apply Rplus_lt_compat_l, Rmult_lt_compat_r; [apply Rinv_0_lt_compat; lra|lra]. }
  pose proof (arccosh_lt _ _ Z0 Z1) as L. pose proof (arccosh_ge0 _ Z0). pose proof (arccosh_cosh (ln s)) as E. rewrite <- zf0 in E by exact Hs.
  set (d := (arccosh (zf s lam) ^ 2 - ln s ^ 2) / 2). assert (Hd : 0 < d) by (unfold d; rewrite <- E; nra).
  assert (G : forall v, 0 < v -> hjoint v s lam / vol_density v s = exp (- d / v)).
  { intros v Hv. unfold hjoint. assert (0 < vol_density v s). { unfold vol_density. apply Rdiv_lt_0_compat; [apply exp_pos|]. apply Rmult_lt_0_compat; [exact Hs|]. apply sqrt_lt_R0. pose proof PI_RGT_0. apply Rmult_lt_0_compat; lra. }
    replace (vol_density v s * cond_invavgvar_mgf (- (lam / v)) (sqrt v) s / vol_density v s) with (cond_invavgvar_mgf (- (lam / v)) (sqrt v) s) by (field; lra).
    rewrite mgf_form by (try exact Hs; now apply sqrt_lt_R0). pose proof (sqrt_sqrt v ltac:(lra)) as Q. replace (sqrt v ^ 2) with v by (rewrite <- Q at 1; ring). replace (- - (lam / v) * v) with lam by (field; lra). f_equal. unfold d. field. lra. }
  intros P [e He]. destruct e as [e Hep]. cbn [pos] in He. assert (X : exists w, 0 < w /\ forall v, 0 < v < w -> exp (- d / v) < e).
  { exists (d / (1 + Rabs (ln e))). pose proof (Rabs_pos (ln e)). split; [apply Rdiv_lt_0_compat; lra|]. intros v [Hv Hw]. rewrite <- (exp_ln e) by exact Hep. apply exp_increasing. apply Rlt_div_r in Hw; [|lra].
    unfold Rdiv. apply (Rmult_lt_reg_r v); [exact Hv|]. replace (- d * / v * v) with (- d) by (field; lra). assert (- Rabs (ln e) <= ln e) by (pose proof (Rle_abs (- ln e)) as A; rewrite Rabs_Ropp in A; lra). nra. }
  destruct X as (w & Hw & X). exists (mkposreal w Hw). intros y Hy Hy0. apply He. change (Rabs (y - 0) < w) in Hy. rewrite Rminus_0_r, Rabs_right in Hy by lra.
  change (Rabs (hjoint y s lam / vol_density y s - 0) < e). rewrite G by exact Hy0. rewrite Rminus_0_r, Rabs_right by (left; apply exp_pos). apply X. lra.
Qed.
(** Euler transformation *)
Lemma alt_geom r k : r <> -1 -> rsum k (euler_terms (fun j => r ^ j)) = (1 - (- r) ^ k) / (1 + r).
Proof.
  intros Hr. induction k; [cbn; field; lra|]. cbn [rsum]. rewrite IHk. unfold euler_terms. replace ((-1) ^ k * r ^ k) with ((- r) ^ k) by (rewrite <- Rpow_mult_distr; f_equal; ring). cbn [pow]. field. lra.
Qed.
Lemma rsum_sum_f f n : rsum (S n) f = sum_f_R0 f n.
Proof. induction n; [cbn; ring|]. change (rsum (S (S n)) f) with (rsum (S n) f + f (S n)). rewrite IHn. reflexivity. Qed.
Lemma comb_sum m x : rsum (S m) (fun i => comb_coef m i * x ^ i) = ((1 + x) / 2) ^ m.
Proof.
  rewrite rsum_sum_f. unfold Rdiv. rewrite Rpow_mult_distr, (Rplus_comm 1 x), binomial, Rmult_comm, scal_sum. apply sum_eq. intros i Hi. unfold comb_coef. rewrite pow1. ring.
Qed.
Lemma euler_geom m n r : r <> -1 -> euler_sum m n (fun j => r ^ j) = / (1 + r) - (- r) ^ S n / (1 + r) * ((1 - r) / 2) ^ m.
Proof.
  intros Hr. unfold euler_sum. rewrite (rsum_ext _ _ (fun i => / (1 + r) * (comb_coef m i * 1 ^ i) - (- r) ^ S n / (1 + r) * (comb_coef m i * (- r) ^ i))).
  - rewrite rsum_minus, !rsum_scal, !comb_sum. replace ((1 + 1) / 2) with 1 by field. rewrite pow1. replace (1 + - r) with (1 - r) by ring. ring.
  - intros i Hi. rewrite alt_geom by exact Hr. rewrite pow1. replace ((- r) ^ S (n + i)) with ((- r) ^ S n * (- r) ^ i) by (rewrite <- pow_add; reflexivity). field. lra.
Qed.
Lemma euler_lin m n (L : list (R * R)) : euler_sum m n (fun j => lsum (map (fun p => fst p * snd p ^ j) L)) = lsum (map (fun p => fst p * euler_sum m n (fun j => snd p ^ j)) L).
Proof.
  induction L as [|[c r] L IH].
  - unfold lsum; cbn [map fold_right]. unfold euler_sum. apply rsum_eq0. intros i _. rewrite rsum_eq0; [ring|]. intros j _. unfold euler_terms. ring.
  - unfold lsum in *. cbn [map fold_right fst snd]. rewrite <- IH. unfold euler_sum. rewrite <- rsum_scal, <- rsum_plus. apply rsum_ext. intros i _.
    rewrite <- (Rmult_assoc c), (Rmult_comm c), Rmult_assoc, <- Rmult_plus_distr_l. f_equal. rewrite <- rsum_scal, <- rsum_plus. apply rsum_ext. intros j _. unfold euler_terms. ring.
Qed.
Lemma euler_err m n (L : list (R * R)) : (forall c r, In (c, r) L -> 0 <= c /\ 0 <= r <= 1) ->
  Rabs (euler_sum m n (fun j => lsum (map (fun p => fst p * snd p ^ j) L)) - lsum (map (fun p => fst p / (1 + snd p)) L)) <= lsum (map fst L) / 2 ^ m.
Proof.
  intros H. rewrite euler_lin. assert (P2 : 0 < 2 ^ m) by (apply pow_lt; lra). induction L as [|[c r] L IH].
  - unfold lsum; cbn. replace (0 - 0) with 0 by ring. rewrite Rabs_R0. unfold Rdiv. lra.
  - unfold lsum in *. cbn [map fold_right fst snd]. specialize (IH (fun c r I => H c r (or_intror I))). destruct (H c r (or_introl eq_refl)) as [Hc Hr].
    assert (A : Rabs (c * euler_sum m n (fun j => r ^ j) - c / (1 + r)) <= c / 2 ^ m).
    { rewrite euler_geom by lra. replace (c * _ - c / (1 + r)) with (- (c * ((- r) ^ S n / (1 + r) * ((1 - r) / 2) ^ m))) by (field; lra). rewrite Rabs_Ropp, Rabs_mult, (Rabs_right c) by lra. apply (Rmult_le_compat_l c _ (/ 2 ^ m)); [exact Hc|].
      rewrite Rabs_mult. assert (B1 : Rabs ((- r) ^ S n / (1 + r)) <= 1). { unfold Rdiv. rewrite Rabs_mult, <- RPow_abs, Rabs_Ropp, (Rabs_right r), (Rabs_right (/ (1 + r))) by (try lra; left; apply Rinv_0_lt_compat; lra). assert (0 <= r ^ S n <= 1) by (split; [apply pow_le; lra|apply Rle_trans with (1 ^ S n); [apply pow_incr; lra|rewrite pow1; lra]]). assert (0 < / (1 + r)) by (apply Rinv_0_lt_compat; lra). assert (/ (1 + r) <= / 1) by (apply Rinv_le_contravar; lra). rewrite Rinv_1 in *. apply Rle_trans with (1 * 1); [apply Rmult_le_compat; lra|lra]. }
      assert (B2 : Rabs (((1 - r) / 2) ^ m) <= / 2 ^ m). { rewrite Rabs_right by (apply Rle_ge, pow_le; lra). unfold Rdiv. rewrite Rpow_mult_distr, pow_inv. assert (0 <= (1 - r) ^ m <= 1) by (split; [apply pow_le; lra|apply Rle_trans with (1 ^ m); [apply pow_incr; lra|rewrite pow1; lra]]). assert (0 < / 2 ^ m) by now apply Rinv_0_lt_compat. apply Rle_trans with (1 * / 2 ^ m); [apply Rmult_le_compat_r; lra|lra]. }
      replace (/ 2 ^ m) with (1 * / 2 ^ m) by ring. apply Rmult_le_compat; try apply Rabs_pos; assumption. }
    match goal with |- Rabs (?a + ?b - (?x + ?y)) <= _ => replace (a + b - (x + y)) with ((a - x) + (b - y)) by ring end.
    eapply Rle_trans; [apply Rabs_triang|]. unfold Rdiv in *. rewrite Rmult_plus_distr_r. apply Rplus_le_compat; assumption.
Qed.
Lemma alt_series r : 0 <= r < 1 -> is_series (fun j => (-1) ^ j * r ^ j) (/ (1 + r)).
Proof.
  intros Hr. replace (1 + r) with (1 - - r) by ring. apply (is_series_ext (fun j => (- r) ^ j)); [intros j; Req; rewrite <- Rpow_mult_distr; f_equal; ring|]. apply is_series_geom. rewrite Rabs_Ropp, Rabs_right; lra.
Qed.
Lemma mix_series (L : list (R * R)) : (forall c r, In (c, r) L -> 0 <= c /\ 0 <= r < 1) ->
  is_series (fun j => (-1) ^ j * lsum (map (fun p => fst p * snd p ^ j) L)) (lsum (map (fun p => fst p / (1 + snd p)) L)).
Proof.
  intros H. induction L as [|[c r] L IH]; unfold lsum in *; cbn [map fold_right fst snd].
  - apply (filterlim_ext (fun _ => 0)); [|apply filterlim_const].
    intros n. Req. rewrite (sum_n_ext _ (fun _ => 0)) by (intros; Req; ring). rewrite sum_n_const. Req. ring.
  - destruct (H c r (or_introl eq_refl)) as [Hc Hr]. specialize (IH (fun c r I => H c r (or_intror I))).
    apply (is_series_ext (fun j => plus (scal c ((-1) ^ j * r ^ j)) ((-1) ^ j * fold_right Rplus 0 (map (fun p => fst p * snd p ^ j) L)))).
    + intros j. unfold plus, scal; cbn; unfold mult; cbn. ring.
    + apply (is_series_plus (V := R_NormedModule)); [|exact IH]. apply (is_series_scal (V := R_NormedModule)). now apply alt_series.
Qed.
Lemma inversion_err m n M ss u (L : list (R * R)) S : 0 < u -> (forall c r, In (c, r) L -> 0 <= c /\ 0 <= r < 1) ->
  (forall j, ss u j = lsum (map (fun p => fst p * snd p ^ j) L)) -> is_series (fun j => (-1) ^ j * ss u j) S ->
  Rabs (inv_laplace m n M ss u - exp (M / 2) / u * (S - ss u 0%nat / 2)) <= exp (M / 2) / u * ss u 0%nat / 2 ^ m.
Proof.
  intros Hu HL Hss HS. assert (E : S = lsum (map (fun p => fst p / (1 + snd p)) L)).
  { rewrite <- (is_series_unique _ _ HS). apply is_series_unique. apply (is_series_ext (fun j => (-1) ^ j * lsum (map (fun p => fst p * snd p ^ j) L))); [intros j; now rewrite Hss|]. now apply mix_series. }
  assert (E0 : ss u 0%nat = lsum (map fst L)). { rewrite Hss. f_equal. apply map_ext. intros p. cbn [pow]. ring. }
  assert (Ee : euler_sum m n (ss u) = euler_sum m n (fun j => lsum (map (fun p => fst p * snd p ^ j) L))).
  { unfold euler_sum. apply rsum_ext. intros i _. f_equal. apply rsum_ext. intros j _. unfold euler_terms. now rewrite Hss. }
  pose proof (euler_err m n L (fun c r I => conj (proj1 (HL c r I)) (conj (proj1 (proj2 (HL c r I))) (Rlt_le _ _ (proj2 (proj2 (HL c r I))))))) as B. rewrite <- Ee, <- E, <- E0 in B.
  unfold inv_laplace. cbv zeta. assert (P : 0 < exp (M / 2) / u) by (apply Rdiv_lt_0_compat; [apply exp_pos|exact Hu]). set (q := exp (M / 2) / u) in *. clearbody q.
  replace (q * (- (/ 2 * ss u 0%nat) + euler_sum m n (ss u)) - q * (S - ss u 0%nat / 2)) with (q * (euler_sum m n (ss u) - S)) by field. rewrite Rabs_mult, (Rabs_right q) by lra. unfold Rdiv in *. rewrite Rmult_assoc. apply Rmult_le_compat_l; [lra|exact B].
Qed.
