(** Normal SABR through elliptic integrals: the second-order coefficients. *)
From Coq Require Import Reals Lra Lia Psatz List.
From Coquelicot Require Import Coquelicot.
From Verif Require Import Base Gauss Sums M_Opt M_Fd M_Sabr M_Ellipe Spec_Ellipe P_Asian5 P_Nsvh.
Open Scope R_scope.

(** ** sqrt(1+e) to fourth order *)
Definition p4 (e : R) : R := 1 + e / 2 - e ^ 2 / 8 + e ^ 3 / 16 - 5 * e ^ 4 / 128.
Lemma sqrt_p4 e : Rabs e <= / 2 -> Rabs (sqrt (1 + e) - p4 e) <= 2 * Rabs e ^ 5.
Proof.
  intros H. assert (H' : - / 2 <= e <= / 2) by (apply Rabs_le_between in H; lra).
  assert (E2 : 0 <= e ^ 2 <= / 4) by nra. assert (E3 : - / 8 <= e ^ 3 <= / 8) by (replace (e ^ 3) with (e * e ^ 2) by ring; nra).
  assert (HP : 7 / 10 <= p4 e). { unfold p4. assert (e ^ 4 <= / 16) by (replace (e ^ 4) with (e ^ 2 * e ^ 2) by ring; nra). lra. }
  pose proof (sqrt_pos (1 + e)) as S0. assert (SS : sqrt (1 + e) * sqrt (1 + e) = 1 + e) by (apply sqrt_sqrt; lra).
  set (s := sqrt (1 + e)) in *. clearbody s. set (p := p4 e) in *.
  set (q := - 7 / 128 + 7 * e / 512 - 5 * e ^ 2 / 1024 + 25 * e ^ 3 / 16384).
  assert (E : (s - p) * (s + p) = - (e ^ 5 * q)).
  { replace ((s - p) * (s + p)) with (1 + e - p * p) by (rewrite <- SS; ring). unfold p, p4, q. field. }
  assert (Q : Rabs q <= 1) by (apply Rabs_le; unfold q; lra). clearbody q. apply (f_equal Rabs) in E. rewrite Rabs_Ropp, !Rabs_mult, (Rabs_right (s + p)), <- RPow_abs in E by lra.
  pose proof (pow_le (Rabs e) 5 (Rabs_pos e)). pose proof (Rabs_pos (s - p)). pose proof (Rabs_pos q). set (a := Rabs e ^ 5) in *. clearbody a. set (b := Rabs (s - p)) in *. clearbody b p.
  assert (b * (7 / 10) <= a * 1). { apply Rle_trans with (b * (s + p)); [apply Rmult_le_compat_l; lra|]. rewrite E. apply Rmult_le_compat_l; lra. } lra.
Qed.
(** ** its mean over the quarter period *)
Lemma i1_d (t : R) : is_derive (fun t => sin (2 * t) / 2) t (cos (2 * t)).
Proof. auto_derive; [trivial|]. Req. field. Qed.
Lemma sc2 t : sin (2 * t) * sin (2 * t) = 1 - cos (2 * t) * cos (2 * t).
Proof. pose proof (sin2_cos2 (2 * t)) as T. unfold Rsqr in T. lra. Qed.
Lemma i2_d (t : R) : is_derive (fun t => t / 2 + sin (2 * t) * cos (2 * t) / 4) t (cos (2 * t) ^ 2).
Proof. auto_derive; [trivial|]. Req. pose proof (sc2 t) as T. set (s := sin (2 * t)) in *. set (c := cos (2 * t)) in *. clearbody s c. nra. Qed.
Lemma i3_d (t : R) : is_derive (fun t => sin (2 * t) / 2 - sin (2 * t) * (sin (2 * t) * sin (2 * t)) / 6) t (cos (2 * t) ^ 3).
Proof.
  auto_derive; [trivial|]. Req. pose proof (sc2 t) as T. set (s := sin (2 * t)) in *. set (c := cos (2 * t)) in *. clearbody s c.
  replace (c ^ 3) with (c * (1 - (1 - c * c))) by ring. rewrite <- T. field.
Qed.
Lemma i4_d (t : R) : is_derive (fun t => 3 * t / 8 + 3 * (sin (2 * t) * cos (2 * t)) / 16 + sin (2 * t) * (cos (2 * t) * cos (2 * t) * cos (2 * t)) / 8) t (cos (2 * t) ^ 4).
Proof.
  auto_derive; [trivial|]. Req. pose proof (sc2 t) as T. set (s := sin (2 * t)) in *. set (c := cos (2 * t)) in *. clearbody s c.
  match goal with |- ?a = _ => replace a with (3 / 8 + 3 * (2 * (c * c) - 2 * (s * s)) / 16 + (2 * (c * c) * (c * c) - 6 * (s * s) * (c * c)) / 8) by field end. rewrite T. field.
Qed.
Lemma cos_mean h w : is_RInt (fun t => p4 (w + h * cos (2 * t))) 0 (PI / 2)
  (PI / 2 * (1 + w / 2 - (w ^ 2 + h ^ 2 / 2) / 8 + (w ^ 3 + 3 * w * h ^ 2 / 2) / 16 - 5 / 128 * (w ^ 4 + 3 * w ^ 2 * h ^ 2 + 3 * h ^ 4 / 8))).
Proof.
  set (a0 := p4 w). set (a1 := h / 2 - 2 * w * h / 8 + 3 * w ^ 2 * h / 16 - 5 * (4 * w ^ 3 * h) / 128).
  set (a2 := - h ^ 2 / 8 + 3 * w * h ^ 2 / 16 - 5 * (6 * w ^ 2 * h ^ 2) / 128). set (a3 := h ^ 3 / 16 - 5 * (4 * w * h ^ 3) / 128). set (a4 := - 5 * h ^ 4 / 128).
  set (i1 := fun t => sin (2 * t) / 2). set (i2 := fun t => t / 2 + sin (2 * t) * cos (2 * t) / 4). set (i3 := fun t => sin (2 * t) / 2 - sin (2 * t) * (sin (2 * t) * sin (2 * t)) / 6).
  set (i4 := fun t => 3 * t / 8 + 3 * (sin (2 * t) * cos (2 * t)) / 16 + sin (2 * t) * (cos (2 * t) * cos (2 * t) * cos (2 * t)) / 8).
  set (F := fun t : R => a0 * t + a1 * i1 t + a2 * i2 t + a3 * i3 t + a4 * i4 t).
  assert (I : is_RInt (fun t => p4 (w + h * cos (2 * t))) 0 (PI / 2) (F (PI / 2) - F 0)).
  { apply (is_RInt_derive (V := R_CompleteNormedModule) F (fun t => p4 (w + h * cos (2 * t)))).
    - intros t _. assert (D0 : is_derive (fun t : R => t) t 1) by (auto_derive; [trivial|Req; ring]).
      eapply is_derive_eq; [exact (is_derive_plus_R _ _ _ _ _ (is_derive_plus_R _ _ _ _ _ (is_derive_plus_R _ _ _ _ _ (is_derive_plus_R _ _ _ _ _ (is_derive_scal_R _ a0 _ _ D0) (is_derive_scal_R _ a1 _ _ (i1_d t))) (is_derive_scal_R _ a2 _ _ (i2_d t))) (is_derive_scal_R _ a3 _ _ (i3_d t))) (is_derive_scal_R _ a4 _ _ (i4_d t)))|].
      unfold a0, a1, a2, a3, a4, p4. field.
    - intros t _. apply (ex_derive_continuous (K := R_AbsRing) (V := R_NormedModule)). unfold p4. auto_derive. trivial. }
  match type of I with is_RInt _ _ _ ?v => match goal with |- is_RInt _ _ _ ?u => replace u with v; [exact I|] end end.
  unfold F, i1, i2, i3, i4. replace (2 * (PI / 2)) with PI by field. replace (2 * 0) with 0 by ring. rewrite sin_PI, sin_0, cos_PI, cos_0. unfold a0, a1, a2, a3, a4, p4. field.
Qed.
Lemma legendre_half w I : 0 <= w -> w <= / 36 -> is_RInt (fun t => sqrt (1 + w + sqrt (w * (w + 2)) * cos (2 * t))) 0 (PI / 2) I ->
  Rabs (I - PI / 2 * (1 + 3 / 8 * w - 15 / 256 * w ^ 2)) <= PI / 2 * (500 * (w ^ 2 * sqrt w)).
Proof.
  intros Hw Hw1 HI. set (h := sqrt (w * (w + 2))) in *. assert (Hh : h * h = w * (w + 2)) by (apply sqrt_sqrt; nra). assert (Hh0 : 0 <= h) by apply sqrt_pos.
  set (r := sqrt w). assert (Hr : r * r = w) by (apply sqrt_sqrt; lra). assert (Hr0 : 0 <= r) by apply sqrt_pos. clearbody h r. assert (Hr6 : r <= / 6) by nra.
  assert (Hhr : h <= 2 * r) by nra.
  pose proof (is_RInt_minus (V := R_NormedModule) _ _ _ _ _ _ HI (cos_mean h w)) as D. pose proof PI_RGT_0 as HPI.
  apply (norm_RInt_le_const (V := R_NormedModule) _ 0 (PI / 2) _ (2 * (3 * r) ^ 5)) in D; [|lra|].
  2:{ intros t _. set (e := w + h * cos (2 * t)). assert (He : Rabs e <= 3 * r).
      { pose proof (COS_bound (2 * t)). unfold e. apply Rabs_le. nra. }
      change (Rabs (sqrt (1 + w + h * cos (2 * t)) - p4 e) <= 2 * (3 * r) ^ 5). replace (1 + w + h * cos (2 * t)) with (1 + e) by (unfold e; ring). clearbody e.
      eapply Rle_trans; [apply sqrt_p4; lra|]. apply Rmult_le_compat_l; [lra|]. apply pow_incr. split; [apply Rabs_pos|exact He]. }
  set (J := PI / 2 * (1 + w / 2 - (w ^ 2 + h ^ 2 / 2) / 8 + (w ^ 3 + 3 * w * h ^ 2 / 2) / 16 - 5 / 128 * (w ^ 4 + 3 * w ^ 2 * h ^ 2 + 3 * h ^ 4 / 8))) in D.
  assert (EJ : J = PI / 2 * (1 + 3 / 8 * w - 15 / 256 * w ^ 2 + w ^ 3 * (- 35 / 256 - 175 / 1024 * w))).
  { unfold J. f_equal. replace (h ^ 4) with ((h * h) ^ 2) by ring. replace (h ^ 2) with (h * h) by ring. rewrite Hh. field. }
  change (Rabs (I + - J) <= (PI / 2 - 0) * (2 * (3 * r) ^ 5)) in D. replace ((PI / 2 - 0) * (2 * (3 * r) ^ 5)) with (PI / 2 * (486 * (w ^ 2 * r))) in D by (rewrite <- Hr; ring).
  rewrite EJ in D. replace (I - PI / 2 * (1 + 3 / 8 * w - 15 / 256 * w ^ 2)) with ((I + - (PI / 2 * (1 + 3 / 8 * w - 15 / 256 * w ^ 2 + w ^ 3 * (- 35 / 256 - 175 / 1024 * w)))) + PI / 2 * (w ^ 3 * (- 35 / 256 - 175 / 1024 * w))) by ring.
  eapply Rle_trans; [apply Rabs_triang|]. assert (B : Rabs (PI / 2 * (w ^ 3 * (- 35 / 256 - 175 / 1024 * w))) <= PI / 2 * (14 * (w ^ 2 * r))).
  { rewrite Rabs_mult, (Rabs_right (PI / 2)) by lra. apply Rmult_le_compat_l; [lra|]. replace (w ^ 3) with (w ^ 2 * w) by ring. rewrite Rmult_assoc, Rabs_mult, (Rabs_right (w ^ 2)) by (apply Rle_ge, pow_le; lra).
    replace (14 * (w ^ 2 * r)) with (w ^ 2 * (14 * r)) by ring. apply Rmult_le_compat_l; [apply pow_le; lra|]. apply Rabs_le. nra. }
  replace (PI / 2 * (500 * (w ^ 2 * r))) with (PI / 2 * (486 * (w ^ 2 * r)) + PI / 2 * (14 * (w ^ 2 * r))) by ring. lra.
Qed.
(** ** hyperbolic functions near 0 *)
Lemma cosh_sinh_small d : 0 <= d <= 1 -> Rabs (cosh d - 1 - d ^ 2 / 2) <= 3 * d ^ 3 /\ Rabs (sinh d - d) <= 3 * d ^ 3.
Proof.
  intros H. pose proof (exp_rem 3 d) as P. pose proof (exp_rem 3 (- d)) as M. rewrite Rabs_Ropp, (Rabs_right d) in * by lra.
  assert (E1 : exp d <= 3) by (apply Rle_trans with (exp 1); [apply exp_le; lra|apply exp_le_3]). pose proof (exp_pos d).
  assert (D3 : 0 <= d ^ 3) by (apply pow_le; lra). assert (d ^ 3 * exp d <= 3 * d ^ 3) by nra.
  cbn [epoly fact INR Nat.mul Nat.add] in P, M. assert (P' : Rabs (exp d - (1 + d + d ^ 2 / 2)) <= 3 * d ^ 3). { eapply Rle_trans; [|eapply Rle_trans; [exact P|assumption]]. right. f_equal. f_equal. field. }
  assert (M' : Rabs (exp (- d) - (1 - d + d ^ 2 / 2)) <= 3 * d ^ 3). { eapply Rle_trans; [|eapply Rle_trans; [exact M|assumption]]. right. f_equal. f_equal. field. }
  apply Rabs_le_between in P'. apply Rabs_le_between in M'. unfold cosh, sinh. split; apply Rabs_le; lra.
Qed.
Lemma cosh_add a b : cosh (a + b) = cosh a * cosh b + sinh a * sinh b.
Proof. unfold cosh, sinh. rewrite Ropp_plus_distr, !exp_plus. field. Qed.
Lemma cosh_sq a : cosh a * cosh a = 1 + sinh a * sinh a.
Proof. unfold cosh, sinh. assert (E : exp a * exp (- a) = 1) by (rewrite <- exp_plus, Rplus_opp_r; apply exp_0). nra. Qed.
Lemma cosh_gt0 a : 0 < cosh a.
Proof. unfold cosh. pose proof (exp_pos a). pose proof (exp_pos (- a)). lra. Qed.
Lemma sinh_ash y : sinh (arcsinh_np y) = y.
Proof. unfold sinh. rewrite ash_spec. field. Qed.
Lemma sinh_incr a b : a <= b -> sinh a <= sinh b.
Proof. intros H. unfold sinh. pose proof (exp_le a b H). pose proof (exp_le (- b) (- a) ltac:(lra)). lra. Qed.
Lemma cosh_incr a b : 0 <= a -> a <= b -> cosh a <= cosh b.
Proof.
  intros H0 H. pose proof (cosh_sq a). pose proof (cosh_sq b). pose proof (cosh_gt0 a). pose proof (cosh_gt0 b). pose proof (sinh_incr a b H). pose proof (sinh_incr 0 a H0) as S. rewrite sinh_0 in S. nra.
Qed.
Lemma ash_nonneg y : 0 <= y -> 0 <= arcsinh_np y.
Proof.
  intros H. destruct (Rle_dec 0 (arcsinh_np y)) as [L|L]; [exact L|]. pose proof (sinh_incr (arcsinh_np y) 0 ltac:(lra)) as S. rewrite sinh_ash, sinh_0 in S. replace y with 0 by lra.
  unfold arcsinh_np. replace (0 + sqrt (0 ^ 2 + 1)) with 1; [rewrite ln_1; lra|]. replace (0 ^ 2 + 1) with 1 by ring. rewrite sqrt_1. ring.
Qed.
