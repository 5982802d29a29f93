(** C37: general-lambda moments, and the moment fit. *)
From Coq Require Import Reals Lra Lia List Psatz.
From Coquelicot Require Import Coquelicot.
From Verif Require Import Base Gauss Sums M_Opt M_Mgf M_Heston M_Fd M_Sabr Spec_Opt Spec_Expect Spec_Sabr P_Expect.
Open Scope R_scope.

Lemma powrel_nat (x : R) (n : nat) : 0 < x -> powrel x (INR (S n)) = ((1 + x) ^ S n - 1) / (INR (S n) * x).
Proof.
  intros Hx. unfold powrel. destruct (Req_EM_T x 0); [lra|]. assert (0 < INR (S n)) by (apply lt_0_INR; lia). destruct (Req_EM_T _ 0); [lra|].
  rewrite exp_n, exp_ln by lra. reflexivity.
Qed.
Lemma exp_pos_m1 x : 0 < x -> 0 < exp x - 1.
Proof. intros H. pose proof (exp_ineq1 x). assert (x <> 0) by lra. specialize (H0 H1). lra. Qed.
Section L.
Variables (p : sabrp) (T : R).
Hypotheses (Hs : 0 < b_sigma p) (Hv : 0 < b_vov p) (Hr : -1 < b_rho p < 1) (HT : 0 < T).
Lemma vn2_pos : 0 < (b_vov p * sqrt T) ^ 2.
Proof. apply pow_lt, Rmult_lt_0_compat; [exact Hv|apply sqrt_lt_R0, HT]. Qed.
Lemma lam1_agrees : nsvh_vsk p 1 T = nsvh1_vsk p T.
Proof.
  unfold nsvh_vsk, nsvh1_vsk. cbv zeta. pose proof vn2_pos as Hv2. set (v2 := (b_vov p * sqrt T) ^ 2) in *. pose proof (exp_pos_m1 v2 Hv2) as Hx.
  replace (1 + 1) with (INR 2) by (simpl; ring). replace (3 + 1) with (INR 4) by (simpl; ring). replace (5 + 1) with (INR 6) by (simpl; ring).
  rewrite !powrel_nat by exact Hx. rewrite Rmult_1_l. set (x := exp v2 - 1) in *. replace (exp v2) with (1 + x) by (unfold x; ring).
  assert (Hq : 0 < 1 - b_rho p ^ 2) by nra. set (r := b_rho p) in *. set (k := b_sigma p / b_vov p). clearbody x k. clear v2 Hv2 Hs Hv HT.
  replace (INR 2) with 2 by (simpl; ring). replace (INR 4) with 4 by (simpl; ring). replace (INR 6) with 6 by (simpl; ring).
  assert (Hrr : 0 <= r ^ 2) by apply pow2_ge_0.
  assert (EB : r ^ 2 * (1 + x) + (1 - r ^ 2) * (((1 + x) ^ 2 - 1) / (2 * x)) = (1 + x + 1 + r ^ 2 * x) / 2) by (field; lra).
  rewrite EB. set (B := 1 + x + 1 + r ^ 2 * x). assert (HB : 0 < B) by (unfold B; nra).
  apply (f_equal2 pair); [apply (f_equal2 pair)|].
  - field.
  - assert (E1 : sqrt (1 + x) = sqrt (x * (1 + x) / 2) * sqrt 2 / sqrt x).
    { apply (Rmult_eq_reg_r (sqrt x)); [|pose proof (sqrt_lt_R0 x Hx); lra]. unfold Rdiv at 1. rewrite Rmult_assoc, Rinv_l, Rmult_1_r by (pose proof (sqrt_lt_R0 x Hx); lra).
      assert (0 <= x * (1 + x) / 2) by (assert (0 < x * (1 + x)) by (apply Rmult_lt_0_compat; lra); lra). rewrite <- !sqrt_mult by lra. f_equal. field. }
    rewrite E1. assert (E2 : sqrt (B ^ 3) = B * sqrt B).
    { replace (B ^ 3) with (B ^ 2 * B) by ring. rewrite sqrt_mult by nra. rewrite sqrt_pow2 by lra. reflexivity. }
    rewrite E2. rewrite (sqrt_div B 2) by lra.
    assert (S2 : sqrt 2 * sqrt 2 = 2) by (apply sqrt_sqrt; lra). assert (Sx : sqrt x * sqrt x = x) by (apply sqrt_sqrt; lra).
    pose proof (sqrt_lt_R0 2 ltac:(lra)). pose proof (sqrt_lt_R0 x Hx). pose proof (sqrt_lt_R0 B HB).
    set (s2 := sqrt 2) in *. set (sx := sqrt x) in *. set (sB := sqrt B) in *. set (Z := sqrt (x * (1 + x) / 2)). clearbody Z sB sx s2.
    transitivity (r * Z * (r ^ 2 * (1 + x) * x * (1 + x + 2) + 3 * (1 - r ^ 2) * (((1 + x) ^ 4 - 1) / (4 * x) - ((1 + x) ^ 2 - 1) / (2 * x))) * (2 * (s2 * s2)) / ((sx * sx) * (B * sB))).
    { field. lra. }
    rewrite S2, Sx. field. lra.
  - unfold B in *. field. lra.
Qed.
Lemma lam0_agrees : nsvh_vsk p 0 T = norm_sabr_vsk p T.
Proof.
  unfold nsvh_vsk, norm_sabr_vsk. cbv zeta. pose proof vn2_pos as Hv2. set (v2 := (b_vov p * sqrt T) ^ 2) in *. pose proof (exp_pos_m1 v2 Hv2) as Hx.
  replace (1 + 0) with (INR 1) by (simpl; ring). replace (3 + 0) with (INR 3) by (simpl; ring). replace (5 + 0) with (INR 5) by (simpl; ring).
  rewrite !powrel_nat by exact Hx. rewrite Rmult_0_l, exp_0. set (x := exp v2 - 1) in *. 
  set (r := b_rho p) in *. set (k := b_sigma p / b_vov p). clearbody x k. clear v2 Hv2 Hs Hv HT.
  replace (INR 1) with 1 by (simpl; ring). replace (INR 3) with 3 by (simpl; ring). replace (INR 5) with 5 by (simpl; ring).
  assert (EB : r ^ 2 * 1 + (1 - r ^ 2) * (((1 + x) ^ 1 - 1) / (1 * x)) = 1) by (field; lra).
  rewrite EB, sqrt_1.
  apply (f_equal2 pair); [apply (f_equal2 pair)|].
  - field.
  - assert (Sx : sqrt x * sqrt x = x) by (apply sqrt_sqrt; lra). pose proof (sqrt_lt_R0 x Hx). set (sx := sqrt x) in *. clearbody sx. subst x. field. lra.
  - field. lra.
Qed.
End L.

(** ** moment fit *)
Lemma fit_reproduces var skew exkurt T w : 0 < var -> 0 < T -> 1 < w ->
  0 <= 4 + 2 * (w * w - (exkurt + 3 + 3) / (w * w + 2 * w + 3)) ->
  fit_beta1 (exkurt + 3) w = skew ^ 2 ->
  nsvh1_vsk (nsvh1_fit_at var skew exkurt T w) T = (var, skew, exkurt).
Proof.
  intros Hvar HT Hw Hd Hroot. unfold fit_beta1 in Hroot. cbv zeta in Hroot. unfold nsvh1_fit_at. cbv zeta.
  replace (w ^ 2 - (exkurt + 3 + 3) / (w ^ 2 + 2 * w + 3)) with (w * w - (exkurt + 3 + 3) / (w * w + 2 * w + 3)) by (simpl; rewrite Rmult_1_r; reflexivity).
  set (x := 2 * (w * w - (exkurt + 3 + 3) / (w * w + 2 * w + 3))) in *. set (t := sqrt (4 + x)) in *.
  assert (Ht : t * t = 4 + x) by (apply sqrt_sqrt; exact Hd). assert (Htp : 0 <= t) by apply sqrt_pos.
  replace (x / (2 + t)) with (t - 2) by (replace x with (t * t - 4) by lra; field; lra).
  assert (Hden : 0 < w * w + 2 * w + 3) by nra.
  assert (Ek : exkurt = (w * w - (t * t - 4) / 2) * (w * w + 2 * w + 3) - 6).
  { replace (t * t - 4) with x by lra. unfold x. field. lra. }
  assert (Hm : 0 <= w + 1 - t).
  { assert (0 <= skew ^ 2) by apply pow2_ge_0. assert (0 < (w + 1 + / 2 * t) ^ 2) by (apply pow_lt; lra). destruct (Rle_lt_dec 0 (w + 1 - t)); [assumption|]. exfalso. nra. }
  set (r2 := (w + 1) * (w - 1 - (t - 2)) / ((w - 1) * (w + 1 + (t - 2)))).
  assert (Hr2 : 0 <= r2). { unfold r2. apply Rmult_le_pos; [apply Rmult_le_pos; lra|]. left. apply Rinv_0_lt_compat, Rmult_lt_0_compat; lra. }
  rewrite (Rmax_left r2 0) by exact Hr2.
  unfold nsvh1_vsk. cbn [b_sigma b_vov b_rho]. cbv zeta.
  assert (Hlw : 0 < ln w) by (rewrite <- ln_1; apply ln_increasing; lra).
  assert (Hlt : 0 < ln w / T) by (apply Rdiv_lt_0_compat; assumption).
  assert (Ev : (sqrt (ln w / T) * sqrt T) ^ 2 = ln w).
  { rewrite <- sqrt_mult by lra. replace (ln w / T * T) with (ln w) by (field; lra). rewrite pow2_sqrt by lra. reflexivity. }
  rewrite Ev, exp_ln by lra. replace (1 + (w - 1)) with w by ring.
  assert (Hsg : (sgn skew * sqrt r2) ^ 2 = r2).
  { rewrite Rpow_mult_distr, pow2_sqrt by exact Hr2. unfold sgn. destruct (Rlt_dec 0 skew); [ring|]. destruct (Rlt_dec skew 0); [ring|].
    assert (E0 : skew = 0) by lra. rewrite E0 in Hroot. replace (0 ^ 2) with 0 in Hroot by ring. apply Rmult_integral in Hroot.
    destruct Hroot as [E|E]; [unfold r2; replace (w - 1 - (t - 2)) with (w + 1 - t) by ring; rewrite E; unfold Rdiv; ring|]. exfalso. assert (0 < (w + 1 + / 2 * t) ^ 2) by (apply pow_lt; lra). lra. }
  rewrite Hsg.
  set (B := w + 1 + r2 * (w - 1)).
  assert (EB : B = 2 * w * (w + 1) / (w + t - 1)) by (unfold B, r2; field; lra).
  assert (HB : 0 < B) by (rewrite EB; apply Rdiv_lt_0_compat; nra).
  assert (HW : 0 < (w - 1) * B) by (apply Rmult_lt_0_compat; lra).
  apply (f_equal2 pair); [apply (f_equal2 pair)|].
  - replace (sqrt (2 * var / ((w - 1) * B)) * sqrt (ln w / T) / sqrt (ln w / T)) with (sqrt (2 * var / ((w - 1) * B))).
    2: { field. pose proof (sqrt_lt_R0 _ Hlt). lra. }
    rewrite pow2_sqrt; [field; lra|]. apply Rmult_le_pos; [lra|left; apply Rinv_0_lt_compat, HW].
  - (* skew: compare squares and signs *)
    assert (Esq : sgn skew * sqrt r2 * sqrt ((w - 1) * w / 2) * (3 * (w + 1) ^ 2 + r2 * ((w - 1) * (w + 3))) / sqrt (B ^ 3) = sgn skew * sqrt (skew ^ 2)).
    { assert (Hc : 0 <= 3 * (w + 1) ^ 2 + r2 * ((w - 1) * (w + 3))).
      { assert (0 <= (w + 1) ^ 2) by apply pow2_ge_0. assert (0 <= r2 * ((w - 1) * (w + 3))) by (apply Rmult_le_pos; [exact Hr2|nra]). lra. }
      replace (sgn skew * sqrt r2 * sqrt ((w - 1) * w / 2) * (3 * (w + 1) ^ 2 + r2 * ((w - 1) * (w + 3))) / sqrt (B ^ 3))
        with (sgn skew * (sqrt r2 * sqrt ((w - 1) * w / 2) * (3 * (w + 1) ^ 2 + r2 * ((w - 1) * (w + 3))) / sqrt (B ^ 3))) by (unfold Rdiv; ring).
      f_equal. rewrite <- (sqrt_pow2 (3 * (w + 1) ^ 2 + r2 * ((w - 1) * (w + 3)))) by exact Hc.
      assert (0 <= (w - 1) * w / 2) by nra. pose proof (pow2_ge_0 (3 * (w + 1) ^ 2 + r2 * ((w - 1) * (w + 3)))).
      rewrite <- !sqrt_mult; try assumption; try (apply Rmult_le_pos; assumption). rewrite <- sqrt_div.
      2: { apply Rmult_le_pos; [apply Rmult_le_pos; assumption|assumption]. } 2: { apply pow_lt, HB. }
      f_equal. rewrite <- Hroot, EB. unfold r2. replace (w + 1 + (t - 2)) with (w + t - 1) by ring. replace (w - 1 - (t - 2)) with (w + 1 - t) by ring. field. lra. }
    rewrite Esq. rewrite <- Rsqr_pow2, sqrt_Rsqr_abs. unfold sgn, Rabs. destruct (Rlt_dec 0 skew), (Rlt_dec skew 0), (Rcase_abs skew); lra.
  - rewrite Ek, EB. unfold r2. replace (w + 1 + (t - 2)) with (w + t - 1) by ring. replace (w - 1 - (t - 2)) with (w + 1 - t) by ring. field. lra.
Qed.
