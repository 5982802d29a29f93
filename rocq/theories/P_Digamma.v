(** The digamma and trigamma functions of a gamma function: existence, through Gautschi's inequality. *)
From Coq Require Import Reals Lra Lia Psatz Arith.
From Coquelicot Require Import Coquelicot.
From Verif Require Import Base Sums Spec_Cev P_Gamma P_Half P_Gamma2 P_KlSum.
Open Scope R_scope.

Lemma derive_quad (f : R -> R) (x d C r : R) : 0 < r -> 0 <= C -> (forall h, Rabs h < r -> Rabs (f (x + h) - f x - h * d) <= C * h ^ 2) -> is_derive f x d.
Proof.
  intros Hr HC H. apply is_derive_Reals. intros eps He.
  assert (Hd : 0 < Rmin r (eps / (C + 1))) by (apply Rmin_pos; [exact Hr|apply Rdiv_lt_0_compat; lra]).
  exists (mkposreal _ Hd). intros h Hh Hlt. cbn in Hlt.
  pose proof (Rmin_l r (eps / (C + 1))). pose proof (Rmin_r r (eps / (C + 1))).
  specialize (H h ltac:(lra)). replace ((f (x + h) - f x) / h - d) with ((f (x + h) - f x - h * d) / h) by (field; exact Hh).
  unfold Rdiv. rewrite Rabs_mult, Rabs_inv. pose proof (Rabs_pos_lt h Hh) as Pa.
  apply Rmult_lt_reg_r with (Rabs h); [exact Pa|]. rewrite Rmult_assoc, Rinv_l, Rmult_1_r by lra.
  apply Rle_lt_trans with (1 := H). rewrite <- (pow2_abs h). assert (B : Rabs h < eps / (C + 1)) by lra.
  apply (Rmult_lt_compat_l (C + 1)) in B; [|lra]. replace ((C + 1) * (eps / (C + 1))) with eps in B by (field; lra). nra.
Qed.
(** tangent line of the concave power *)
Lemma pow_tangent th x : 0 <= th <= 1 -> 0 < x -> Rpower x th <= th * x + (1 - th).
Proof.
  intros Ht Hx. unfold Rpower. set (u := ln x). replace x with (exp u) by (apply exp_ln; exact Hx). set (e := exp (th * u)). assert (Pe : 0 < e) by apply exp_pos.
  assert (E1 : exp u = e * exp ((1 - th) * u)) by (unfold e; rewrite <- exp_plus; f_equal; ring).
  assert (E2 : 1 = e * exp (- th * u)) by (unfold e; rewrite <- exp_plus, <- exp_0; f_equal; ring).
  pose proof (exp_ineq1_le ((1 - th) * u)). pose proof (exp_ineq1_le (- th * u)).
  assert (A1 : e * (1 + (1 - th) * u) <= exp u) by (rewrite E1; apply Rmult_le_compat_l; lra).
  assert (A2 : e * (1 + - th * u) <= 1) by (rewrite E2 at 2; apply Rmult_le_compat_l; lra).
  assert (B1 : th * (e * (1 + (1 - th) * u)) <= th * exp u) by (apply Rmult_le_compat_l; lra).
  assert (B2 : (1 - th) * (e * (1 + - th * u)) <= (1 - th) * 1) by (apply Rmult_le_compat_l; lra). lra.
Qed.
Section D.
Variable Gam : R -> R.
Hypothesis HG : gamma_function Gam.
Lemma gautschi a th : 0 < a -> 0 <= th <= 1 -> Gam (a + th) <= Rpower a th * Gam a.
Proof.
  intros Ha Ht. destruct (HG a Ha) as [G0 [P (P1 & P2 & P3)]]. destruct (HG (a + 1) ltac:(lra)) as [G1 [Q (Q1 & Q2 & Q3)]].
  destruct (HG (a + th) ltac:(lra)) as [G2 [S (S1 & S2 & S3)]].
  set (A := th * Rpower a (th - 1)). set (B := (1 - th) * Rpower a th).
  assert (EA : Rpower a th = Rpower a (th - 1) * a).
  { replace th with ((th - 1) + 1) at 1 by ring. now rewrite Rpower_plus, Rpower_1 by exact Ha. }
  assert (E : forall x, 0 < x -> Gam (a + th) * S x <= A * Gam (a + 1) * Q x + B * Gam a * P x).
  { apply (half_compare _ _ (fun x => Rpower x (a + th - 1) * exp (- x)) (fun x => (A * x + B) * (Rpower x (a - 1) * exp (- x))) 0).
    - intros x Hx. eapply is_derive_eq; [apply is_derive_scal_R; apply S1; exact Hx|]. unfold gamma_pdf. field. lra.
    - intros x Hx. eapply is_derive_eq; [apply is_derive_plus_R; apply is_derive_scal_R; [apply Q1|apply P1]; exact Hx|]. unfold gamma_pdf.
      replace (a + 1 - 1) with ((a - 1) + 1) by ring. rewrite Rpower_plus, Rpower_1 by exact Hx. field. lra.
    - intros x Hx. replace (a + th - 1) with (th + (a - 1)) by ring. rewrite Rpower_plus, Rmult_assoc. apply Rmult_le_compat_r.
      { apply Rlt_le, Rmult_lt_0_compat; apply exp_pos. }
      pose proof (pow_tangent th (x / a) Ht ltac:(apply Rdiv_lt_0_compat; lra)) as T.
      assert (EX : Rpower x th = Rpower (x / a) th * Rpower a th). { rewrite Rpower_mult_distr; [f_equal; field; lra|apply Rdiv_lt_0_compat; lra|exact Ha]. }
      rewrite EX. apply Rle_trans with ((th * (x / a) + (1 - th)) * Rpower a th).
      { apply Rmult_le_compat_r; [apply Rlt_le, exp_pos|exact T]. }
      right. unfold A, B. rewrite EA. field. lra.
    - now apply lim_scal_at0.
    - pose proof (lim_plus_at0 (fun x => A * Gam (a + 1) * Q x) (fun x => B * Gam a * P x) 0 0) as LL. rewrite Rplus_0_r in LL. apply LL; now apply lim_scal_at0. }
  assert (L1 : is_lim (fun x => Gam (a + th) * S x) p_infty (Gam (a + th))).
  { replace (Finite (Gam (a + th))) with (Rbar_mult (Gam (a + th)) 1) by (cbn; f_equal; ring). now apply is_lim_scal_l. }
  assert (L2 : is_lim (fun x => A * Gam (a + 1) * Q x + B * Gam a * P x) p_infty (A * Gam (a + 1) + B * Gam a)).
  { replace (Finite (A * Gam (a + 1) + B * Gam a)) with (Rbar_plus (Rbar_mult (A * Gam (a + 1)) 1) (Rbar_mult (B * Gam a) 1)) by (cbn; f_equal; ring).
    apply is_lim_plus'; [|]; cbn -[Rmult]; rewrite ?Rmult_1_r.
    - replace (Finite (A * Gam (a + 1))) with (Rbar_mult (A * Gam (a + 1)) 1) by (cbn; f_equal; ring). now apply is_lim_scal_l.
    - replace (Finite (B * Gam a)) with (Rbar_mult (B * Gam a) 1) by (cbn; f_equal; ring). now apply is_lim_scal_l. }
  assert (L : Rbar_le (Gam (a + th)) (A * Gam (a + 1) + B * Gam a)).
  { apply (is_lim_le_loc (fun x => Gam (a + th) * S x) (fun x => A * Gam (a + 1) * Q x + B * Gam a * P x) p_infty); [exists 0; exact E|exact L1|exact L2]. }
  cbn in L. rewrite (Gam_succ Gam HG a Ha) in L. apply Rle_trans with (1 := L). right. unfold A, B.
  rewrite EA. ring.
Qed.
(** increments of ln Gam *)
Lemma lgam_upper a h : 0 < a -> 0 <= h <= 1 -> ln (Gam (a + h)) - ln (Gam a) <= h * ln a.
Proof.
  intros Ha Hh. pose proof (gautschi a h Ha Hh) as G. pose proof (Gam_pos Gam HG a Ha). pose proof (Gam_pos Gam HG (a + h) ltac:(lra)).
  apply ln_le in G; [|assumption]. rewrite ln_mult in G by (try apply exp_pos; assumption). unfold Rpower in G. rewrite ln_exp in G. lra.
Qed.
Lemma ln_le_sub x : 0 < x -> ln x <= x - 1.
Proof. intros Hx. pose proof (exp_ineq1_le (ln x)) as E. rewrite exp_ln in E by exact Hx. lra. Qed.
Lemma lgam_lower a h : 0 < a -> 0 <= h <= 1 -> h * ln a - h / a <= ln (Gam (a + h)) - ln (Gam a).
Proof.
  intros Ha Hh. pose proof (lgam_upper (a + h) (1 - h) ltac:(lra) ltac:(lra)) as U. replace (a + h + (1 - h)) with (a + 1) in U by ring.
  rewrite (Gam_succ Gam HG a Ha), ln_mult in U by (try exact (Gam_pos Gam HG a Ha); exact Ha).
  assert (L1 : ln (a + h) <= ln a + h / a).
  { replace (a + h) with (a * (1 + h / a)) by (field; lra). assert (0 <= h / a) by (apply Rmult_le_pos; [lra|left; now apply Rinv_0_lt_compat]).
    rewrite ln_mult by lra. pose proof (ln_le_sub (1 + h / a) ltac:(lra)). lra. }
  assert (L2 : ln a <= ln (a + h)) by (apply ln_le; lra). nra.
Qed.
Lemma lgam_shift x h n : 0 < x -> 0 <= h -> ln (Gam (x + h)) - ln (Gam x) =
  ln (Gam (x + INR n + h)) - ln (Gam (x + INR n)) - rsum n (fun k => ln (x + INR k + h) - ln (x + INR k)).
Proof.
  intros Hx Hh. induction n.
  - cbn. rewrite Rplus_0_r. ring.
  - rewrite IHn. cbn [rsum]. rewrite S_INR. pose proof (pos_INR n). replace (x + (INR n + 1) + h) with (x + INR n + h + 1) by ring. replace (x + (INR n + 1)) with (x + INR n + 1) by ring.
    rewrite !(Gam_succ Gam HG), !ln_mult by (try apply (Gam_pos Gam HG); lra). ring.
Qed.
End D.
(** ln (y + h) - ln y, second order *)
Lemma ln_inc_upper y h : 0 < y -> 0 <= h -> ln (y + h) - ln y <= h / y.
Proof.
  intros Hy Hh. replace (y + h) with (y * (1 + h / y)) by (field; lra). assert (0 <= h / y) by (apply Rmult_le_pos; [lra|left; now apply Rinv_0_lt_compat]).
  rewrite ln_mult by lra. pose proof (ln_le_sub (1 + h / y) ltac:(lra)). lra.
Qed.
Lemma ln_inc_lower y h : 0 < y -> 0 <= h -> h / y - h ^ 2 / y ^ 2 <= ln (y + h) - ln y.
Proof.
  intros Hy Hh. pose proof (ln_le_sub (y / (y + h)) ltac:(apply Rdiv_lt_0_compat; lra)) as L. unfold Rdiv in L at 1. rewrite ln_mult, ln_Rinv in L by (try apply Rinv_0_lt_compat; lra).
  assert (E : h / y - h ^ 2 / y ^ 2 <= 1 - y / (y + h)).
  { assert (Q : 1 - y / (y + h) - (h / y - h ^ 2 / y ^ 2) = h ^ 3 / (y ^ 2 * (y + h))) by (field; lra).
    assert (0 <= h ^ 3 / (y ^ 2 * (y + h))); [|lra]. apply Rmult_le_pos; [apply pow_le; exact Hh|]. left. apply Rinv_0_lt_compat. apply Rmult_lt_0_compat; [apply pow_lt; exact Hy|lra]. }
  lra.
Qed.
Definition psi1_t (x : R) (k : nat) : R := / (x + INR k) ^ 2.
Definition psi1_series (x : R) : R := Series (psi1_t x).
Definition psi_t (x : R) (k : nat) : R := ln (x + INR k + 1) - ln (x + INR k) - / (x + INR k).
Definition psi_series (x : R) : R := ln x + Series (psi_t x).
Lemma xk_pos x k : 0 < x -> 0 < x + INR k. Proof. intros. pose proof (pos_INR k). lra. Qed.
Lemma psi1_t_pos x k : 0 < x -> 0 < psi1_t x k. Proof. intros H. apply Rinv_0_lt_compat, pow_lt, xk_pos, H. Qed.

Lemma psi1_bd x n : 0 < x -> rsum n (psi1_t x) <= / x ^ 2 + / x.
Proof.
  intros Hx. destruct n as [|n]; [cbn [rsum]; assert (0 < / x ^ 2) by (apply Rinv_0_lt_compat, pow_lt, Hx); assert (0 < / x) by (now apply Rinv_0_lt_compat); lra|].
  rewrite rsum_shift. unfold psi1_t at 1. cbn [INR]. rewrite Rplus_0_r. apply Rplus_le_compat_l.
  apply Rle_trans with (rsum n (fun k => - / (x + INR (S k)) - - / (x + INR k))).
  - apply rsum_le. intros k _. unfold psi1_t. rewrite S_INR. pose proof (xk_pos x k Hx) as P. set (a := x + INR k) in *. replace (x + (INR k + 1)) with (a + 1) by (unfold a; ring).
    assert (E : - / (a + 1) - - / a - / (a + 1) ^ 2 = / (a * (a + 1) ^ 2)) by (field; lra).
    assert (0 < / (a * (a + 1) ^ 2)); [|lra]. apply Rinv_0_lt_compat, Rmult_lt_0_compat; [exact P|apply pow_lt; lra].
  - rewrite (rsum_tele n (fun k => - / (x + INR k))). cbn [INR]. rewrite Rplus_0_r. assert (0 < / (x + INR n)) by (apply Rinv_0_lt_compat, xk_pos, Hx). lra.
Qed.
Lemma ex_psi1 x : 0 < x -> ex_series (psi1_t x).
Proof.
  intros Hx. assert (L : ex_finite_lim_seq (fun n => rsum n (psi1_t x))).
  { apply (ex_finite_lim_seq_incr _ (/ x ^ 2 + / x)); [|intros n; now apply psi1_bd]. intros n. cbn [rsum]. pose proof (psi1_t_pos x n Hx). lra. }
  destruct L as [l L]. exists l. now apply series_rsum.
Qed.
Lemma psi1_is x : 0 < x -> is_lim_seq (fun n => rsum n (psi1_t x)) (psi1_series x).
Proof. intros Hx. apply series_rsum. apply Series_correct. now apply ex_psi1. Qed.
Lemma psi_t_bd x k : 0 < x -> - psi1_t x k <= psi_t x k <= 0.
Proof.
  intros Hx. pose proof (xk_pos x k Hx) as P. unfold psi_t, psi1_t. set (a := x + INR k) in *.
  pose proof (ln_inc_upper a 1 P ltac:(lra)). pose proof (ln_inc_lower a 1 P ltac:(lra)). unfold Rdiv in *. rewrite ?pow1, ?Rmult_1_l in *. lra.
Qed.
Lemma psi_is x : 0 < x -> is_lim_seq (fun n => rsum n (psi_t x)) (psi_series x - ln x).
Proof.
  intros Hx. apply series_rsum. unfold psi_series. replace (ln x + Series (psi_t x) - ln x) with (Series (psi_t x)) by ring. apply Series_correct.
  apply (ex_series_le (V := R_CompleteNormedModule) (psi_t x) (psi1_t x)); [|now apply ex_psi1]. intros n. pose proof (psi_t_bd x n Hx). change (Rabs (psi_t x n) <= psi1_t x n).
  rewrite Rabs_left1; lra.
Qed.
Lemma psi_partial x n : 0 < x -> ln x + rsum n (psi_t x) = ln (x + INR n) - rsum n (fun k => / (x + INR k)).
Proof.
  intros Hx. unfold psi_t. rewrite rsum_minus, (rsum_ext n (fun k => ln (x + INR k + 1) - ln (x + INR k)) (fun k => ln (x + INR (S k)) - ln (x + INR k))).
  - rewrite (rsum_tele n (fun k => ln (x + INR k))). cbn [INR]. rewrite Rplus_0_r. ring.
  - intros k _. rewrite S_INR. now rewrite Rplus_assoc.
Qed.
Lemma lim_inv_xk x : 0 < x -> is_lim_seq (fun n => / (x + INR n)) 0.
Proof.
  intros Hx. change (Finite 0) with (Rbar_inv p_infty). apply is_lim_seq_inv; [|discriminate].
  eapply (is_lim_seq_plus (fun _ => x) INR); [apply is_lim_seq_const|apply is_lim_seq_INR|reflexivity].
Qed.
Section D2.
Variable Gam : R -> R.
Hypothesis HG : gamma_function Gam.
Lemma lgam_two x h : 0 < x -> 0 <= h <= 1 -> 0 <= ln (Gam (x + h)) - ln (Gam x) - h * psi_series x <= h ^ 2 * psi1_series x.
Proof.
  intros Hx Hh. set (L := ln (Gam (x + h)) - ln (Gam x) - h * psi_series x).
  assert (EN : forall n, L = (ln (Gam (x + INR n + h)) - ln (Gam (x + INR n)) - h * ln (x + INR n)) + h * (rsum n (psi_t x) - (psi_series x - ln x))
    + rsum n (fun k => h / (x + INR k) - (ln (x + INR k + h) - ln (x + INR k)))).
  { intros n. unfold L. rewrite (lgam_shift Gam HG x h n Hx) by lra. pose proof (psi_partial x n Hx) as PP. rewrite (rsum_minus n (fun k => h / (x + INR k))).
    rewrite (rsum_ext n (fun k => h / (x + INR k)) (fun k => h * / (x + INR k))) by (intros; reflexivity). rewrite rsum_scal.
    replace (rsum n (psi_t x)) with (ln (x + INR n) - rsum n (fun k => / (x + INR k)) - ln x) by lra. ring. }
  assert (Z : is_lim_seq (fun n => rsum n (psi_t x) - (psi_series x - ln x)) 0).
  { replace (Finite 0) with (Finite ((psi_series x - ln x) - (psi_series x - ln x))) by (f_equal; ring). apply is_lim_seq_minus'; [now apply psi_is|apply is_lim_seq_const]. }
  split.
  - assert (A : Rbar_le 0 L); [|exact A]. apply (is_lim_seq_le (fun n => h * (rsum n (psi_t x) - (psi_series x - ln x)) - h * / (x + INR n)) (fun _ => L)).
    + intros n. rewrite (EN n). pose proof (xk_pos x n Hx). pose proof (lgam_lower Gam HG (x + INR n) h ltac:(lra) Hh).
      assert (0 <= rsum n (fun k => h / (x + INR k) - (ln (x + INR k + h) - ln (x + INR k)))). { apply rsum_nonneg. intros k _. pose proof (ln_inc_upper (x + INR k) h (xk_pos x k Hx) ltac:(lra)). lra. }
      unfold Rdiv in *. lra.
    + replace (Finite 0) with (Finite (h * 0 - h * 0)) by (f_equal; ring). apply is_lim_seq_minus'; [exact (is_lim_seq_scal_l _ h _ Z)|exact (is_lim_seq_scal_l _ h _ (lim_inv_xk x Hx))].
    + apply is_lim_seq_const.
  - assert (A : Rbar_le L (h ^ 2 * psi1_series x)); [|exact A]. apply (is_lim_seq_le (fun _ => L) (fun n => h * (rsum n (psi_t x) - (psi_series x - ln x)) + h ^ 2 * rsum n (psi1_t x))).
    + intros n. rewrite (EN n). pose proof (xk_pos x n Hx). pose proof (lgam_upper Gam HG (x + INR n) h ltac:(lra) Hh).
      assert (rsum n (fun k => h / (x + INR k) - (ln (x + INR k + h) - ln (x + INR k))) <= h ^ 2 * rsum n (psi1_t x)).
      { rewrite <- rsum_scal. apply rsum_le. intros k _. pose proof (ln_inc_lower (x + INR k) h (xk_pos x k Hx) ltac:(lra)). unfold psi1_t, Rdiv in *. lra. }
      lra.
    + apply is_lim_seq_const.
    + replace (Finite (h ^ 2 * psi1_series x)) with (Finite (h * 0 + h ^ 2 * psi1_series x)) by (f_equal; ring).
      apply is_lim_seq_plus'; [exact (is_lim_seq_scal_l _ h _ Z)|exact (is_lim_seq_scal_l _ (h ^ 2) _ (psi1_is x Hx))].
Qed.
End D2.
Lemma psi_quad x h : 0 < x -> Rabs h < x / 2 -> Rabs (psi_series (x + h) - psi_series x - h * psi1_series x) <= 2 / x * psi1_series x * h ^ 2.
Proof.
  intros Hx Hh. apply Rabs_def2 in Hh. set (A := psi_series (x + h) - psi_series x - h * psi1_series x).
  set (u := fun n => (ln (x + h) + rsum n (psi_t (x + h))) - (ln x + rsum n (psi_t x)) - h * rsum n (psi1_t x)).
  assert (L : is_lim_seq u A).
  { unfold u. replace (Finite A) with (Finite ((ln (x + h) + (psi_series (x + h) - ln (x + h))) - (ln x + (psi_series x - ln x)) - h * psi1_series x)) by (unfold A; f_equal; ring).
    apply is_lim_seq_minus'; [apply is_lim_seq_minus'; (apply is_lim_seq_plus'; [apply is_lim_seq_const|apply psi_is; lra])|exact (is_lim_seq_scal_l _ h _ (psi1_is x Hx))]. }
  assert (B : forall n, Rabs (u n) <= Rabs h * / (x / 2 + INR n) + 2 / x * h ^ 2 * rsum n (psi1_t x)).
  { intros n. unfold u. rewrite !psi_partial by lra. pose proof (pos_INR n) as Pn.
    replace (ln (x + h + INR n) - rsum n (fun k => / (x + h + INR k)) - (ln (x + INR n) - rsum n (fun k => / (x + INR k))) - h * rsum n (psi1_t x))
      with ((ln (x + h + INR n) - ln (x + INR n)) - rsum n (fun k => h ^ 2 * / ((x + INR k) ^ 2 * (x + h + INR k)))).
    2: { rewrite (rsum_ext n (fun k => h ^ 2 * / ((x + INR k) ^ 2 * (x + h + INR k))) (fun k => (/ (x + h + INR k) - / (x + INR k)) + h * psi1_t x k)).
         - rewrite rsum_plus, rsum_minus, rsum_scal. ring.
         - intros k _. pose proof (pos_INR k). unfold psi1_t. field. lra. }
    apply Rle_trans with (1 := Rabs_triang _ _). rewrite Rabs_Ropp. apply Rplus_le_compat.
    - destruct (Rle_dec 0 h) as [P|P].
      + pose proof (ln_inc_upper (x + INR n) h ltac:(lra) P) as U. replace (x + INR n + h) with (x + h + INR n) in U by ring.
        assert (ln (x + INR n) <= ln (x + h + INR n)) by (apply ln_le; lra). rewrite !Rabs_right by lra.
        apply Rle_trans with (1 := U). apply Rmult_le_compat_l; [exact P|]. apply Rinv_le_contravar; lra.
      + pose proof (ln_inc_upper (x + h + INR n) (- h) ltac:(lra) ltac:(lra)) as U. replace (x + h + INR n + - h) with (x + INR n) in U by ring.
        assert (ln (x + h + INR n) <= ln (x + INR n)) by (apply ln_le; lra). rewrite Rabs_minus_sym, Rabs_right by lra. rewrite (Rabs_left h) by lra.
        apply Rle_trans with (1 := U). apply Rmult_le_compat_l; [lra|]. apply Rinv_le_contravar; lra.
    - rewrite Rabs_right. 2: { apply Rle_ge, rsum_nonneg. intros k _. apply Rmult_le_pos; [apply pow2_ge_0|]. left. pose proof (pos_INR k). apply Rinv_0_lt_compat, Rmult_lt_0_compat; [apply pow_lt|]; lra. }
      rewrite <- rsum_scal. apply rsum_le. intros k _. pose proof (pos_INR k). unfold psi1_t. rewrite Rinv_mult.
      assert (Q : / (x + h + INR k) <= 2 / x). { replace (2 / x) with (/ (x / 2)) by (field; lra). apply Rinv_le_contravar; lra. }
      assert (0 <= h ^ 2 * / (x + INR k) ^ 2) by (apply Rmult_le_pos; [apply pow2_ge_0|left; apply Rinv_0_lt_compat, pow_lt; lra]).
      replace (h ^ 2 * (/ (x + INR k) ^ 2 * / (x + h + INR k))) with (h ^ 2 * / (x + INR k) ^ 2 * / (x + h + INR k)) by ring.
      replace (2 / x * h ^ 2 * / (x + INR k) ^ 2) with (h ^ 2 * / (x + INR k) ^ 2 * (2 / x)) by ring. now apply Rmult_le_compat_l. }
  assert (C : Rbar_le (Rabs A) (Rabs h * 0 + 2 / x * h ^ 2 * psi1_series x)).
  { apply (is_lim_seq_le (fun n => Rabs (u n)) (fun n => Rabs h * / (x / 2 + INR n) + 2 / x * h ^ 2 * rsum n (psi1_t x))); [exact B|exact (is_lim_seq_abs u A L)|].
    apply is_lim_seq_plus'; [exact (is_lim_seq_scal_l _ (Rabs h) _ (lim_inv_xk (x / 2) ltac:(lra)))|exact (is_lim_seq_scal_l _ (2 / x * h ^ 2) _ (psi1_is x Hx))]. }
  cbn in C. lra.
Qed.
Lemma psi1_series_pos x : 0 < x -> 0 <= psi1_series x.
Proof. intros Hx. apply Series_nonneg; [now apply ex_psi1|]. intros n. left. now apply psi1_t_pos. Qed.
Lemma psi1_mono x y : 0 < x -> x <= y -> psi1_series y <= psi1_series x.
Proof.
  intros Hx Hy. apply Series_le; [|now apply ex_psi1]. intros n. split; [left; apply psi1_t_pos; lra|]. unfold psi1_t. pose proof (xk_pos x n Hx).
  apply Rinv_le_contravar; [apply pow_lt; assumption|]. apply pow_incr. lra.
Qed.
Lemma trigamma_derive x : 0 < x -> is_derive psi_series x (psi1_series x).
Proof.
  intros Hx. pose proof (psi1_series_pos x Hx). apply (derive_quad psi_series x _ (2 / x * psi1_series x) (x / 2)); [lra| |intros h Hh; now apply psi_quad].
  apply Rmult_le_pos; [|assumption]. apply Rmult_le_pos; [lra|left; now apply Rinv_0_lt_compat].
Qed.
Lemma digamma_derive Gam x : gamma_function Gam -> 0 < x -> is_derive (fun y => ln (Gam y)) x (psi_series x).
Proof.
  intros HG Hx. pose proof (psi1_series_pos x Hx). pose proof (psi1_series_pos (x / 2) ltac:(lra)). pose proof (psi1_mono (x / 2) x ltac:(lra) ltac:(lra)).
  set (r := Rmin (x / 2) 1). pose proof (Rmin_l (x / 2) 1). pose proof (Rmin_r (x / 2) 1). fold r in H2, H3.
  apply (derive_quad (fun y => ln (Gam y)) x _ (4 * psi1_series (x / 2)) r); [apply Rmin_pos; lra|lra|]. intros h Hh. apply Rabs_def2 in Hh.
  destruct (Rle_dec 0 h) as [P|P].
  - pose proof (lgam_two Gam HG x h Hx ltac:(lra)) as [A B]. rewrite Rabs_right by lra. apply Rle_trans with (1 := B). pose proof (pow2_ge_0 h). nra.
  - pose proof (lgam_two Gam HG (x + h) (- h) ltac:(lra) ltac:(lra)) as [A B]. replace (x + h + - h) with x in A, B by ring.
    pose proof (psi1_mono (x / 2) (x + h) ltac:(lra) ltac:(lra)) as M. pose proof (psi_quad x h Hx ltac:(apply Rabs_def1; lra)) as Q.
    pose proof (pow2_ge_0 h) as P2. assert (B' : (- h) ^ 2 * psi1_series (x + h) <= h ^ 2 * psi1_series (x / 2)). { replace ((- h) ^ 2) with (h ^ 2) by ring. nra. }
    assert (Q1 : Rabs h * Rabs (psi_series (x + h) - psi_series x - h * psi1_series x) <= Rabs h * (2 / x * psi1_series x * h ^ 2)) by (apply Rmult_le_compat_l; [apply Rabs_pos|exact Q]).
    assert (Q2 : Rabs h * (2 / x * psi1_series x * h ^ 2) <= psi1_series x * h ^ 2).
    { rewrite Rabs_left by lra. replace (- h * (2 / x * psi1_series x * h ^ 2)) with ((- h * (2 / x)) * (psi1_series x * h ^ 2)) by ring.
      rewrite <- (Rmult_1_l (psi1_series x * h ^ 2)) at 2. apply Rmult_le_compat_r; [now apply Rmult_le_pos|].
      apply Rmult_le_reg_r with x; [exact Hx|]. replace (- h * (2 / x) * x) with (- h * 2) by (field; lra). lra. }
    rewrite <- Rabs_mult in Q1. apply Rabs_le_between in Q1 || apply Rabs_le_inv in Q1.
    apply Rabs_le. nra.
Qed.
