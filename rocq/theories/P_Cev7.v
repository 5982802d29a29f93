(** CEV: the mass at zero -- short-maturity limit and the logarithmic expansion. *)
From Coq Require Import Reals Lra Lia Psatz Arith ZArith FunctionalExtensionality.
From Coquelicot Require Import Coquelicot.
From Verif Require Import Base Gauss Sums Spec_Opt Spec_Cev M_Opt M_Heston M_Cev P_Bsm P_Gamma P_Gamma2 P_Ncx2 P_Ncx3 P_Half P_Cev P_Cev2 P_Cev3 P_Cev4 P_Cev5 P_Cev6.
Open Scope R_scope.

Lemma tail_le (f g df dg : R -> R) X : (forall x, X <= x -> is_derive f x (df x)) -> (forall x, X <= x -> is_derive g x (dg x)) -> (forall x, X <= x -> dg x <= df x) ->
  is_lim f p_infty 0 -> is_lim g p_infty 0 -> forall x, X <= x -> f x <= g x.
Proof.
  intros Df Dg H Lf Lg x Hx.
  assert (L : filterlim (fun y => f y - g y) (Rbar_locally p_infty) (locally (0 - 0))) by (apply (is_lim_minus f g p_infty 0 0 (0 - 0) Lf Lg); reflexivity).
  assert (f x - g x <= 0 - 0); [|lra]. apply (lim_ge (fun y => f y - g y) (Rbar_locally p_infty) (0 - 0) (f x - g x) L). exists x. intros y Hy.
  apply (nondecreasing_on (fun y => f y - g y) (fun y => df y - dg y)); [lra| |].
  - intros t Ht. apply is_derive_minus_R; [apply Df|apply Dg]; lra.
  - intros t Ht. specialize (H t ltac:(lra)). lra.
Qed.
Lemma exp_lim_1 k : 0 < k -> is_lim (fun x => exp (- k * x)) p_infty 0. Proof. apply exp_lim_m. Qed.
Lemma pow_sandwich s e : 0 < e -> exists X, 1 <= X /\ forall x, X <= x -> exp (- (e * x)) <= Rpower x s <= exp (e * x).
Proof.
  intros He. pose proof (powexp_lim_p (Rabs s) e He (Rabs_pos s)) as L. apply is_lim_spec in L. destruct (L (mkposreal 1 Rlt_0_1)) as [M HM]. exists (Rmax 1 (M + 1)). split; [apply Rmax_l|]. intros x Hx.
  pose proof (Rmax_l 1 (M + 1)). pose proof (Rmax_r 1 (M + 1)). specialize (HM x ltac:(lra)). cbn [pos] in HM. rewrite Rminus_0_r, Rabs_right in HM by (apply Rle_ge, Rmult_le_pos; left; [apply Rpower_pos'|apply exp_pos]).
  assert (B : Rpower x (Rabs s) <= exp (e * x)).
  { replace (- e * x) with (- (e * x)) in HM by ring. rewrite exp_Ropp in HM. pose proof (exp_pos (e * x)) as E0. apply (Rmult_lt_compat_r (exp (e * x))) in HM; [|exact E0]. rewrite Rmult_assoc, Rinv_l in HM; lra. }
  assert (A : forall u, Rabs u = Rabs s -> Rpower x u <= exp (e * x)).
  { intros u Hu. eapply Rle_trans; [|exact B]. rewrite <- Hu. apply Rle_Rpower; [lra|apply Rle_abs]. }
  split; [|apply A; reflexivity]. specialize (A (- s) (Rabs_Ropp s)). rewrite Rpower_Ropp in A. rewrite exp_Ropp. rewrite <- (Rinv_inv (Rpower x s)). apply Rinv_le_contravar; [apply Rinv_0_lt_compat, Rpower_pos'|exact A].
Qed.

Section Q.
Variables (Gam : R -> R) (a : R) (P : R -> R).
Hypothesis HG : gamma_function Gam.
Hypothesis Ha : 0 < a.
Hypothesis HP : cdf_of (gamma_pdf Gam a) P.
Let Q := fun x => 1 - P x.
Lemma Q_derive x : 0 < x -> is_derive Q x (- gamma_pdf Gam a x).
Proof using HP. intros Hx. eapply is_derive_eq; [apply is_derive_minus_R; [apply is_derive_const_R|now apply HP]|]. ring. Qed.
Lemma Q_lim : is_lim Q p_infty 0.
Proof using HP. replace (Finite 0) with (Finite (1 - 1)) by (f_equal; ring). apply (is_lim_minus (fun _ => 1) P p_infty 1 1 (1 - 1)); [apply is_lim_const|apply HP|reflexivity]. Qed.
Lemma G0 : 0 < Gam a. Proof using HG Ha. now apply HG. Qed.
Lemma Q_sandwich e : 0 < e < 1 -> exists X, 1 <= X /\ forall x, X <= x -> exp (- ((1 + e) * x)) / (Gam a * (1 + e)) <= Q x <= exp (- ((1 - e) * x)) / (Gam a * (1 - e)).
Proof using HG Ha HP.
  intros He. destruct (pow_sandwich (a - 1) e (proj1 He)) as (X & HX & Hs). exists X. split; [exact HX|]. pose proof G0 as G0.
  assert (D : forall k x, 0 < k -> is_derive (fun x => exp (- (k * x)) / (Gam a * k)) x (- (exp (- (k * x)) / Gam a))) by (intros k x Hk; auto_derive; [exact I|Req; field; lra]).
  assert (L : forall k, 0 < k -> is_lim (fun x => exp (- (k * x)) / (Gam a * k)) p_infty 0).
  { intros k Hk. apply (is_lim_ext (fun x => / (Gam a * k) * exp (- k * x))); [intros x; replace (- k * x) with (- (k * x)) by ring; unfold Rdiv; ring|].
    replace (Finite 0) with (Rbar_mult (/ (Gam a * k)) 0) by (cbn; f_equal; ring). apply is_lim_scal_l. now apply exp_lim_m. }
  intros x Hx. split.
  - apply (tail_le (fun x => exp (- ((1 + e) * x)) / (Gam a * (1 + e))) Q (fun x => - (exp (- ((1 + e) * x)) / Gam a)) (fun x => - gamma_pdf Gam a x) X); [intros t _; apply D; lra|intros t Ht; apply Q_derive; lra| |apply L; lra|exact Q_lim|exact Hx].
    intros t Ht. apply Ropp_le_contravar. unfold gamma_pdf. apply Rmult_le_compat_r; [left; now apply Rinv_0_lt_compat|].
    replace (- ((1 + e) * t)) with (- (e * t) + - t) by ring. rewrite exp_plus. apply Rmult_le_compat_r; [left; apply exp_pos|]. now apply Hs.
  - apply (tail_le Q (fun x => exp (- ((1 - e) * x)) / (Gam a * (1 - e))) (fun x => - gamma_pdf Gam a x) (fun x => - (exp (- ((1 - e) * x)) / Gam a)) X); [intros t Ht; apply Q_derive; lra|intros t _; apply D; lra| |exact Q_lim|apply L; lra|exact Hx].
    intros t Ht. apply Ropp_le_contravar. unfold gamma_pdf. apply Rmult_le_compat_r; [left; now apply Rinv_0_lt_compat|].
    replace (- ((1 - e) * t)) with (e * t + - t) by ring. rewrite exp_plus. apply Rmult_le_compat_r; [left; apply exp_pos|]. now apply Hs.
Qed.
Lemma lnQ_lim : is_lim (fun x => - ln (Q x) / x) p_infty 1.
Proof using HG Ha HP.
  apply is_lim_spec. intros eps0. set (e := Rmin (/ 2) (eps0 / 2)). assert (He : 0 < e <= / 2 /\ e <= eps0 / 2) by (unfold e; pose proof (cond_pos eps0); pose proof (Rmin_l (/ 2) (eps0 / 2)); pose proof (Rmin_r (/ 2) (eps0 / 2)); repeat split; try assumption; apply Rmin_pos; lra).
  clearbody e. destruct (Q_sandwich e ltac:(lra)) as (X & HX & H). pose proof G0 as G0. pose proof (cond_pos eps0) as E0.
  set (B := Rabs (ln (Gam a * (1 + e))) + Rabs (ln (Gam a * (1 - e)))). exists (Rmax X (4 * B / eps0)). intros x Hx.
  assert (Hx1 : X < x) by (eapply Rle_lt_trans; [apply Rmax_l|exact Hx]). assert (Hx2 : 4 * B / eps0 < x) by (eapply Rle_lt_trans; [apply Rmax_r|exact Hx]).
  assert (x0 : 0 < x) by lra. destruct (H x ltac:(lra)) as [A1 A2].
  assert (K : forall k, 0 < k -> ln (exp (- (k * x)) / (Gam a * k)) = - (k * x) - ln (Gam a * k)).
  { intros k Hk. unfold Rdiv. assert (0 < Gam a * k) by now apply Rmult_lt_0_compat. rewrite ln_mult, ln_exp, ln_Rinv; [ring|assumption|apply exp_pos|now apply Rinv_0_lt_compat]. }
  assert (P1 : 0 < exp (- ((1 + e) * x)) / (Gam a * (1 + e))) by (apply Rdiv_lt_0_compat; [apply exp_pos|apply Rmult_lt_0_compat; lra]).
  apply ln_le_R in A1; [|exact P1]. apply ln_le_R in A2; [|exact (Rlt_le_trans _ _ _ P1 (proj1 (H x ltac:(lra))))]. rewrite K in A1, A2 by lra.
  assert (Bx : B <= eps0 / 4 * x). { apply (Rmult_lt_compat_l (eps0 / 4)) in Hx2; [|lra]. replace (eps0 / 4 * (4 * B / eps0)) with B in Hx2 by (field; lra). lra. }
  pose proof (Rle_abs (ln (Gam a * (1 + e)))). pose proof (Rle_abs (- ln (Gam a * (1 - e)))) as R2. rewrite Rabs_Ropp in R2. pose proof (Rabs_pos (ln (Gam a * (1 + e)))). pose proof (Rabs_pos (ln (Gam a * (1 - e)))). unfold B in Bx. clear B Hx Hx2.
  set (l := ln (Q x)) in *. assert (Z : Rabs (- l - x) < eps0 * x). { apply Rabs_def1; nra. }
  replace (- l / x - 1) with ((- l - x) / x) by (field; lra). unfold Rdiv. rewrite Rabs_mult, (Rabs_right (/ x)) by (left; now apply Rinv_0_lt_compat).
  apply (Rmult_lt_reg_r x); [exact x0|]. rewrite Rmult_assoc, Rinv_l, Rmult_1_r by lra. exact Z.
Qed.

(** the expansion Gamma(a, x) ~ x^(a-1) e^-x (1 + (a-1)/x (1 + (a-2)/x (...))) *)
Definition gser (x : R) : R := (a - 1) / x * (1 + (a - 2) / x * (1 + (a - 3) / x * (1 + (a - 4) / x))).
Definition gP : R := (a - 1) * (a - 2) * (a - 3) * (a - 4) * (a - 5).
Definition gapx (x : R) : R := Rpower x (a - 1) * exp (- x) * (1 + gser x).
Lemma pshift x j : 0 < x -> Rpower x (a - 1 - INR j) = Rpower x (a - 1) / x ^ j.
Proof using. intros Hx. replace (a - 1 - INR j) with ((a - 1) + - INR j) by ring. rewrite (Rpower_plus (a - 1)), (Rpower_Ropp x (INR j)), Rpower_pow by exact Hx. reflexivity. Qed.
Lemma gapx_derive x : 0 < x -> is_derive gapx x (- (Rpower x (a - 1) * exp (- x)) + gP * (Rpower x (a - 1) / x ^ 5 * exp (- x))).
Proof using.
  intros Hx. unfold gapx, gser. eapply is_derive_eq.
  - apply is_derive_mult_R; [apply is_derive_mult_R; [now apply is_derive_Rpower|]|].
    + instantiate (1 := - exp (- x)). auto_derive; [exact I|Req; ring].
    + apply is_derive_plus_R; [apply is_derive_const_R|]. instantiate (1 := - (a - 1) / x ^ 2 - 2 * ((a - 1) * (a - 2)) / x ^ 3 - 3 * ((a - 1) * (a - 2) * (a - 3)) / x ^ 4 - 4 * ((a - 1) * (a - 2) * (a - 3) * (a - 4)) / x ^ 5).
      auto_derive; [repeat split; lra|Req; field; lra].
  - cbv beta. rewrite <- (Rpower_succ (a - 1) x Hx). unfold gP. set (p := Rpower x (a - 1 - 1)). field. lra.
Qed.
Lemma gapx_lim : is_lim gapx p_infty 0.
Proof using.
  pose proof (powexp_lim_p (Rabs (a - 1)) 1 ltac:(lra) (Rabs_pos _)) as L.
  set (c := 1 + (Rabs (a - 1)) * (1 + Rabs (a - 2) * (1 + Rabs (a - 3) * (1 + Rabs (a - 4))))).
  assert (Lc : is_lim (fun x => c * (Rpower x (Rabs (a - 1)) * exp (- (1) * x))) p_infty 0) by (replace (Finite 0) with (Rbar_mult c 0) by (cbn; f_equal; ring); now apply is_lim_scal_l).
  apply is_lim_spec. apply is_lim_spec in Lc. intros e. destruct (Lc e) as [M HM]. exists (Rmax M 1). intros x Hx.
  assert (Hx1 : M < x) by (eapply Rle_lt_trans; [apply Rmax_l|exact Hx]). assert (Hx2 : 1 < x) by (eapply Rle_lt_trans; [apply Rmax_r|exact Hx]).
  eapply Rle_lt_trans; [|apply (HM x Hx1)]. rewrite !Rminus_0_r. unfold gapx. replace (- (1) * x) with (- x) by ring.
  assert (C0 : 0 <= c). { unfold c. pose proof (Rabs_pos (a - 1)). pose proof (Rabs_pos (a - 2)). pose proof (Rabs_pos (a - 3)). pose proof (Rabs_pos (a - 4)). assert (0 <= Rabs (a - 1) * (1 + Rabs (a - 2) * (1 + Rabs (a - 3) * (1 + Rabs (a - 4))))) by (repeat (apply Rmult_le_pos || apply Rplus_le_le_0_compat); lra). lra. }
  rewrite Rabs_mult, (Rabs_right (Rpower x (a - 1) * exp (- x))) by (apply Rle_ge, Rmult_le_pos; left; [apply Rpower_pos'|apply exp_pos]).
  rewrite (Rabs_right (c * _)) by (apply Rle_ge; apply Rmult_le_pos; [exact C0|]; apply Rmult_le_pos; left; [apply Rpower_pos'|apply exp_pos]).
  rewrite (Rmult_comm c). apply Rmult_le_compat; [apply Rmult_le_pos; left; [apply Rpower_pos'|apply exp_pos]|apply Rabs_pos| |].
  - apply Rmult_le_compat_r; [left; apply exp_pos|]. apply Rle_Rpower; [lra|apply Rle_abs].
  - assert (I : forall u v w, Rabs v <= w -> Rabs (1 + u / x * v) <= 1 + Rabs u * w).
    { intros u v w Hv. eapply Rle_trans; [apply Rabs_triang|]. rewrite Rabs_R1. apply Rplus_le_compat_l. unfold Rdiv. rewrite !Rabs_mult. rewrite (Rabs_right (/ x)) by (left; apply Rinv_0_lt_compat; lra).
      apply Rmult_le_compat; [apply Rmult_le_pos; [apply Rabs_pos|left; apply Rinv_0_lt_compat; lra]|apply Rabs_pos| |exact Hv]. rewrite <- (Rmult_1_r (Rabs u)) at 2. apply Rmult_le_compat_l; [apply Rabs_pos|]. rewrite <- Rinv_1. apply Rinv_le_contravar; lra. }
    unfold gser, c. apply I, I, I. replace (1 + (a - 4) / x) with (1 + (a - 4) / x * 1) by ring. replace (1 + Rabs (a - 4)) with (1 + Rabs (a - 4) * 1) by ring. apply I. rewrite Rabs_R1. lra.
Qed.
Lemma grem_lim : a <= 6 -> is_lim (fun x => Rpower x (a - 1) / x ^ 5 * exp (- x)) p_infty 0.
Proof using.
  intros H6. apply is_lim_spec. pose proof (exp_lim_m 1 ltac:(lra)) as L. apply is_lim_spec in L. intros e. destruct (L e) as [M HM]. exists (Rmax M 1). intros x Hx.
  assert (Hx1 : M < x) by (eapply Rle_lt_trans; [apply Rmax_l|exact Hx]). assert (Hx2 : 1 < x) by (eapply Rle_lt_trans; [apply Rmax_r|exact Hx]).
  eapply Rle_lt_trans; [|apply (HM x Hx1)]. rewrite !Rminus_0_r. replace (- (1) * x) with (- x) by ring. rewrite <- (pshift x 5) by lra.
  pose proof (Rpower_pos' x (a - 1 - INR 5)). pose proof (exp_pos (- x)). rewrite (Rabs_right (_ * _)) by (apply Rle_ge, Rmult_le_pos; left; assumption). rewrite (Rabs_right (exp _)) by (left; assumption).
  assert (Rpower x (a - 1 - INR 5) <= 1); [|nra]. apply (Rle_trans _ (Rpower x 0)); [|right; apply Rpower_O; lra]. apply Rle_Rpower; [lra|]. cbn [INR]. lra.
Qed.
Lemma Qapx_derive x : 0 < x -> is_derive (fun x => Gam a * Q x - gapx x) x (- gP * (Rpower x (a - 1) / x ^ 5 * exp (- x))).
Proof using HG Ha HP.
  intros Hx. pose proof G0. eapply is_derive_eq; [apply is_derive_minus_R; [apply is_derive_scal_R; now apply Q_derive|now apply gapx_derive]|]. unfold gamma_pdf. field. lra.
Qed.
Lemma Qapx_lim : is_lim (fun x => Gam a * Q x - gapx x) p_infty 0.
Proof using HP.
  replace (Finite 0) with (Finite (Gam a * 0 - 0)) by (f_equal; ring). apply (is_lim_minus (fun x => Gam a * Q x) gapx p_infty (Gam a * 0) 0); [|exact gapx_lim|reflexivity]. apply (is_lim_scal_l Q (Gam a) p_infty 0). exact Q_lim.
Qed.
Lemma grem_derive x : 0 < x -> is_derive (fun x => gP * (Rpower x (a - 1) / x ^ 5 * exp (- x))) x (gP * ((a - 6) / x - 1) * (Rpower x (a - 1) / x ^ 5 * exp (- x))).
Proof using.
  intros Hx. eapply is_derive_eq.
  - apply is_derive_scal_R. apply is_derive_mult_R; [|instantiate (1 := - exp (- x)); auto_derive; [exact I|Req; ring]]. unfold Rdiv. apply is_derive_mult_R; [now apply is_derive_Rpower|].
    instantiate (1 := - 5 / x ^ 6). auto_derive; [repeat (apply Rmult_integral_contrapositive_currified; try lra)|Req; field; lra].
  - cbv beta. rewrite <- (Rpower_succ (a - 1) x Hx). set (p := Rpower x (a - 1 - 1)). field. lra.
Qed.
(** the remainder lies between 0 and the first omitted term *)
Lemma gexp_bound x : a <= 6 -> 0 < x -> Rabs (Gam a * Q x - gapx x) <= Rabs gP * (Rpower x (a - 1) / x ^ 5 * exp (- x)).
Proof using HG Ha HP.
  intros H6 Hx. set (rm := fun x => Rpower x (a - 1) / x ^ 5 * exp (- x)).
  assert (rp : forall t, 0 < t -> 0 < rm t). { intros t Ht. unfold rm. apply Rmult_lt_0_compat; [|apply exp_pos]. apply Rdiv_lt_0_compat; [apply Rpower_pos'|now apply pow_lt]. }
  assert (Lr : is_lim (fun x => gP * rm x) p_infty 0) by (replace (Finite 0) with (Rbar_mult gP 0) by (cbn; f_equal; ring); apply is_lim_scal_l; now apply grem_lim).
  assert (L0 : is_lim (fun _ => 0) p_infty 0) by apply is_lim_const.
  assert (D0 : forall t, x <= t -> is_derive (fun _ => 0) t 0) by (intros; apply is_derive_const_R).
  assert (DE : forall t, x <= t -> is_derive (fun x => Gam a * Q x - gapx x) t (- gP * rm t)) by (intros t Ht; apply Qapx_derive; lra).
  assert (DR : forall t, x <= t -> is_derive (fun x => gP * rm x) t (gP * ((a - 6) / t - 1) * rm t)) by (intros t Ht; apply grem_derive; lra).
  assert (S6 : forall t, x <= t -> 0 <= (6 - a) / t * rm t). { intros t Ht. apply Rmult_le_pos; [apply Rmult_le_pos; [lra|left; apply Rinv_0_lt_compat; lra]|left; apply rp; lra]. }
  destruct (Rle_lt_dec 0 gP) as [Hp|Hp].
  - rewrite (Rabs_right gP) by lra. rewrite Rabs_right.
    + apply (tail_le (fun x => Gam a * Q x - gapx x) (fun x => gP * rm x) (fun t => - gP * rm t) (fun t => gP * ((a - 6) / t - 1) * rm t) x DE DR); [|exact Qapx_lim|exact Lr|lra].
      intros t Ht. specialize (S6 t Ht). replace (gP * ((a - 6) / t - 1) * rm t) with (- gP * rm t - gP * ((6 - a) / t * rm t)) by (field; lra). pose proof (Rmult_le_pos _ _ Hp S6). lra.
    + apply Rle_ge. apply (tail_le (fun _ => 0) (fun x => Gam a * Q x - gapx x) (fun _ => 0) (fun t => - gP * rm t) x D0 DE); [|exact L0|exact Qapx_lim|lra].
      intros t Ht. pose proof (rp t ltac:(lra)). nra.
  - rewrite (Rabs_left gP) by lra. rewrite Rabs_left1.
    + rewrite Ropp_mult_distr_l_reverse. apply Ropp_le_contravar. apply (tail_le (fun x => gP * rm x) (fun x => Gam a * Q x - gapx x) (fun t => gP * ((a - 6) / t - 1) * rm t) (fun t => - gP * rm t) x DR DE); [|exact Lr|exact Qapx_lim|lra].
      intros t Ht. specialize (S6 t Ht). replace (gP * ((a - 6) / t - 1) * rm t) with (- gP * rm t + (- gP) * ((6 - a) / t * rm t)) by (field; lra). pose proof (Rmult_le_pos (- gP) _ ltac:(lra) S6). lra.
    + apply (tail_le (fun x => Gam a * Q x - gapx x) (fun _ => 0) (fun t => - gP * rm t) (fun _ => 0) x DE D0); [|exact Qapx_lim|exact L0|lra].
      intros t Ht. pose proof (rp t ltac:(lra)). nra.
Qed.
End Q.

Lemma exprel_lim c : filterlim (fun T => exprel (c * T)) (at_right 0) (locally 1).
Proof.
  pose proof (texprel_derive c 0) as D. rewrite Rmult_0_r, exp_0 in D. apply is_derive_Reals in D. intros P [e He]. destruct (D e (cond_pos e)) as [d Hd]. exists d. intros T HT T0. apply He.
  change (Rabs (T - 0) < d) in HT. rewrite Rminus_0_r in HT. specialize (Hd T ltac:(lra) HT). rewrite Rplus_0_l, Rmult_0_l, Rminus_0_r in Hd. replace (T * exprel (c * T) / T) with (exprel (c * T)) in Hd by (field; lra). exact Hd.
Qed.
Lemma lim_mult_0 (f g : R -> R) (u v : R) : filterlim f (at_right 0) (locally u) -> filterlim g (at_right 0) (locally v) -> filterlim (fun x => f x * g x) (at_right 0) (locally (u * v)).
Proof. intros A B. apply lim_mult_R; [typeclasses eauto|exact A|exact B]. Qed.
Lemma cont_0 (f : R -> R) : continuous f 0 -> filterlim f (at_right 0) (locally (f 0)).
Proof. intros C. eapply filterlim_filter_le_1; [|exact C]. apply filter_le_within. Qed.
Lemma t0_eq beta m S T : 0 < S -> cev_mass_zero_t0 beta m S T = / 2 * (Rpower (mF m S T) (2 * (1 - beta)) / ((1 - beta) * sigma m) ^ 2) * / exprel (2 * (intr m - divr m) * (1 - beta) * T).
Proof.
  intros HS. unfold cev_mass_zero_t0. cbv zeta. change (forward m S T) with (mF m S T). rewrite rp2. pose proof (exprel_gt0 (2 * (intr m - divr m) * (1 - beta) * T)). assert (0 < Rpower (mF m S T) (1 - beta)) by apply exp_pos.
  set (x := exprel _) in *. set (p := Rpower _ _) in *. clearbody x p. unfold Rdiv. rewrite !Rpow_mult_distr, !Rinv_mult, !pow_inv, Rinv_inv. ring.
Qed.
Lemma t0_pos beta m S T : beta <> 1 -> sigma m <> 0 -> 0 < S -> 0 < cev_mass_zero_t0 beta m S T.
Proof.
  intros Hb Hsg HS. rewrite t0_eq by exact HS. pose proof (exprel_gt0 (2 * (intr m - divr m) * (1 - beta) * T)). apply Rmult_lt_0_compat; [|now apply Rinv_0_lt_compat]. apply Rmult_lt_0_compat; [lra|]. apply Rdiv_lt_0_compat; [apply exp_pos|].
  apply pow2_gt_0. apply Rmult_integral_contrapositive_currified; lra.
Qed.
Lemma t0_lim beta m S : beta <> 1 -> 0 < S -> filterlim (cev_mass_zero_t0 beta m S) (at_right 0) (locally (cev_mass_zero_t0 beta m S 0)).
Proof.
  intros Hb HS. apply (filterlim_ext (fun T => / 2 * (Rpower (mF m S T) (2 * (1 - beta)) / ((1 - beta) * sigma m) ^ 2) * / exprel (2 * (intr m - divr m) * (1 - beta) * T))); [intros; symmetry; now apply t0_eq|].
  rewrite t0_eq by exact HS. apply lim_mult_0.
  - apply (cont_0 (fun T => / 2 * (Rpower (mF m S T) (2 * (1 - beta)) / ((1 - beta) * sigma m) ^ 2))). apply ex_derive_continuous_R. unfold mF, FWD, Rpower, Rdiv. destruct (is_fwd m); auto_derive; try (repeat split; exact HS). rewrite Rmult_0_r, exp_0. lra.
  - rewrite Rmult_0_r. replace (exprel 0) with 1 by (unfold exprel; destruct (Req_EM_T 0 0); lra). apply (filterlim_comp _ _ _ (fun T => exprel (2 * (intr m - divr m) * (1 - beta) * T)) Rinv _ (locally 1)); [apply exprel_lim|].
    apply (continuous_Rinv 1). lra.
Qed.
Lemma mass_as_tail gsf beta m S T : beta <> 1 -> 0 < S -> 0 < T -> cev_mass_zero gsf beta m S T = gsf (cev_mass_zero_t0 beta m S T / T) (/ 2 / (1 - beta)).
Proof.
  intros Hb HS HT. unfold cev_mass_zero, cev_mass_zero_t0. cbv zeta. f_equal. unfold Rdiv. rewrite !Rinv_mult. ring.
Qed.
Lemma mass_t0_thm Gam gcdf gsf beta m S : gamma_function Gam -> gamma_routines Gam gcdf gsf -> beta < 1 -> sigma m <> 0 -> 0 < S ->
  filterlim (fun T => - T * ln (cev_mass_zero gsf beta m S T)) (at_right 0) (locally (cev_mass_zero_t0 beta m S 0)).
Proof.
  intros HG Hg Hb Hsg HS. set (a := / 2 / (1 - beta)). assert (Ha : 0 < a) by (unfold a; apply Rdiv_lt_0_compat; lra). destruct (Hg a Ha) as [HP Hsf].
  pose proof (lnQ_lim Gam a (fun x => gcdf x a) HG Ha HP) as L.
  assert (Xi : filterlim (fun T => cev_mass_zero_t0 beta m S T / T) (at_right 0) (Rbar_locally p_infty)).
  { pose proof (t0_lim beta m S ltac:(lra) HS) as TL. pose proof (t0_pos beta m S 0 ltac:(lra) Hsg HS) as T0. set (v := cev_mass_zero_t0 beta m S 0) in *.
    intros P [M HM]. assert (E : at_right 0 (fun T => v / 2 < cev_mass_zero_t0 beta m S T)). { apply (TL (fun y => v / 2 < y)). apply (locally_gt (fun u => u)); [apply continuous_id|lra]. }
    destruct E as [d Hd]. assert (D2 : 0 < Rmin d (v / 2 / (Rabs M + 1))). { apply Rmin_pos; [apply cond_pos|]. apply Rdiv_lt_0_compat; [lra|]. pose proof (Rabs_pos M). lra. }
    exists (mkposreal _ D2). intros T HT TP. apply HM. change (Rabs (T - 0) < Rmin d (v / 2 / (Rabs M + 1))) in HT. rewrite Rminus_0_r, Rabs_right in HT by lra.
    assert (A : T < d) by (eapply Rlt_le_trans; [exact HT|apply Rmin_l]). assert (B : T < v / 2 / (Rabs M + 1)) by (eapply Rlt_le_trans; [exact HT|apply Rmin_r]).
    specialize (Hd T). assert (v / 2 < cev_mass_zero_t0 beta m S T). { apply Hd; [|exact TP]. change (Rabs (T - 0) < d). rewrite Rminus_0_r, Rabs_right; lra. }
    pose proof (Rabs_pos M). pose proof (Rle_abs M). apply (Rmult_lt_compat_r (Rabs M + 1)) in B; [|lra]. replace (v / 2 / (Rabs M + 1) * (Rabs M + 1)) with (v / 2) in B by (field; lra).
    apply (Rmult_lt_reg_r T); [exact TP|]. unfold Rdiv. rewrite Rmult_assoc, Rinv_l by lra. nra. }
  assert (L2 : filterlim (fun T => - ln (1 - gcdf (cev_mass_zero_t0 beta m S T / T) a) / (cev_mass_zero_t0 beta m S T / T)) (at_right 0) (locally 1)) by exact (filterlim_comp _ _ _ _ (fun x => - ln (1 - gcdf x a) / x) _ _ _ Xi L).
  pose proof (lim_mult_0 _ _ _ _ (t0_lim beta m S ltac:(lra) HS) L2) as L3. rewrite Rmult_1_r in L3. refine (filterlim_ext_loc _ _ _ L3). exists (mkposreal 1 Rlt_0_1). intros T _ TP.
  pose proof (t0_pos beta m S T ltac:(lra) Hsg HS). rewrite mass_as_tail by (try assumption; lra). fold a. rewrite Hsf by (apply Rdiv_lt_0_compat; assumption). set (q := ln _). field. split; lra.
Qed.

(** log = True *)
Lemma inner_bd u v : Rabs u <= / 20 -> 9 / 10 <= v <= 11 / 10 -> 9 / 10 <= 1 + u * v <= 11 / 10.
Proof. intros Hu Hv. apply Rabs_le_between in Hu. split; nra. Qed.
Lemma log_mass_eq gsf lg beta m S T : 0 < S -> 0 < T -> beta <> 1 -> let a := / 2 / (1 - beta) in let x := cev_mass_zero_t0 beta m S T / T in
  cev_log_mass_zero gsf lg beta m S T = if Rlt_dec 100 x then (a - 1) * ln x - x - lg a + ln (1 + gser a x) else ln (gsf x a).
Proof.
  intros HS HT Hb a x. unfold cev_log_mass_zero. cbv zeta. change (forward m S T) with (mF m S T).
  replace (/ 2 / (((1 - beta) * (sigma m / Rpower (mF m S T) (1 - beta))) ^ 2 * T * exprel (2 * (intr m - divr m) * (1 - beta) * T))) with x; [reflexivity|].
  unfold x, cev_mass_zero_t0. cbv zeta. change (forward m S T) with (mF m S T). unfold Rdiv. rewrite !Rinv_mult. ring.
Qed.
Lemma log_mass_thm Gam gcdf gsf lg beta m S T : gamma_function Gam -> gamma_routines Gam gcdf gsf -> (forall a, 0 < a -> lg a = ln (Gam a)) ->
  beta <= 11 / 12 -> sigma m <> 0 -> 0 < S -> 0 < T ->
  Rabs (exp (cev_log_mass_zero gsf lg beta m S T) - cev_mass_zero gsf beta m S T) <= / 10 ^ 7 * cev_mass_zero gsf beta m S T.
Proof.
  intros HG Hg Hl Hb Hsg HS HT. rewrite log_mass_eq, mass_as_tail by (try assumption; lra). cbv zeta. set (a := / 2 / (1 - beta)).
  assert (Ha : 0 < a <= 6). { unfold a. split; [apply Rdiv_lt_0_compat; lra|]. apply (Rmult_le_reg_r (1 - beta)); [lra|]. unfold Rdiv. rewrite Rmult_assoc, Rinv_l by lra. lra. }
  assert (X0 : 0 < cev_mass_zero_t0 beta m S T / T) by (apply Rdiv_lt_0_compat; [apply t0_pos; try assumption; lra|exact HT]). set (x := cev_mass_zero_t0 beta m S T / T) in *. clearbody a x.
  destruct (Hg a (proj1 Ha)) as [HP Hsf]. pose proof (proj1 (HG a (proj1 Ha))) as G0. rewrite (Hsf x X0).
  assert (Q0 : 0 < 1 - gcdf x a). { rewrite (cdf_unique _ _ _ HP (Hn_0 Gam HG a (proj1 Ha)) x X0). pose proof (Hn_lt1 Gam HG a x (proj1 Ha) X0). lra. }
  destruct (Rlt_dec 100 x) as [L|L].
  2: { rewrite exp_ln by exact Q0. rewrite Rminus_diag_eq, Rabs_R0 by reflexivity. apply Rmult_le_pos; lra. }
  assert (I : forall j, 1 <= j <= 4 -> Rabs ((a - j) / x) <= / 20).
  { intros j Hj. unfold Rdiv. rewrite Rabs_mult, (Rabs_right (/ x)) by (left; apply Rinv_0_lt_compat; lra). assert (Rabs (a - j) <= 5) by (apply Rabs_le; lra). assert (/ x <= / 100) by (apply Rinv_le_contravar; lra). assert (0 < / x) by (apply Rinv_0_lt_compat; lra). nra. }
  assert (S1 : 9 / 10 <= 1 + gser a x <= 11 / 10).
  { unfold gser. apply inner_bd; [apply I; lra|]. apply inner_bd; [apply I; lra|]. apply inner_bd; [apply I; lra|]. replace ((a - 4) / x) with ((a - 4) / x * 1) by ring. apply inner_bd; [apply I; lra|lra]. }
  pose proof (gexp_bound Gam a (fun x => gcdf x a) HG (proj1 Ha) HP x (proj2 Ha) X0) as B. cbv beta in B.
  assert (E : exp ((a - 1) * ln x - x - lg a + ln (1 + gser a x)) = gapx a x / Gam a).
  { unfold gapx. rewrite exp_plus, exp_ln by lra. unfold Rminus. rewrite !exp_plus, (exp_Ropp (lg a)), (Hl a (proj1 Ha)), exp_ln by assumption. unfold Rpower, Rdiv. ring. }
  rewrite E. set (Q := 1 - gcdf x a) in *. assert (GP : Rabs (gP a) <= 120 * 6).
  { assert (C : forall j, 1 <= j <= 5 -> Rabs (a - j) <= 5) by (intros j Hj; apply Rabs_le; lra). unfold gP. rewrite !Rabs_mult.
    assert (Rabs (a - 1) <= 5) by (apply Rabs_le; lra). assert (Rabs (a - 2) <= 4) by (apply Rabs_le; lra). assert (Rabs (a - 3) <= 3) by (apply Rabs_le; lra). assert (Rabs (a - 4) <= 4) by (apply Rabs_le; lra). assert (Rabs (a - 5) <= 5) by (apply Rabs_le; lra).
    assert (M : forall u v p q, 0 <= u -> u <= p -> 0 <= v -> v <= q -> 0 <= u * v <= p * q) by (intros; split; [now apply Rmult_le_pos|now apply Rmult_le_compat]).
    assert (Z : Rabs (a - 1) * Rabs (a - 5) <= 9). { rewrite <- Rabs_mult. apply Rabs_le. split; nra. }
    assert (Z2 : Rabs (a - 2) * Rabs (a - 4) <= 8). { rewrite <- Rabs_mult. apply Rabs_le. split; nra. }
    pose proof (Rabs_pos (a - 1)); pose proof (Rabs_pos (a - 2)); pose proof (Rabs_pos (a - 3)); pose proof (Rabs_pos (a - 4)); pose proof (Rabs_pos (a - 5)).
    replace (Rabs (a - 1) * Rabs (a - 2) * Rabs (a - 3) * Rabs (a - 4) * Rabs (a - 5)) with (Rabs (a - 1) * Rabs (a - 5) * (Rabs (a - 2) * Rabs (a - 4)) * Rabs (a - 3)) by ring.
    assert (W : 0 <= Rabs (a - 1) * Rabs (a - 5) * (Rabs (a - 2) * Rabs (a - 4)) <= 9 * 8) by (apply M; try assumption; now apply Rmult_le_pos). nra. }
  set (le := Rpower x (a - 1) * exp (- x)) in *. assert (L0 : 0 < le) by (apply Rmult_lt_0_compat; [apply Rpower_pos'|apply exp_pos]).
  assert (EA : gapx a x = le * (1 + gser a x)) by reflexivity.
  assert (X5 : / x ^ 5 <= / 10 ^ 10). { apply Rinv_le_contravar; [lra|]. replace (10 ^ 10) with (100 ^ 5) by ring. apply pow_incr. lra. }
  assert (X5' : 0 < / x ^ 5) by (apply Rinv_0_lt_compat; apply pow_lt; lra).
  assert (B2 : Rabs (Gam a * Q - gapx a x) <= 72 / 10 ^ 9 * le).
  { eapply Rle_trans; [exact B|]. replace (Rpower x (a - 1) / x ^ 5 * exp (- x)) with (/ x ^ 5 * le) by (unfold le, Rdiv; ring). assert (H : Rabs (gP a) * / x ^ 5 <= 720 * / 10 ^ 10) by (apply Rmult_le_compat; try lra; apply Rabs_pos).
    rewrite <- Rmult_assoc. apply Rmult_le_compat_r; [lra|]. eapply Rle_trans; [exact H|]. right. field. }
  rewrite EA in B2 |- *. set (g := 1 + gser a x) in *. set (G := Gam a) in *. clearbody g le G Q.
  replace (le * g / G - Q) with (- (G * Q - le * g) / G) by (field; lra). unfold Rdiv. rewrite Rabs_mult, Rabs_Ropp, (Rabs_right (/ G)) by (left; now apply Rinv_0_lt_compat).
  apply (Rmult_le_reg_r G); [exact G0|]. rewrite Rmult_assoc, Rinv_l, Rmult_1_r by lra. eapply Rle_trans; [exact B2|]. apply Rabs_le_between in B2.
  assert (89 / 100 * le <= G * Q) by nra. nra.
Qed.
(** ... and it fails for beta close to 1 *)
Lemma pow4_bd N : INR N * 1 + 1 <= 2 ^ N.
Proof. induction N as [|N IH]; [cbn; lra|]. rewrite S_INR. cbn [pow]. assert (1 <= 2 ^ N) by (apply pow_R1_Rle; lra). lra. Qed.
Lemma Gam_fact Gam N : gamma_function Gam -> Gam (INR N + 1) = Gam 1 * INR (fact N).
Proof.
  intros HG. induction N as [|N IH]; [cbn [INR fact]; rewrite Rplus_0_l; ring|]. rewrite S_INR, (Gam_succ Gam HG) by (pose proof (pos_INR N); lra). rewrite IH. change (fact (S N)) with (S N * fact N)%nat. rewrite mult_INR, S_INR. ring.
Qed.
Lemma Hn_fact Gam N x : gamma_function Gam -> 0 < x -> Hn Gam (INR N + 1) 0 x <= Hn Gam 1 0 x.
Proof.
  intros HG Hx. induction N as [|N IH]; [cbn [INR]; rewrite Rplus_0_l; lra|]. eapply Rle_trans; [|exact IH]. rewrite S_INR. pose proof (pos_INR N).
  pose proof (Hn_step Gam HG (INR N + 1) 0 x ltac:(lra) Hx) as E. pose proof (np_pos Gam HG (INR N + 1 + 1) 0 x ltac:(lra) ltac:(lra) Hx). lra.
Qed.
Lemma log_mass_bad Gam gcdf gsf lg c : gamma_function Gam -> gamma_routines Gam gcdf gsf -> (forall a, 0 < a -> lg a = ln (Gam a)) -> 0 < c ->
  exists beta sg, 0 < beta < 1 /\ 0 < sg /\ let m := mkOpt sg 0 0 false in
  exp (cev_log_mass_zero gsf lg beta m 1 1) < c * cev_mass_zero gsf beta m 1 1.
Proof.
  intros HG Hg Hl Hc. pose proof (proj1 (HG 1 Rlt_0_1)) as G1. pose proof (Hn_lt1 Gam HG 1 101 Rlt_0_1 ltac:(lra)) as H1. set (d := c * (1 - Hn Gam 1 0 101)). assert (D0 : 0 < d) by (apply Rmult_lt_0_compat; lra).
  destruct (cv_speed_pow_fact (16 * 101) (d * Gam 1) ltac:(now apply Rmult_lt_0_compat)) as [N0 HN]. set (N := (N0 + 4)%nat). specialize (HN N ltac:(unfold N; lia)). unfold R_dist in HN. rewrite Rminus_0_r in HN.
  assert (NN : 4 <= INR N) by (unfold N; rewrite plus_INR; pose proof (pos_INR N0); cbn [INR]; lra). clearbody N. clear N0.
  set (a := INR N + 1). set (beta := 1 - / (2 * a)). assert (A5 : 5 <= a) by (unfold a; lra).
  assert (IA : 0 < / (2 * a) <= / 10) by (split; [apply Rinv_0_lt_compat; lra|apply Rinv_le_contravar; lra]).
  assert (EA : / 2 / (1 - beta) = a) by (unfold beta; replace (1 - (1 - / (2 * a))) with (/ (2 * a)) by ring; field; lra).
  assert (Q2 : 0 < sqrt 202) by (apply sqrt_lt_R0; lra).
  exists beta, (2 * a / sqrt 202). assert (Hb : 0 < beta < 1) by (unfold beta; lra). assert (Sg : 0 < 2 * a / sqrt 202) by (apply Rdiv_lt_0_compat; lra). split; [exact Hb|]. split; [exact Sg|]. set (m := mkOpt (2 * a / sqrt 202) 0 0 false). cbv zeta.
  assert (EX : cev_mass_zero_t0 beta m 1 1 / 1 = 101).
  { rewrite t0_eq by lra. unfold mF, FWD, m. cbn [is_fwd intr divr sigma]. replace (1 * exp ((0 - 0) * 1)) with 1 by (replace ((0 - 0) * 1) with 0 by ring; rewrite exp_0; ring). rewrite rpower_one. replace (2 * (0 - 0) * (1 - beta) * 1) with 0 by ring.
    unfold exprel. destruct (Req_EM_T 0 0); [|lra]. replace ((1 - beta) * (2 * a / sqrt 202)) with (/ sqrt 202) by (unfold beta; field; split; lra). rewrite pow_inv, pow2_sqrt by lra. field. }
  rewrite log_mass_eq, mass_as_tail by lra. cbv zeta. rewrite EX, EA. destruct (Rlt_dec 100 101) as [_|]; [|lra].
  destruct (Hg a ltac:(lra)) as [HP Hsf]. rewrite (Hsf 101) by lra. rewrite (cdf_unique _ _ _ HP (Hn_0 Gam HG a ltac:(lra)) 101) by lra.
  apply (Rlt_le_trans _ d). 2: { unfold d. apply Rmult_le_compat_l; [lra|]. pose proof (Hn_fact Gam N 101 HG ltac:(lra)). unfold a. lra. }
  assert (I : forall j v w, 1 <= j <= 4 -> 0 <= v <= w -> 0 <= 1 + (a - j) / 101 * v <= 1 + INR N * w).
  { intros j v w Hj Hv. assert (0 <= (a - j) / 101 <= INR N) by (unfold a; lra). split; nra. }
  set (n := INR N) in *. assert (S1 : 0 <= 1 + gser a 101 <= 1 + n * (1 + n * (1 + n * (1 + n * 1)))).
  { unfold gser. apply I; [lra|]. apply I; [lra|]. apply I; [lra|]. replace ((a - 4) / 101) with ((a - 4) / 101 * 1) by ring. apply I; lra. }
  assert (S2 : 1 + n * (1 + n * (1 + n * (1 + n * 1))) <= 16 ^ N).
  { replace (16 ^ N) with ((2 ^ N) ^ 4) by (rewrite <- pow_mult, Nat.mul_comm, pow_mult; f_equal; ring). apply (Rle_trans _ ((n * 1 + 1) ^ 4)); [nra|]. apply pow_incr. split; [lra|apply pow4_bd]. }
  assert (S3 : 0 < 1 + gser a 101). { assert (P : forall j v, 1 <= j <= 4 -> 0 < v -> 0 < 1 + (a - j) / 101 * v) by (intros j v Hj Hv; assert (0 <= (a - j) / 101) by (unfold a; lra); nra). unfold gser. apply P; [lra|]. apply P; [lra|]. apply P; [lra|]. replace ((a - 4) / 101) with ((a - 4) / 101 * 1) by ring. apply P; lra. }
  rewrite exp_plus, exp_ln by exact S3. unfold Rminus. rewrite !exp_plus, (exp_Ropp (lg a)), (Hl a) by lra. rewrite exp_ln by (apply HG; lra). replace (a + - (1)) with (INR N) by (unfold a, n; ring). change (exp (INR N * ln 101)) with (Rpower 101 (INR N)). rewrite Rpower_pow by lra.
  rewrite (Gam_fact Gam N HG : Gam a = _). rewrite Rabs_right in HN by (left; apply Rdiv_lt_0_compat; [apply pow_lt; lra|apply lt_0_INR, lt_O_fact]). rewrite Rpow_mult_distr in HN.
  assert (F0 : 0 < INR (fact N)) by apply lt_0_INR, lt_O_fact. assert (E1 : exp (- (101)) <= 1) by (rewrite <- exp_0; apply exp_le; lra). pose proof (exp_pos (- (101))) as E0. assert (P0 : 0 < 101 ^ N) by (apply pow_lt; lra).
  change (- (101)) with (-101) in *. set (g := 1 + gser a 101) in *. set (f := INR (fact N)) in *. set (p := 101 ^ N) in *. set (q := 16 ^ N) in *. set (e := exp (-101)) in *. clearbody g f p q e. clear - HN S1 S2 S3 F0 E1 E0 P0 G1 D0.
  apply (Rmult_lt_reg_r (Gam 1 * f)); [now apply Rmult_lt_0_compat|]. replace (p * e * / (Gam 1 * f) * g * (Gam 1 * f)) with (p * e * g) by (field; split; lra).
  apply (Rmult_lt_compat_r f) in HN; [|exact F0]. replace (q * p / f * f) with (q * p) in HN by (field; lra).
  apply (Rle_lt_trans _ (q * p)); [|lra]. assert (e * g <= 1 * q) by (apply Rmult_le_compat; lra). nra.
Qed.
