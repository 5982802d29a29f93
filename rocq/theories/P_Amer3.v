(** The early-exercise integrand is the expected discounted carry in the exercise region. *)
From Coq Require Import Reals Lra.
From Coquelicot Require Import Coquelicot.
From Verif Require Import Base Gauss M_Opt Spec_Opt Spec_Expect P_Bsm P_Expect P_Dist5 M_Amer.
Open Scope R_scope.

Lemma gauss_ind_exp (s c : R) :
  gauss_expect (fun z => if Rle_dec z c then exp (s * z - s * s / 2) else 0) (Phi (c - s)).
Proof.
  assert (K : forall b, Rabs c <= b -> is_RInt (fun z => (if Rle_dec z c then exp (s * z - s * s / 2) else 0) * npdf z) (- b) b (Phi (c - s) - Phi (- b - s))).
  { intros b Hb. assert (Hb' : - b <= c <= b) by (apply Rabs_le_between in Hb; lra).
    replace (Phi (c - s) - Phi (- b - s)) with ((Phi (c - s) - Phi (- b - s)) + (0 - 0)) by ring.
    apply (RInt_kink _ (fun z => npdf (z - s)) (fun _ => 0) (fun z => Phi (z - s)) (fun _ => 0) c b Hb').
    - intros; apply is_derive_Phi_shift.
    - intros; apply is_derive_const_R.
    - intros; apply cont_npdf_shift.
    - intros; apply continuous_const.
    - intros x Hx. destruct (Rle_dec x c); [apply npdf_shift|lra].
    - intros x Hx. destruct (Rle_dec x c); [lra|ring]. }
  apply (gauss_expect_of _ c (fun b => Phi (c - s) - Phi (- b - s))).
  - intros b. set (B := Rmax (Rabs b) (Rabs c)). pose proof (Rmax_l (Rabs b) (Rabs c)) as L1. pose proof (Rmax_r (Rabs b) (Rabs c)) as L2. fold B in L1, L2.
    assert (E : ex_RInt (fun z => (if Rle_dec z c then exp (s * z - s * s / 2) else 0) * npdf z) (- B) B) by (eexists; apply K; exact L2).
    apply Rabs_le_between in L1. apply ex_RInt_Chasles with (- B).
    + apply ex_RInt_swap. apply (ex_RInt_Chasles_1 (V := R_CompleteNormedModule) _ (- B) (- b) B); [lra|exact E].
    + apply (ex_RInt_Chasles_1 (V := R_CompleteNormedModule) _ (- B) b B); [lra|exact E].
  - exact K.
  - replace (Finite (Phi (c - s))) with (Finite (Phi (c - s) - 0)) by (f_equal; ring).
    apply is_lim_minus'; [apply is_lim_const|apply Phi_shift_lim_m].
Qed.
Lemma integrand_expect (m : opt) (B K S T u : R) : is_fwd m = false -> 0 < S -> 0 < B -> eps <= sigma m * sqrt (T - u) ->
  let t := T - u in
  let X := fun z => S * exp ((intr m - divr m - sigma m ^ 2 / 2) * t + sigma m * sqrt t * z) in
  gauss_expect (fun z => DF (intr m) t * (if Rle_dec (X z) B then intr m * K - divr m * X z else 0)) (am_integrand m B K S T u).
Proof.
  intros E HS HB Hs t X. fold t in Hs. unfold am_integrand. fold t. rewrite (sigma_std_big _ _ Hs).
  unfold fwd_df_divf. rewrite E. pose proof eps_pos as He.
  set (s := sigma m * sqrt t) in *. assert (s0 : 0 < s) by lra.
  assert (t0 : 0 <= t). { destruct (Rle_dec 0 t); [assumption|]. unfold s in s0. rewrite sqrt_neg_0 in s0 by lra. lra. }
  set (F := S * exp (- divr m * t) / exp (- intr m * t)).
  assert (HF : F = S * exp ((intr m - divr m) * t)).
  { unfold F, Rdiv. rewrite <- exp_Ropp, Rmult_assoc, <- exp_plus. do 2 f_equal. ring. }
  assert (F0 : 0 < F) by (rewrite HF; apply Rmult_lt_0_compat; [assumption|apply exp_pos]).
  assert (HX : forall z, X z = F * exp (s * z - s * s / 2)).
  { intros z. unfold X. rewrite HF, Rmult_assoc, <- exp_plus. do 2 f_equal. unfold s.
    replace (sigma m * sqrt t * (sigma m * sqrt t)) with (sigma m ^ 2 * (sqrt t * sqrt t)) by ring.
    rewrite (sqrt_sqrt t t0). field. }
  set (c := - (ln (F / B) / s - / 2 * s)).
  assert (Hc : c - s = - (ln (F / B) / s + / 2 * s)) by (unfold c; field; lra).
  assert (HR : forall z, X z <= B <-> z <= c).
  { intros z. rewrite HX. assert (L : ln (F / B) = ln F - ln B) by (apply ln_div; assumption).
    assert (Hsc : s * c = ln B - ln F + s * s / 2) by (unfold c; rewrite L; field; lra).
    assert (A : F * exp (s * z - s * s / 2) = exp (ln F + (s * z - s * s / 2))) by (rewrite exp_plus, exp_ln by assumption; reflexivity).
    rewrite A. rewrite <- (exp_ln B) by assumption. split; intro H.
    - apply (Rmult_le_reg_l s); [assumption|]. rewrite Hsc.
      destruct (Rle_lt_or_eq_dec _ _ H) as [H'|H']; [apply exp_lt_inv in H'; lra|apply exp_inv in H'; lra].
    - apply (Rmult_le_compat_l s) in H; [|lra]. rewrite Hsc in H.
      assert (ln F + (s * z - s * s / 2) <= ln B) as [Q|Q] by lra; [left; apply exp_increasing; exact Q|rewrite Q; lra]. }
  rewrite <- Hc. fold c.
  pose proof (gauss_expect_plus _ _ _ _
    (gauss_expect_scal _ _ (intr m * K * exp (- intr m * t)) (gauss_ind c))
    (gauss_expect_scal _ _ (- (divr m * exp (- intr m * t) * F)) (gauss_ind_exp s c))) as G.
  replace (intr m * K * exp (- intr m * t) * Phi c - divr m * S * exp (- divr m * t) * Phi (c - s))
    with (intr m * K * exp (- intr m * t) * Phi c + - (divr m * exp (- intr m * t) * F) * Phi (c - s)).
  - refine (gauss_expect_ext _ _ _ _ G). intros z. cbv beta. unfold DF. replace (- (intr m * t)) with (- intr m * t) by ring.
    pose proof (HR z) as [R1 R2]. destruct (Rle_dec z c) as [Z|Z], (Rle_dec (X z) B) as [Y|Y].
    + rewrite HX. ring.
    + exfalso. apply Y, R2, Z.
    + exfalso. apply Z, R1, Y.
    + ring.
  - unfold F. field. apply Rgt_not_eq, exp_pos.
Qed.
