(** The closed-form prices are discounted expectations of the payoff. *)
From Coq Require Import Reals Lra Psatz.
From Coquelicot Require Import Coquelicot.
From Verif Require Import Base Gauss P_Black Spec_Opt Spec_Expect M_Opt P_Bsm P_Norm.
Open Scope R_scope.

Lemma gauss_density_npdf z : gauss_density z = npdf z. Proof. reflexivity. Qed.

(** Limits at infinity of shifted Phi *)
Lemma Phi_shift_lim_p c : is_lim (fun b => Phi (b - c)) p_infty 1.
Proof.
  apply (is_lim_comp Phi (fun b => b - c) p_infty 1 p_infty).
  - apply Phi_lim_p.
  - eapply is_lim_minus; [apply is_lim_id|apply is_lim_const|]. simpl. reflexivity.
  - exists 0. intros; discriminate.
Qed.
Lemma Phi_shift_lim_m c : is_lim (fun b => Phi (- b - c)) p_infty 0.
Proof.
  apply (is_lim_ext (fun b => 1 - Phi (b - (- c)))).
  { intros y. rewrite <- Phi_opp. f_equal. ring. }
  replace 0 with (1 - 1) by ring.
  apply is_lim_minus'; [apply is_lim_const|apply Phi_shift_lim_p].
Qed.

(** Generic lemma: a function with an antiderivative on each side of a kink. *)
Lemma RInt_kink (f g1 g2 G1 G2 : R -> R) (c b : R) :
  - b <= c <= b ->
  (forall x, is_derive G1 x (g1 x)) -> (forall x, is_derive G2 x (g2 x)) ->
  (forall x, continuous g1 x) -> (forall x, continuous g2 x) ->
  (forall x, x < c -> f x = g1 x) -> (forall x, c < x -> f x = g2 x) ->
  is_RInt f (- b) b ((G1 c - G1 (- b)) + (G2 b - G2 c)).
Proof.
  intros [Hb1 Hb2] H1 H2 C1 C2 E1 E2.
  apply (is_RInt_Chasles f (- b) c b).
  - apply (is_RInt_ext g1).
    { intros x Hx. rewrite Rmin_left, Rmax_right in Hx by lra. symmetry. apply E1. lra. }
    apply (is_RInt_derive G1 g1); intros; [apply H1|apply C1].
  - apply (is_RInt_ext g2).
    { intros x Hx. rewrite Rmin_left, Rmax_right in Hx by lra. symmetry. apply E2. lra. }
    apply (is_RInt_derive G2 g2); intros; [apply H2|apply C2].
Qed.

Lemma npdf_shift s z : exp (s * z - s * s / 2) * npdf z = npdf (z - s).
Proof.
  unfold npdf. unfold Rdiv. rewrite <- Rmult_assoc, <- exp_plus. f_equal. f_equal. field.
Qed.

Lemma is_derive_Phi_shift (s x : R) : is_derive (fun z => Phi (z - s)) x (npdf (x - s)).
Proof.
  eapply is_derive_eq.
  { apply (is_derive_Phi_comp (fun z => z - s) x 1). auto_derive; [trivial|Req; ring]. }
  ring.
Qed.

Lemma cont_npdf_shift (s x : R) : continuous (fun z => npdf (z - s)) x.
Proof.
  apply ex_derive_continuous_R. exists (1 * (- (x - s) * npdf (x - s))).
  eapply is_derive_eq.
  { apply (is_derive_comp_R npdf (fun z => z - s) x (- (x - s) * npdf (x - s)) 1).
    - apply is_derive_npdf.
    - auto_derive; [trivial|Req; ring]. }
  ring.
Qed.

(** limit from an eventual closed form *)
Lemma gauss_expect_of (f : R -> R) (c : R) (H : R -> R) (v : R) :
  (forall b, ex_RInt (fun z => f z * npdf z) (- b) b) ->
  (forall b, Rabs c <= b -> is_RInt (fun z => f z * npdf z) (- b) b (H b)) ->
  is_lim H p_infty v -> gauss_expect f v.
Proof.
  intros Hex HI HL. split; [exact Hex|].
  apply (is_lim_ext_loc H).
  - exists (Rabs c). intros b Hb. symmetry. apply is_RInt_unique. apply HI. lra.
  - exact HL.
Qed.

Lemma cont_Rmax0 (f : R -> R) (x : R) : continuous f x -> continuous (fun y => Rmax (f y) 0) x.
Proof.
  intros Hf. apply (continuous_ext (fun y => (f y + Rabs (f y)) / 2)).
  { intros y. unfold Rmax, Rabs. destruct (Rle_dec (f y) 0); destruct (Rcase_abs (f y)); Req; lra. }
  unfold Rdiv. apply (continuous_mult (fun y => f y + Rabs (f y)) (fun _ => / 2)); [|apply continuous_const].
  apply (continuous_plus f (fun y => Rabs (f y))); [exact Hf|].
  apply (continuous_comp f Rabs); [exact Hf|apply continuous_Rabs].
Qed.

Lemma ex_RInt_cont_all (f : R -> R) : (forall x, continuous f x) -> forall a b, ex_RInt f a b.
Proof. intros H a b. apply (ex_RInt_continuous f). intros; apply H. Qed.

Section Lognormal.
  Variables (s F K : R).
  Hypotheses (Hs : 0 < s) (HF : 0 < F) (HK : 0 < K).
  Let X (z : R) := F * exp (s * z - s * s / 2).
  Let c := (ln (K / F) + s * s / 2) / s.

  Lemma X_c : X c = K.
  Proof using Hs HF HK.
    unfold X, c. replace (s * ((ln (K / F) + s * s / 2) / s) - s * s / 2) with (ln (K / F)) by (field; lra).
    rewrite exp_ln by (apply Rdiv_lt_0_compat; lra). field. lra.
  Qed.
  Lemma X_incr z1 z2 : z1 < z2 -> X z1 < X z2.
  Proof using Hs HF.
    intros H. unfold X. apply Rmult_lt_compat_l; [exact HF|]. apply exp_increasing. nra.
  Qed.
  Lemma X_npdf z : X z * npdf z = F * npdf (z - s).
  Proof using. unfold X. rewrite Rmult_assoc, npdf_shift. reflexivity. Qed.

  Lemma cont_X z : continuous X z.
  Proof using.
    apply ex_derive_continuous_R. unfold X. auto_derive. trivial.
  Qed.
  Lemma cont_payoff cp z : continuous (fun z => payoff cp K (X z) * npdf z) z.
  Proof using.
    apply (continuous_mult (fun z => payoff cp K (X z)) npdf); [|apply continuous_npdf].
    unfold payoff. apply (cont_Rmax0 (fun z => cp * (X z - K))).
    apply (continuous_mult (fun _ => cp) (fun z => X z - K)); [apply continuous_const|].
    apply (continuous_minus X (fun _ => K)); [apply cont_X|apply continuous_const].
  Qed.

  Let G (z : R) := F * Phi (z - s) - K * Phi z.
  Let g (z : R) := F * npdf (z - s) - K * npdf z.
  Lemma dG z : is_derive G z (g z).
  Proof using.
    apply is_derive_minus_R; apply is_derive_scal_R; [apply is_derive_Phi_shift|apply is_derive_Phi].
  Qed.
  Lemma cg z : continuous g z.
  Proof using.
    apply (continuous_minus (fun z => F * npdf (z - s)) (fun z => K * npdf z)).
    - apply (continuous_mult (fun _ => F) (fun z => npdf (z - s))); [apply continuous_const|apply cont_npdf_shift].
    - apply (continuous_mult (fun _ => K) npdf); [apply continuous_const|apply continuous_npdf].
  Qed.

  Lemma c_d2 : c = - (ln (F / K) / s - s / 2).
  Proof using Hs HF HK.
    unfold c. rewrite !ln_div by lra. field. lra.
  Qed.

  Lemma call_integral b : Rabs c <= b ->
    is_RInt (fun z => payoff 1 K (X z) * npdf z) (- b) b (G b - G c).
  Proof using Hs HF HK.
    intros Hb. assert (Hb' : - b <= c <= b) by (apply Rabs_le_between in Hb; lra).
    replace (G b - G c) with ((0 - 0) + (G b - G c)) by ring.
    apply (RInt_kink _ (fun _ => 0) g (fun _ => 0) G c b Hb').
    - intros; apply is_derive_const_R.
    - apply dG.
    - intros; apply continuous_const.
    - apply cg.
    - intros x Hx. pose proof (X_incr x c Hx) as H. rewrite X_c in H. unfold payoff. rewrite Rmax_right by lra. ring.
    - intros x Hx. pose proof (X_incr c x Hx) as H. rewrite X_c in H. unfold payoff. rewrite Rmax_left by lra.
      unfold g. rewrite <- X_npdf. ring.
  Qed.
  Lemma put_integral b : Rabs c <= b ->
    is_RInt (fun z => payoff (-1) K (X z) * npdf z) (- b) b (- G c + G (- b)).
  Proof using Hs HF HK.
    intros Hb. assert (Hb' : - b <= c <= b) by (apply Rabs_le_between in Hb; lra).
    replace (- G c + G (- b)) with ((- G c - - G (- b)) + (0 - 0)) by ring.
    apply (RInt_kink _ (fun z => - g z) (fun _ => 0) (fun z => - G z) (fun _ => 0) c b Hb').
    - intros x. apply (is_derive_opp G x (g x)). apply dG.
    - intros; apply is_derive_const_R.
    - intros x. apply (continuous_opp g x). apply cg.
    - intros; apply continuous_const.
    - intros x Hx. pose proof (X_incr x c Hx) as H. rewrite X_c in H. unfold payoff. rewrite Rmax_left by lra.
      unfold g. rewrite <- X_npdf. ring.
    - intros x Hx. pose proof (X_incr c x Hx) as H. rewrite X_c in H. unfold payoff. rewrite Rmax_right by lra. ring.
  Qed.

  Lemma G_lim_p : is_lim G p_infty (F - K).
  Proof using.
    replace (Finite (F - K)) with (Finite (F * 1 - K * 1)) by (f_equal; ring).
    apply is_lim_minus'.
    - apply (is_lim_scal_l (fun z => Phi (z - s)) F p_infty 1). apply Phi_shift_lim_p.
    - apply (is_lim_scal_l Phi K p_infty 1). apply Phi_lim_p.
  Qed.
  Lemma G_lim_m : is_lim (fun b => G (- b)) p_infty 0.
  Proof using.
    replace (Finite 0) with (Finite (F * 0 - K * 0)) by (f_equal; ring).
    apply is_lim_minus'.
    - apply (is_lim_scal_l (fun z => Phi (- z - s)) F p_infty 0). apply Phi_shift_lim_m.
    - apply (is_lim_scal_l (fun z => Phi (- z)) K p_infty 0).
      apply (is_lim_ext (fun b => Phi (- b - 0))). { intros y. now rewrite Rminus_0_r. } apply Phi_shift_lim_m.
  Qed.

  Lemma black_expect cp : is_cp cp ->
    gauss_expect (fun z => payoff cp K (F * exp (s * z - s * s / 2))) (black s F K cp).
  Proof using Hs HF HK.
    assert (Gc : G c = F * Phi (- (ln (F / K) / s + s / 2)) - K * Phi (- (ln (F / K) / s - s / 2))).
    { unfold G. rewrite c_d2. f_equal. f_equal. f_equal. field. lra. }
    intros [->| ->].
    - apply (gauss_expect_of _ c (fun b => G b - G c)).
      + intros b. apply ex_RInt_cont_all. intros x. apply (cont_payoff 1).
      + intros b Hb. apply call_integral. exact Hb.
      + replace (black s F K 1) with (F - K - G c).
        2:{ rewrite Gc, !Phi_opp. unfold black. rewrite !Rmult_1_l. ring. }
        apply is_lim_minus'; [apply G_lim_p|apply is_lim_const].
    - apply (gauss_expect_of _ c (fun b => - G c + G (- b))).
      + intros b. apply ex_RInt_cont_all. intros x. apply (cont_payoff (-1)).
      + intros b Hb. apply put_integral. exact Hb.
      + replace (black s F K (-1)) with (- G c + 0).
        2:{ rewrite Gc. unfold black.
            replace (-1 * (ln (F / K) / s + s / 2)) with (- (ln (F / K) / s + s / 2)) by ring.
            replace (-1 * (ln (F / K) / s - s / 2)) with (- (ln (F / K) / s - s / 2)) by ring. ring. }
        apply is_lim_plus'; [apply is_lim_const|apply G_lim_m].
  Qed.
End Lognormal.

Section Gaussian.
  Variables (s F K : R).
  Hypotheses (Hs : 0 < s).
  Let X (z : R) := F + s * z.
  Let c := (K - F) / s.
  Let G (z : R) := (F - K) * Phi z - s * npdf z.
  Let g (z : R) := (X z - K) * npdf z.
  Lemma ndG z : is_derive G z (g z).
  Proof using.
    eapply is_derive_eq.
    { apply (is_derive_minus_R (fun z => (F - K) * Phi z) (fun z => s * npdf z));
        apply is_derive_scal_R; [apply is_derive_Phi|apply is_derive_npdf]. }
    unfold g, X. ring.
  Qed.
  Lemma ncX z : continuous X z.
  Proof using. apply ex_derive_continuous_R. unfold X. auto_derive. trivial. Qed.
  Lemma ncg z : continuous g z.
  Proof using.
    apply (continuous_mult (fun z => X z - K) npdf); [|apply continuous_npdf].
    apply (continuous_minus X (fun _ => K)); [apply ncX|apply continuous_const].
  Qed.
  Lemma ncont_payoff cp z : continuous (fun z => payoff cp K (X z) * npdf z) z.
  Proof using.
    apply (continuous_mult (fun z => payoff cp K (X z)) npdf); [|apply continuous_npdf].
    unfold payoff. apply (cont_Rmax0 (fun z => cp * (X z - K))).
    apply (continuous_mult (fun _ => cp) (fun z => X z - K)); [apply continuous_const|].
    apply (continuous_minus X (fun _ => K)); [apply ncX|apply continuous_const].
  Qed.
  Lemma nX_lt z : z < c -> X z < K.
  Proof using Hs. intros H. unfold X, c in *. assert (s * z < s * ((K - F) / s)) by (apply Rmult_lt_compat_l; lra).
    replace (s * ((K - F) / s)) with (K - F) in H0 by (field; lra). lra. Qed.
  Lemma nX_gt z : c < z -> K < X z.
  Proof using Hs. intros H. unfold X, c in *. assert (s * ((K - F) / s) < s * z) by (apply Rmult_lt_compat_l; lra).
    replace (s * ((K - F) / s)) with (K - F) in H0 by (field; lra). lra. Qed.

  Lemma npdf_lim : is_lim npdf p_infty 0.
  Proof using.
    (* 0 <= npdf b <= 2/b, from b * exp(-b^2/2) <= 2/b *)
    apply (is_lim_le_le_loc (fun _ => 0) (fun b => 2 / b)).
    - exists 1. intros b Hb. split; [left; apply npdf_pos|].
      unfold npdf. pose proof (exp_quad_bound b ltac:(lra)) as H.
      assert (1 <= sqrt (2 * PI)). { rewrite <- sqrt_1 at 1. apply sqrt_le_1; pose proof PI2_1; lra. }
      pose proof (exp_pos (- (b * b) / 2)) as He.
      apply (Rle_trans _ (exp (- (b * b) / 2) / 1)).
      { apply Rmult_le_compat_l; [lra|]. apply Rinv_le_contravar; lra. }
      rewrite Rdiv_1. apply (Rle_trans _ (b * exp (- (b * b) / 2))); [nra|exact H].
    - apply is_lim_const.
    - replace (Finite 0) with (Rbar_mult 2 (Rbar_inv p_infty)) by (simpl; f_equal; ring).
      apply (is_lim_ext (fun b => 2 * / b)); [reflexivity|].
      apply (is_lim_scal_l (fun b => / b) 2 p_infty 0). 
      apply (is_lim_inv (fun b => b) p_infty p_infty); [apply is_lim_id|discriminate].
  Qed.

  Lemma bach_expect cp : is_cp cp ->
    gauss_expect (fun z => payoff cp K (F + s * z)) (bach s (F - K) cp).
  Proof using Hs.
    assert (Gc : G c = (F - K) * Phi (- ((F - K) / s)) - s * npdf ((F - K) / s)).
    { unfold G, c. replace ((K - F) / s) with (- ((F - K) / s)) by (field; lra). now rewrite npdf_even. }
    assert (Lp : is_lim G p_infty (F - K)).
    { replace (Finite (F - K)) with (Finite ((F - K) * 1 - s * 0)) by (f_equal; ring).
      apply is_lim_minus'; [apply (is_lim_scal_l Phi (F - K) p_infty 1), Phi_lim_p|apply (is_lim_scal_l npdf s p_infty 0), npdf_lim]. }
    assert (Lm : is_lim (fun b => G (- b)) p_infty 0).
    { replace (Finite 0) with (Finite ((F - K) * 0 - s * 0)) by (f_equal; ring).
      apply is_lim_minus'.
      - apply (is_lim_scal_l (fun z => Phi (- z)) (F - K) p_infty 0).
        apply (is_lim_ext (fun b => Phi (- b - 0))). { intros y. now rewrite Rminus_0_r. } apply Phi_shift_lim_m.
      - apply (is_lim_ext (fun b => s * npdf b)). { intros y. now rewrite npdf_even. }
        apply (is_lim_scal_l npdf s p_infty 0), npdf_lim. }
    intros [->| ->].
    - apply (gauss_expect_of _ c (fun b => G b - G c)).
      + intros b. apply ex_RInt_cont_all. intros x. apply (ncont_payoff 1).
      + intros b Hb. assert (Hb' : - b <= c <= b) by (apply Rabs_le_between in Hb; lra).
        replace (G b - G c) with ((0 - 0) + (G b - G c)) by ring.
        apply (RInt_kink _ (fun _ => 0) g (fun _ => 0) G c b Hb').
        * intros; apply is_derive_const_R.
        * apply ndG.
        * intros; apply continuous_const.
        * apply ncg.
        * intros x Hx. pose proof (nX_lt x Hx) as H. unfold X in H. unfold payoff. rewrite Rmax_right by lra. ring.
        * intros x Hx. pose proof (nX_gt x Hx) as H. unfold payoff, g, X in *. rewrite Rmax_left by lra. ring.
      + replace (bach s (F - K) 1) with (F - K - G c).
        2:{ rewrite Gc, !Phi_opp. unfold bach. rewrite !Rmult_1_l. ring. }
        apply is_lim_minus'; [exact Lp|apply is_lim_const].
    - apply (gauss_expect_of _ c (fun b => - G c + G (- b))).
      + intros b. apply ex_RInt_cont_all. intros x. apply (ncont_payoff (-1)).
      + intros b Hb. assert (Hb' : - b <= c <= b) by (apply Rabs_le_between in Hb; lra).
        replace (- G c + G (- b)) with ((- G c - - G (- b)) + (0 - 0)) by ring.
        apply (RInt_kink _ (fun z => - g z) (fun _ => 0) (fun z => - G z) (fun _ => 0) c b Hb').
        * intros x. apply (is_derive_opp G x (g x)). apply ndG.
        * intros; apply is_derive_const_R.
        * intros x. apply (continuous_opp g x). apply ncg.
        * intros; apply continuous_const.
        * intros x Hx. pose proof (nX_lt x Hx) as H. unfold payoff, g, X in *. rewrite Rmax_left by lra. ring.
        * intros x Hx. pose proof (nX_gt x Hx) as H. unfold payoff, X in *. rewrite Rmax_right by lra. ring.
      + replace (bach s (F - K) (-1)) with (- G c + 0).
        2:{ rewrite Gc. unfold bach. replace (-1 * ((F - K) / s)) with (- ((F - K) / s)) by ring. ring. }
        apply is_lim_plus'; [apply is_lim_const|exact Lm].
  Qed.
End Gaussian.

(** exponential moments *)
Lemma gauss_mgf (a : R) : gauss_expect (fun z => exp (a * z)) (exp (a * a / 2)).
Proof.
  assert (E : forall z, exp (a * z) * npdf z = exp (a * a / 2) * npdf (z - a)).
  { intros z. rewrite <- npdf_shift. rewrite <- Rmult_assoc, <- exp_plus. f_equal. f_equal. field. }
  apply (gauss_expect_of _ 0 (fun b => exp (a * a / 2) * Phi (b - a) - exp (a * a / 2) * Phi (- b - a))).
  - intros b. apply ex_RInt_cont_all. intros x. apply (continuous_ext (fun z => exp (a * a / 2) * npdf (z - a))).
    { intros; symmetry; apply E. }
    apply (continuous_mult (fun _ => exp (a * a / 2)) (fun z => npdf (z - a))); [apply continuous_const|apply cont_npdf_shift].
  - intros b _. apply (is_RInt_ext (fun z => exp (a * a / 2) * npdf (z - a))). { intros; symmetry; apply E. }
    apply (is_RInt_derive (fun z => exp (a * a / 2) * Phi (z - a))); intros x _.
    + apply is_derive_scal_R, is_derive_Phi_shift.
    + apply (continuous_mult (fun _ => exp (a * a / 2)) (fun z => npdf (z - a))); [apply continuous_const|apply cont_npdf_shift].
  - replace (Finite (exp (a * a / 2))) with (Finite (exp (a * a / 2) * 1 - exp (a * a / 2) * 0)) by (f_equal; ring).
    apply is_lim_minus'.
    + apply (is_lim_scal_l (fun b => Phi (b - a)) _ p_infty 1), Phi_shift_lim_p.
    + apply (is_lim_scal_l (fun b => Phi (- b - a)) _ p_infty 0), Phi_shift_lim_m.
Qed.

Lemma gauss_expect_scal f v k : gauss_expect f v -> gauss_expect (fun z => k * f z) (k * v).
Proof.
  intros [H1 H2]. split.
  - intros b. apply (ex_RInt_ext (fun z => k * (f z * gauss_density z))). { intros; Req; ring. }
    apply ex_RInt_scal_R. apply H1.
  - apply (is_lim_ext (fun b => k * RInt (fun z => f z * gauss_density z) (- b) b)).
    { intros b. rewrite <- RInt_scal_R by apply H1. apply RInt_ext. intros; Req; ring. }
    apply (is_lim_scal_l _ k p_infty v). exact H2.
Qed.
Lemma gauss_expect_ext f g v : (forall z, f z = g z) -> gauss_expect f v -> gauss_expect g v.
Proof.
  intros E [H1 H2]. split.
  - intros b. apply (ex_RInt_ext (fun z => f z * gauss_density z)). { intros; now rewrite E. } apply H1.
  - apply (is_lim_ext (fun b => RInt (fun z => f z * gauss_density z) (- b) b)); [|exact H2].
    intros b. apply RInt_ext. intros; now rewrite E.
Qed.
Lemma gauss_expect_plus f g u v : gauss_expect f u -> gauss_expect g v -> gauss_expect (fun z => f z + g z) (u + v).
Proof.
  intros [F1 F2] [G1 G2]. split.
  - intros b. apply (ex_RInt_ext (fun z => plus (f z * gauss_density z) (g z * gauss_density z))).
    { intros; runfold; Req; ring. }
    apply (ex_RInt_plus (fun z => f z * gauss_density z) (fun z => g z * gauss_density z)); [apply F1|apply G1].
  - apply (is_lim_ext (fun b => RInt (fun z => f z * gauss_density z) (- b) b + RInt (fun z => g z * gauss_density z) (- b) b)).
    { intros b. rewrite <- RInt_plus_R by (apply F1 || apply G1). apply RInt_ext. intros; Req; ring. }
    apply is_lim_plus'; assumption.
Qed.
Lemma gauss_expect_unique f u v : gauss_expect f u -> gauss_expect f v -> u = v.
Proof. intros [_ A] [_ B]. apply is_lim_unique in A. apply is_lim_unique in B. rewrite A in B. now injection B. Qed.

(** Bsm.price and Norm.price *)
Lemma bsm_expect m K S T cp : call_or_put cp -> 0 < K -> 0 < S -> eps <= sigma m * sqrt T ->
  gauss_expect (fun z => DF (intr m) T * payoff cp K
      (FWD (intr m) (divr m) (is_fwd m) S T * exp (sigma m * sqrt T * z - (sigma m * sqrt T) * (sigma m * sqrt T) / 2)))
    (bsm_price m K S T cp).
Proof.
  intros Hcp HK HS He. pose proof eps_pos. rewrite bsm_price_eq, sigma_std_big by exact He.
  apply gauss_expect_scal. apply black_expect; try assumption; [lra|apply mF_pos; exact HS].
Qed.

Lemma norm_expect m K S T cp : call_or_put cp -> eps <= sigma m * sqrt T ->
  gauss_expect (fun z => DF (intr m) T * payoff cp K (FWD (intr m) (divr m) (is_fwd m) S T + sigma m * sqrt T * z))
    (norm_price m K S T cp).
Proof.
  intros Hcp He. pose proof eps_pos. rewrite norm_price_eq by exact He.
  apply gauss_expect_scal. apply bach_expect; [lra|exact Hcp].
Qed.

(** Bsm.logp_mgf *)
Lemma bsm_mgf_expect m u T : 0 <= T ->
  gauss_expect (fun z => exp (u * (sigma m * sqrt T * z - sigma m * sigma m * T / 2))) (bsm_logp_mgf m u T).
Proof.
  intros HT.
  apply (gauss_expect_ext (fun z => exp (- u * (sigma m * sigma m * T / 2)) * exp (u * sigma m * sqrt T * z))).
  { intros z. rewrite <- exp_plus. f_equal. field. }
  unfold bsm_logp_mgf.
  replace (exp (- / 2 * sigma m ^ 2 * T * u * (1 - u)))
    with (exp (- u * (sigma m * sigma m * T / 2)) * exp (u * sigma m * sqrt T * (u * sigma m * sqrt T) / 2)).
  - apply gauss_expect_scal, gauss_mgf.
  - rewrite <- exp_plus. f_equal.
    replace (u * sigma m * sqrt T * (u * sigma m * sqrt T)) with (u * u * sigma m * sigma m * (sqrt T * sqrt T)) by ring.
    rewrite sqrt_sqrt by exact HT. field.
Qed.

(** moments of the lognormal price ratio X = exp(s z - s^2/2), and of an affine image *)
Definition lnX (s z : R) : R := exp (s * z - s * s / 2).
Lemma lnX_pow s n : gauss_expect (fun z => lnX s z ^ n) (exp (INR n * (INR n - 1) / 2 * (s * s))).
Proof.
  apply (gauss_expect_ext (fun z => exp (- (INR n * (s * s) / 2)) * exp (INR n * s * z))).
  { intros z. unfold lnX. rewrite <- exp_plus.
    rewrite <- (Rpower_pow n) by apply exp_pos. unfold Rpower. rewrite ln_exp. f_equal. field. }
  replace (exp (INR n * (INR n - 1) / 2 * (s * s)))
    with (exp (- (INR n * (s * s) / 2)) * exp (INR n * s * (INR n * s) / 2)) by (rewrite <- exp_plus; f_equal; field).
  apply gauss_expect_scal, gauss_mgf.
Qed.

Lemma exp_n x n : exp (INR n * x) = exp x ^ n.
Proof. rewrite <- (Rpower_pow n) by apply exp_pos. unfold Rpower. now rewrite ln_exp. Qed.

Lemma lnX_moments s : let w := exp (s * s) in
  gauss_expect (lnX s) 1 /\ gauss_expect (fun z => lnX s z ^ 2) w /\
  gauss_expect (fun z => lnX s z ^ 3) (w ^ 3) /\ gauss_expect (fun z => lnX s z ^ 4) (w ^ 6).
Proof.
  intros w. split; [|split; [|split]].
  - apply (gauss_expect_ext (fun z => lnX s z ^ 1)); [intros; ring|].
    assert (E : exp (INR 1 * (INR 1 - 1) / 2 * (s * s)) = 1); [|rewrite <- E at 1; apply lnX_pow].
    transitivity (exp 0); [f_equal; simpl; field|apply exp_0].
  - replace w with (exp (INR 2 * (INR 2 - 1) / 2 * (s * s))) by (unfold w; f_equal; simpl; field). apply lnX_pow.
  - replace (w ^ 3) with (exp (INR 3 * (INR 3 - 1) / 2 * (s * s))) by (unfold w; rewrite <- exp_n; f_equal; simpl; field).
    apply lnX_pow.
  - replace (w ^ 6) with (exp (INR 4 * (INR 4 - 1) / 2 * (s * s))) by (unfold w; rewrite <- exp_n; f_equal; simpl; field).
    apply lnX_pow.
Qed.

(** Bsm.price_vsk: the variance, skewness and excess kurtosis of S_T/F *)
Lemma bsm_vsk_correct sg T m1 m2 m3 m4 : 0 < sg * sqrt T ->
  let X := lnX (sg * sqrt T) in
  gauss_expect X m1 -> gauss_expect (fun z => X z ^ 2) m2 ->
  gauss_expect (fun z => X z ^ 3) m3 -> gauss_expect (fun z => X z ^ 4) m4 ->
  bsm_price_vsk sg T = (var_of_raw m1 m2, skew_of_raw m1 m2 m3, exkurt_of_raw m1 m2 m3 m4).
Proof.
  intros Hs X H1 H2 H3 H4. destruct (lnX_moments (sg * sqrt T)) as (I1 & I2 & I3 & I4).
  pose proof (gauss_expect_unique _ _ _ H1 I1). pose proof (gauss_expect_unique _ _ _ H2 I2).
  pose proof (gauss_expect_unique _ _ _ H3 I3). pose proof (gauss_expect_unique _ _ _ H4 I4). subst.
  unfold bsm_price_vsk, var_of_raw, skew_of_raw, exkurt_of_raw, var_of_raw.
  replace ((sg * sqrt T) ^ 2) with (sg * sqrt T * (sg * sqrt T)) by ring.
  set (w := exp (sg * sqrt T * (sg * sqrt T))) in *.
  assert (Hw : 1 < w). { unfold w. rewrite <- exp_0. apply exp_increasing. nra. }
  replace (w - 1 ^ 2) with (w - 1) by ring.
  assert (Hq : 0 < sqrt (w - 1)) by (apply sqrt_lt_R0; lra).
  assert (Hqq : sqrt (w - 1) * sqrt (w - 1) = w - 1) by (apply sqrt_sqrt; lra).
  f_equal; [f_equal|].
  - set (q := sqrt (w - 1)) in *. assert (Ew : w = q * q + 1) by lra. rewrite Ew. field. lra.
  - field. lra.
Qed.

Lemma gauss_expect_const k : gauss_expect (fun _ => k) k.
Proof.
  apply (gauss_expect_ext (fun z => k * exp (0 * z))). { intros; rewrite Rmult_0_l, exp_0; ring. }
  pose proof (gauss_expect_scal _ _ k (gauss_mgf 0)) as H.
  replace (k * exp (0 * 0 / 2)) with k in H; [exact H|].
  replace (0 * 0 / 2) with 0 by field. rewrite exp_0. ring.
Qed.

(** BsmDisp.price_vsk scales by the wrong powers of beta.  With mean and pivot 1 the
    terminal price is (X - (1-beta))/beta, X lognormal with total volatility beta*sigma*sqrt T. *)
Lemma disp_vsk_var m T : d_beta m <> 0 -> 0 < d_sigma m * d_beta m * sqrt T ->
  let Y z := (lnX (d_sigma m * d_beta m * sqrt T) z - (1 - d_beta m)) / d_beta m in
  gauss_expect Y 1 /\ exists m2, gauss_expect (fun z => Y z ^ 2) m2 /\
   var_of_raw 1 m2 = fst (fst (disp_price_vsk m T)) / d_beta m.
Proof.
  intros Hb Hs Y. set (s := d_sigma m * d_beta m * sqrt T) in *. set (b := d_beta m) in *.
  destruct (lnX_moments s) as (I1 & I2 & _).
  split.
  - apply (gauss_expect_ext (fun z => / b * lnX s z + (- (1 - b) / b))). { intros z. unfold Y. field. exact Hb. }
    pose proof (gauss_expect_plus _ _ _ _ (gauss_expect_scal _ _ (/ b) I1) (gauss_expect_const (- (1 - b) / b))) as H.
    replace (/ b * 1 + - (1 - b) / b) with 1 in H by (field; exact Hb). exact H.
  - set (w := exp (s * s)) in *.
    exists (/ (b * b) * w + (-2 * (1 - b) / (b * b) * 1 + (1 - b) * (1 - b) / (b * b))). split.
    + apply (gauss_expect_ext (fun z => / (b * b) * lnX s z ^ 2 + (-2 * (1 - b) / (b * b) * lnX s z + (1 - b) * (1 - b) / (b * b)))).
      { intros z. unfold Y. field. exact Hb. }
      apply gauss_expect_plus; [apply gauss_expect_scal, I2|].
      apply gauss_expect_plus; [apply gauss_expect_scal, I1|apply gauss_expect_const].
    + unfold var_of_raw, disp_price_vsk, bsm_price_vsk. cbn [fst]. fold b. fold s.
      replace (s ^ 2) with (s * s) by ring. fold w. field. exact Hb.
Qed.

Lemma disp_vsk_refuted : exists m T, 0 < d_beta m < 1 /\ 0 < d_sigma m /\ 0 < T /\ d_pivot m = 1 /\
  let Y z := (lnX (d_sigma m * d_beta m * sqrt T) z - (1 - d_beta m)) / d_beta m in
  gauss_expect Y 1 /\ exists m2, gauss_expect (fun z => Y z ^ 2) m2 /\
   var_of_raw 1 m2 <> fst (fst (disp_price_vsk m T)).
Proof.
  set (m := mkDisp 1 (/ 2) 1 0 0 true). exists m, 1. 
  assert (Hs : 0 < d_sigma m * d_beta m * sqrt 1) by (rewrite sqrt_1; simpl; lra).
  split; [simpl; lra|]. split; [simpl; lra|]. split; [lra|]. split; [reflexivity|].
  destruct (disp_vsk_var m 1 ltac:(simpl; lra) Hs) as (H1 & m2 & H2 & H3).
  split; [exact H1|]. exists m2. split; [exact H2|]. rewrite H3.
  unfold disp_price_vsk, bsm_price_vsk. cbn [fst d_beta m d_sigma].
  set (w := exp ((1 * / 2 * sqrt 1) ^ 2)).
  assert (1 < w). { unfold w. apply exp_gt_1. rewrite sqrt_1. lra. }
  lra.
Qed.
