(** Proofs about the QD+ American put. *)
From Coq Require Import Reals Lra.
From Coquelicot Require Import Coquelicot.
From Verif Require Import Base Gauss M_Opt Spec_Opt P_Bsm M_Amer.
Open Scope R_scope.

(** gluing the payoff K - x to a continuation value g at bdd *)
Lemma glue_derive (g : R -> R) (K b D : R) : is_derive g b D -> g b = K - b ->
  (is_derive (fun x => if Rle_dec x b then K - x else g x) b (-1) <-> D = -1).
Proof.
  intros Hg Hb. apply is_derive_Reals in Hg. split.
  - intros Hf. apply is_derive_Reals in Hf.
    destruct (Req_dec D (-1)) as [E|N]; [exact E|exfalso].
    assert (P : 0 < Rabs (D - -1) / 2). { assert (0 < Rabs (D - -1)) by (apply Rabs_pos_lt; lra). lra. }
    destruct (Hf _ P) as [d1 H1]. destruct (Hg _ P) as [d2 H2].
    pose proof (cond_pos d1). pose proof (cond_pos d2).
    set (h := Rmin d1 d2 / 2). assert (Hm : 0 < Rmin d1 d2) by (apply Rmin_pos; assumption).
    assert (h0 : 0 < h) by (unfold h; lra).
    pose proof (Rmin_l d1 d2). pose proof (Rmin_r d1 d2).
    specialize (H1 h ltac:(lra)). specialize (H2 h ltac:(lra)).
    rewrite (Rabs_pos_eq h) in H1, H2 by lra.
    specialize (H1 ltac:(unfold h in *; lra)). specialize (H2 ltac:(unfold h in *; lra)). cbv beta in H1.
    destruct (Rle_dec (b + h) b); [lra|]. destruct (Rle_dec b b); [|lra]. rewrite <- Hb in H1.
    assert (T : Rabs (D - -1) <= Rabs ((g (b + h) - g b) / h - -1) + Rabs ((g (b + h) - g b) / h - D)).
    { replace (D - -1) with (((g (b + h) - g b) / h - -1) - ((g (b + h) - g b) / h - D)) by ring.
      eapply Rle_trans; [apply Rabs_triang|]. rewrite Rabs_Ropp. lra. }
    lra.
  - intros E. subst D. apply is_derive_Reals. intros e He. destruct (Hg e He) as [d H]. exists d. intros h h0 hd.
    destruct (Rle_dec b b); [|lra]. destruct (Rle_dec (b + h) b).
    + replace ((K - (b + h) - (K - b)) / h - -1) with 0 by (field; exact h0). rewrite Rabs_R0. exact He.
    + rewrite <- Hb. apply H; assumption.
Qed.

Section Put.
  Context (m : opt) (K T bdd : R).
  Hypothesis K0 : 0 < K.
  Hypothesis B0 : 0 < bdd.

  Lemma cont_at_bdd : am_cont m bdd K bdd T (-1) = K - bdd.
  Proof.
    unfold am_cont. replace (bdd / bdd) with 1 by (field; lra). rewrite ln_1, Rmult_0_l, Rmult_0_r, exp_0. field.
  Qed.
  Definition am_D : R := bsm_delta m K bdd T (-1) +
    (K - bdd - bsm_price m K bdd T (-1)) * (am_c0 m K bdd T (-1) - / 2 * (am_nn m + am_sqrt m T)) / bdd.
  Lemma cont_derive : is_derive (fun x => am_cont m bdd K x T (-1)) bdd am_D.
  Proof.
    unfold am_cont, am_D. apply @is_derive_plus with (V := R_NormedModule).
    - apply bsm_delta_derive; try assumption. now right.
    - generalize (am_c0 m K bdd T (-1)) (K - bdd - bsm_price m K bdd T (-1)) (am_nn m + am_sqrt m T)
        (- exp (- intr m * T) * am_mm m * am_prime m T / (2 * am_sqrt m T)).
      intros c h q b. auto_derive.
      + replace (bdd * / bdd) with 1 by (field; lra). rewrite ln_1. repeat split; lra.
      + replace (bdd * / bdd) with 1 by (field; lra). rewrite ln_1. rewrite !Rmult_0_r, !Rmult_0_l.
        rewrite exp_0. Req. field. repeat split; try lra.
  Qed.
  Lemma delta_zero : am_D = -1 <->
    am_zero m K bdd T (-1) = (if is_fwd m then (exp (- intr m * T) - 1) * Phi (- bsm_d1 m K bdd T) * bdd else 0).
  Proof.
    unfold am_D, am_zero, bsm_delta, fwd_df_divf, bsm_d1.
    destruct (is_fwd m).
    - replace (-1 * (ln (bdd / K) / sigma_std (sigma m) T + / 2 * sigma_std (sigma m) T))
        with (- (ln (bdd / K) / sigma_std (sigma m) T + / 2 * sigma_std (sigma m) T)) by ring.
      generalize (Phi (- (ln (bdd / K) / sigma_std (sigma m) T + / 2 * sigma_std (sigma m) T))) (exp (- intr m * T))
       (bsm_price m K bdd T (-1)) (am_c0 m K bdd T (-1)) (am_nn m + am_sqrt m T).
      intros P e p c q. split; intro H.
      + assert (E : (-1 * P * e + (K - bdd - p) * (c - / 2 * q) / bdd) * bdd = -1 * bdd) by (rewrite H; reflexivity).
        rewrite Rmult_plus_distr_r in E. unfold Rdiv in E. rewrite (Rmult_assoc _ (/ bdd)), Rinv_l, Rmult_1_r in E by lra. lra.
      + apply (Rmult_eq_reg_r bdd); [|lra]. rewrite Rmult_plus_distr_r. unfold Rdiv.
        rewrite (Rmult_assoc _ (/ bdd)), Rinv_l, Rmult_1_r by lra. lra.
    - set (f := bdd * exp (- divr m * T) / exp (- intr m * T)).
      replace (-1 * (ln (f / K) / sigma_std (sigma m) T + / 2 * sigma_std (sigma m) T))
        with (- (ln (f / K) / sigma_std (sigma m) T + / 2 * sigma_std (sigma m) T)) by ring.
      generalize (Phi (- (ln (f / K) / sigma_std (sigma m) T + / 2 * sigma_std (sigma m) T))) (exp (- divr m * T))
       (bsm_price m K bdd T (-1)) (am_c0 m K bdd T (-1)) (am_nn m + am_sqrt m T).
      intros P e p c q. split; intro H.
      + assert (E : (-1 * P * e + (K - bdd - p) * (c - / 2 * q) / bdd) * bdd = -1 * bdd) by (rewrite H; reflexivity).
        rewrite Rmult_plus_distr_r in E. unfold Rdiv in E. rewrite (Rmult_assoc _ (/ bdd)), Rinv_l, Rmult_1_r in E by lra. lra.
      + apply (Rmult_eq_reg_r bdd); [|lra]. rewrite Rmult_plus_distr_r. unfold Rdiv.
        rewrite (Rmult_assoc _ (/ bdd)), Rinv_l, Rmult_1_r by lra. lra.
  Qed.
  Lemma smooth_paste : is_derive (fun x => am_price m bdd K x T (-1)) bdd (-1) <->
    am_zero m K bdd T (-1) = (if is_fwd m then (exp (- intr m * T) - 1) * Phi (- bsm_d1 m K bdd T) * bdd else 0).
  Proof.
    rewrite <- delta_zero. unfold am_price. apply glue_derive; [apply cont_derive|apply cont_at_bdd].
  Qed.
End Put.

Section Perp.
  Context (m : opt) (K : R).
  Hypothesis K0 : 0 < K.
  Hypothesis S0 : 0 < sigma m.
  Hypothesis R0' : 0 < intr m.
  Lemma am_mm_pos : 0 < am_mm m.
  Proof. unfold am_mm. apply Rdiv_lt_0_compat; [lra|]. apply pow_lt. exact S0. Qed.
  Lemma qinf_root : am_qinf m < 0 /\ am_qinf m ^ 2 + am_nn m * am_qinf m - am_mm m = 0.
  Proof.
    pose proof am_mm_pos as M. unfold am_qinf. generalize (am_nn m) (am_mm m) M. clear. intros n mm M.
    assert (Q : 0 <= n ^ 2 + 4 * mm) by nra.
    pose proof (sqrt_sqrt _ Q) as E. pose proof (sqrt_pos (n ^ 2 + 4 * mm)) as P.
    set (q := sqrt (n ^ 2 + 4 * mm)) in *. split; [|nra].
    assert (- n < q); [|lra]. apply Rnot_le_lt. intro. nra.
  Qed.
  Lemma sinf_form : am_sinf m K = K * am_qinf m / (am_qinf m - 1).
  Proof. unfold am_sinf. destruct qinf_root. field. split; lra. Qed.
  Lemma sinf_range : 0 < am_sinf m K < K.
  Proof.
    rewrite sinf_form. destruct qinf_root as [N _]. set (q := am_qinf m) in *.
    replace (K * q / (q - 1)) with (K * - q / (1 - q)) by (field; lra). split.
    - apply Rdiv_lt_0_compat; nra.
    - apply (Rmult_lt_reg_r (1 - q)); [lra|]. unfold Rdiv. rewrite Rmult_assoc, Rinv_l by lra. nra.
  Qed.
  Lemma am_perp : exists W W1 W2 : R -> R,
    (forall S, 0 < S -> is_derive W S (W1 S) /\ is_derive W1 S (W2 S) /\
      / 2 * sigma m ^ 2 * S ^ 2 * W2 S + (intr m - divr m) * S * W1 S - intr m * W S = 0) /\
    W (am_sinf m K) = K - am_sinf m K /\ W1 (am_sinf m K) = -1 /\ (forall S, 0 < S -> 0 < W S).
  Proof.
    destruct qinf_root as [N E]. pose proof sinf_range as [s0 s1]. pose proof sinf_form as F.
    set (s := am_sinf m K) in *. set (q := am_qinf m) in *.
    exists (fun S => (K - s) * exp (q * ln (S / s))), (fun S => (K - s) * exp (q * ln (S / s)) * q / S),
      (fun S => (K - s) * exp (q * ln (S / s)) * q * (q - 1) / S ^ 2).
    split; [|split; [|split]].
    - intros S HS. assert (P : 0 < S * / s) by (apply Rdiv_lt_0_compat; assumption). split; [|split].
      + auto_derive; [exact P|]. Req. unfold Rdiv. field. lra.
      + auto_derive; [split; [exact P|lra]|]. Req. unfold Rdiv. field. lra.
      + assert (Z : / 2 * sigma m ^ 2 * q * (q - 1) + (intr m - divr m) * q - intr m = 0).
        { unfold am_nn, am_mm in E.
          replace (/ 2 * sigma m ^ 2 * q * (q - 1) + (intr m - divr m) * q - intr m)
            with (/ 2 * sigma m ^ 2 * (q ^ 2 + (2 * (intr m - divr m) / sigma m ^ 2 - 1) * q - 2 * intr m / sigma m ^ 2)) by (field; lra).
          rewrite E. ring. }
        set (w := (K - s) * exp (q * ln (S / s))).
        replace (/ 2 * sigma m ^ 2 * S ^ 2 * (w * q * (q - 1) / S ^ 2) + (intr m - divr m) * S * (w * q / S) - intr m * w)
          with (w * (/ 2 * sigma m ^ 2 * q * (q - 1) + (intr m - divr m) * q - intr m)) by (field; lra).
        rewrite Z. ring.
    - replace (s / s) with 1 by (field; lra). rewrite ln_1, Rmult_0_r, exp_0. ring.
    - replace (s / s) with 1 by (field; lra). rewrite ln_1, Rmult_0_r, exp_0, Rmult_1_r.
      rewrite F. field. repeat split; nra.
    - intros S HS. apply Rmult_lt_0_compat; [lra|apply exp_pos].
  Qed.
  Lemma guess_w T : 0 <= T -> (intr m - divr m) * sqrt T <= 2 * sigma m ->
    Rmin (am_sinf m K) (am_s0 m K) <= am_bdd_ig m K T <= Rmax (am_sinf m K) (am_s0 m K).
  Proof.
    intros HT H. pose proof sinf_range as [s0 s1]. unfold am_bdd_ig.
    set (s := am_sinf m K) in *. set (z := am_s0 m K).
    assert (W : 0 < exp (- (K / (s - K) * ((intr m - divr m) * T - 2 * sigma m * sqrt T))) <= 1).
    { split; [apply exp_pos|]. rewrite <- exp_0.
      assert (A : - (K / (s - K) * ((intr m - divr m) * T - 2 * sigma m * sqrt T)) <= 0).
      { pose proof (sqrt_sqrt T HT) as Q. pose proof (sqrt_pos T).
        replace ((intr m - divr m) * T - 2 * sigma m * sqrt T) with (((intr m - divr m) * sqrt T - 2 * sigma m) * sqrt T)
          by (rewrite <- Q at 3; ring).
        replace (- (K / (s - K) * (((intr m - divr m) * sqrt T - 2 * sigma m) * sqrt T)))
          with (- (K / (K - s) * ((2 * sigma m - (intr m - divr m) * sqrt T) * sqrt T))) by (field; lra).
        assert (0 <= K / (K - s)) by (apply Rlt_le, Rdiv_lt_0_compat; lra).
        assert (0 <= (2 * sigma m - (intr m - divr m) * sqrt T) * sqrt T) by (apply Rmult_le_pos; lra).
        pose proof (Rmult_le_pos _ _ H1 H2). lra. }
      destruct A as [A|A]; [left; apply exp_increasing; exact A|rewrite A; lra]. }
    set (w := exp _) in *. unfold Rmin, Rmax. destruct (Rle_dec s z); split; nra.
  Qed.
  Lemma guess_above T : eps <= intr m -> divr m < intr m -> 0 < T -> 2 * sigma m < (intr m - divr m) * sqrt T ->
    K < am_bdd_ig m K T.
  Proof.
    intros He Hq HT H. pose proof sinf_range as [s0 s1]. unfold am_bdd_ig.
    assert (Z : am_s0 m K = K).
    { unfold am_s0. rewrite Rmin_left; [ring|]. pose proof eps_pos.
      assert (0 < Rmax (divr m) eps) by (eapply Rlt_le_trans; [|apply Rmax_r]; assumption).
      apply (Rmult_le_reg_r (Rmax (divr m) eps)); [assumption|]. unfold Rdiv. rewrite Rmult_assoc, Rinv_l by lra.
      rewrite Rmult_1_l, Rmult_1_r. apply Rmax_lub; lra. }
    rewrite Z. set (s := am_sinf m K) in *.
    assert (W : 1 < exp (- (K / (s - K) * ((intr m - divr m) * T - 2 * sigma m * sqrt T)))).
    { rewrite <- exp_0. apply exp_increasing.
      pose proof (sqrt_sqrt T (Rlt_le _ _ HT)) as Q. pose proof (sqrt_lt_R0 T HT).
      replace ((intr m - divr m) * T - 2 * sigma m * sqrt T) with (((intr m - divr m) * sqrt T - 2 * sigma m) * sqrt T)
        by (rewrite <- Q at 3; ring).
      replace (- (K / (s - K) * (((intr m - divr m) * sqrt T - 2 * sigma m) * sqrt T)))
        with (K / (K - s) * (((intr m - divr m) * sqrt T - 2 * sigma m) * sqrt T)) by (field; lra).
      apply Rmult_lt_0_compat; [apply Rdiv_lt_0_compat; lra|]. apply Rmult_lt_0_compat; lra. }
    set (w := exp _) in *. nra.
  Qed.
  Lemma guess_zero : am_bdd_ig m K 0 = am_s0 m K.
  Proof. unfold am_bdd_ig. rewrite sqrt_0. rewrite !Rmult_0_r, Rminus_0_r, Rmult_0_r, Ropp_0, exp_0. ring. Qed.
End Perp.
Lemma glue_continuous (g : R -> R) (K b : R) : continuous g b -> g b = K - b ->
  continuous (fun x => if Rle_dec x b then K - x else g x) b.
Proof.
  intros Hg Hb. apply filterlim_locally. intros e.
  assert (Hp : continuous (fun x => K - x) b).
  { apply @continuous_minus; [apply continuous_const|apply continuous_id]. }
  pose proof (proj1 (filterlim_locally _ _) Hg e) as A. pose proof (proj1 (filterlim_locally _ _) Hp e) as B.
  generalize (filter_and _ _ A B). apply filter_imp. intros x [X Y].
  destruct (Rle_dec b b); [|lra]. destruct (Rle_dec x b); [exact Y|]. rewrite <- Hb. exact X.
Qed.
Lemma am_price_cont (m : opt) (K T bdd : R) : 0 < K -> 0 < bdd -> continuous (fun x => am_price m bdd K x T (-1)) bdd.
Proof.
  intros HK HB. unfold am_price. apply glue_continuous.
  - apply (ex_derive_continuous (V := R_NormedModule)). eexists. apply cont_derive; assumption.
  - apply cont_at_bdd; assumption.
Qed.
Lemma smooth_spot (m : opt) (K T bdd : R) : is_fwd m = false -> 0 < K -> 0 < bdd ->
  (is_derive (fun x => am_price m bdd K x T (-1)) bdd (-1) <-> am_zero m K bdd T (-1) = 0).
Proof. intros E HK HB. pose proof (smooth_paste m K T bdd HK HB) as H. rewrite E in H. exact H. Qed.
Lemma smooth_fwd (m : opt) (K T bdd : R) : is_fwd m = true -> 0 < K -> 0 < bdd -> 0 < intr m -> 0 < T ->
  am_zero m K bdd T (-1) = 0 -> ~ is_derive (fun x => am_price m bdd K x T (-1)) bdd (-1).
Proof.
  intros E HK HB HR HT Z H. apply smooth_paste in H; try assumption. rewrite E, Z in H.
  assert (A : exp (- intr m * T) < 1). { rewrite <- exp_0. apply exp_increasing. nra. }
  pose proof (Phi_pos (- bsm_d1 m K bdd T)) as P.
  assert (0 < (1 - exp (- intr m * T)) * Phi (- bsm_d1 m K bdd T) * bdd).
  { apply Rmult_lt_0_compat; [|assumption]. apply Rmult_lt_0_compat; [lra|assumption]. }
  lra.
Qed.
