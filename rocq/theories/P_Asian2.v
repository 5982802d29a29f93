(** Moments of discretely monitored averages and their limit *)
From Coq Require Import Reals Lra Lia Psatz List Arith FunctionalExtensionality.
From Coquelicot Require Import Coquelicot.
From Verif Require Import Base Gauss Sums Spec_Expect P_Expect P_KlLaw P_Conv2 P_Multi5 Spec_Asian M_Opt M_Asian P_Asian P_Alloc.
Import ListNotations.
Open Scope R_scope.

Lemma binom_rsum (x y : R) (n : nat) : (x + y) ^ n = rsum (S n) (fun i => Binomial.C n i * x ^ i * y ^ (n - i)).
Proof.
  rewrite binomial. generalize (fun i => Binomial.C n i * x ^ i * y ^ (n - i)). intros f. clear.
  induction n as [|n IH]; simpl; [ring|]. rewrite IH. reflexivity.
Qed.
Lemma C_n0 n : Binomial.C n 0 = 1.
Proof. unfold Binomial.C. rewrite Nat.sub_0_r. simpl fact. simpl INR. field. apply INR_fact_neq_0. Qed.
Lemma C_n1 n : Binomial.C (S n) 1 = INR (S n).
Proof.
  unfold Binomial.C. replace (S n - 1)%nat with n by lia. change (fact (S n)) with (S n * fact n)%nat. rewrite mult_INR.
  change (fact 1) with 1%nat. change (INR 1) with 1. field. apply INR_fact_neq_0.
Qed.
Lemma C_pos n i : 0 <= Binomial.C n i.
Proof. unfold Binomial.C. apply Rmult_le_pos; [apply pos_INR|]. left. apply Rinv_0_lt_compat. apply Rmult_lt_0_compat; apply INR_fact_lt_0. Qed.

Section Disc.
Variables (g sig d : R).
Hypothesis Hd : 0 < d.
Definition qq (k : nat) : R := exp (mS g sig k * d).
Definition lstep (z : nat -> R) (j : nat) : R := (g - sig ^ 2 / 2) * d + sig * sqrt d * z j.
Definition Sn (n : nat) (z : nat -> R) : R := exp (rsum n (lstep z)).
Definition An (n : nat) (z : nat -> R) : R := rsum n (fun i => Sn (S i) z).
(** E[A^m S^k] after n steps *)
Fixpoint am (n m k : nat) : R :=
  match n with
  | O => match m with O => 1 | _ => 0 end
  | S n' => rsum (S m) (fun j => Binomial.C m j * qq (j + k) * am n' (m - j) (j + k))
  end.
Lemma Sn_upd n z y : Sn n (upd z n y) = Sn n z.
Proof. unfold Sn. f_equal. apply rsum_ext. intros j Hj. unfold lstep, upd. replace (Nat.eqb j n) with false; [reflexivity|]. symmetry. apply Nat.eqb_neq. lia. Qed.
Lemma Sn_upd' i n z y : (i <= n)%nat -> Sn i (upd z n y) = Sn i z.
Proof. intros Hi. unfold Sn. f_equal. apply rsum_ext. intros j Hj. unfold lstep, upd. replace (Nat.eqb j n) with false; [reflexivity|]. symmetry. apply Nat.eqb_neq. lia. Qed.
Lemma An_upd n z y : An n (upd z n y) = An n z.
Proof. unfold An. apply rsum_ext. intros i Hi. apply Sn_upd'. lia. Qed.
Lemma step_mom (k : nat) : gauss_expect (fun y => exp ((g - sig ^ 2 / 2) * d + sig * sqrt d * y) ^ k) (qq k).
Proof using Hd.
  pose proof (gauss_mgf (INR k * (sig * sqrt d))) as H.
  apply (gauss_expect_scal _ _ (exp (INR k * ((g - sig ^ 2 / 2) * d)))) in H.
  assert (exp (INR k * ((g - sig ^ 2 / 2) * d)) * exp (INR k * (sig * sqrt d) * (INR k * (sig * sqrt d)) / 2) = qq k) as E.
  { unfold qq, mS. rewrite <- exp_plus. f_equal. rewrite <- (sqrt_sqrt d) at 1 4 by lra. field. }
  rewrite E in H. eapply gauss_expect_ext; [|exact H]. intros y. cbn beta. rewrite <- exp_n, <- exp_plus. f_equal. ring.
Qed.
Lemma am_expect n : forall m k, normals_expect n (fun z => An n z ^ m * Sn n z ^ k) (am n m k).
Proof using Hd.
  induction n as [|n IH]; intros m k.
  - cbn [normals_expect]. intros z. unfold An, Sn. cbn [rsum]. rewrite exp_0, pow1. destruct m; simpl; ring.
  - cbn [normals_expect].
    exists (fun z => rsum (S m) (fun j => Binomial.C m j * qq (j + k) * (An n z ^ (m - j) * Sn n z ^ (j + k)))). split.
    + intros z.
      apply gauss_expect_ext with (f := fun y => rsum (S m) (fun j => Binomial.C m j * (An n z ^ (m - j) * Sn n z ^ (j + k)) * exp ((g - sig ^ 2 / 2) * d + sig * sqrt d * y) ^ (j + k))).
      { intros y. assert (An (S n) (upd z n y) = An n z + Sn (S n) (upd z n y)) as EA.
        { unfold An at 1. cbn [rsum]. change (rsum n (fun i => Sn (S i) (upd z n y))) with (An n (upd z n y)). now rewrite An_upd. }
        rewrite EA.
        assert (Sn (S n) (upd z n y) = Sn n z * exp ((g - sig ^ 2 / 2) * d + sig * sqrt d * y)) as E.
        { unfold Sn at 1. cbn [rsum]. rewrite exp_plus. change (exp (rsum n (lstep (upd z n y)))) with (Sn n (upd z n y)). rewrite Sn_upd.
          unfold lstep, upd. rewrite Nat.eqb_refl. reflexivity. }
        rewrite E. generalize (exp ((g - sig ^ 2 / 2) * d + sig * sqrt d * y)) (Sn n z) (An n z). intros x s a.
        rewrite (Rplus_comm a), binom_rsum, <- rsum_scal_r. apply rsum_ext. intros j _.
        rewrite !Rpow_mult_distr, !pow_add. ring. }
      replace (rsum (S m) (fun j => Binomial.C m j * qq (j + k) * (An n z ^ (m - j) * Sn n z ^ (j + k))))
        with (rsum (S m) (fun j => Binomial.C m j * (An n z ^ (m - j) * Sn n z ^ (j + k)) * qq (j + k))) by (apply rsum_ext; intros; ring).
      apply ge_rsum. intros j _. apply gauss_expect_scal. apply step_mom.
    + cbn [am]. apply normals_rsum. intros j _. apply normals_scal. apply IH.
Qed.
End Disc.

(** elementary bounds *)
Lemma exp_abs_le (c t T : R) : 0 <= t <= T -> exp (c * t) <= exp (Rabs c * T).
Proof. intros H. apply exp_le. pose proof (Rabs_pos c). pose proof (Rle_abs c). nra. Qed.
Lemma exp_lip0 (x : R) : Rabs (exp x - 1) <= Rabs x * exp (Rabs x).
Proof.
  destruct (MVT_gen exp 0 x exp) as (c & Hc & E).
  - intros; apply is_derive_exp.
  - intros; apply continuity_pt_filterlim. apply (ex_derive_continuous exp). eexists; apply is_derive_exp.
  - rewrite exp_0, Rminus_0_r in E. rewrite E, Rabs_mult, Rmult_comm. apply Rmult_le_compat_l; [apply Rabs_pos|].
    rewrite Rabs_right by (left; apply exp_pos). apply exp_le.
    unfold Rmin, Rmax in Hc. destruct (Rle_dec 0 x); [rewrite Rabs_right by lra; lra|]. rewrite Rabs_left by lra. lra.
Qed.
Lemma exp_tay1 (x : R) : Rabs (exp x - 1 - x) <= x ^ 2 * exp (Rabs x).
Proof.
  destruct (MVT_gen (fun y => exp y - y) 0 x (fun y => exp y - 1)) as (c & Hc & E).
  - intros. auto_derive; [trivial|]. ring.
  - intros; apply continuity_pt_filterlim. apply (ex_derive_continuous (fun y => exp y - y)). auto_derive. trivial.
  - cbv beta in E. rewrite exp_0 in E. replace (exp x - 1 - x) with ((exp c - 1) * (x - 0)) by lra.
    rewrite Rabs_mult, Rminus_0_r. pose proof (exp_lip0 c) as L.
    assert (Rabs c <= Rabs x) as Hcx.
    { unfold Rmin, Rmax in Hc. destruct (Rle_dec 0 x); [rewrite !Rabs_right by lra; lra|]. rewrite !Rabs_left1 by lra. lra. }
    pose proof (exp_le _ _ Hcx). pose proof (exp_pos (Rabs c)). pose proof (Rabs_pos c). pose proof (Rabs_pos x).
    rewrite <- (pow2_abs x). simpl. rewrite Rmult_1_r.
    apply Rle_trans with (Rabs c * exp (Rabs c) * Rabs x); [apply Rmult_le_compat_r; lra|].
    replace (Rabs x * Rabs x * exp (Rabs x)) with (Rabs x * exp (Rabs x) * Rabs x) by ring.
    apply Rmult_le_compat_r; [lra|]. apply Rmult_le_compat; lra.
Qed.
Section Conv.
Variables (g sig T : R).
Hypotheses (Hs : 0 < sig) (HT : 0 < T).
Let q := fun (dl : R) (k : nat) => qq g sig dl k.
Definition bm (dl : R) (n m k : nat) : R := dl ^ m * am g sig dl n m k.
Lemma bm_S dl n m k : bm dl (S n) m k = rsum (S m) (fun j => Binomial.C m j * dl ^ j * qq g sig dl (j + k) * bm dl n (m - j) (j + k)).
Proof.
  unfold bm. cbn [am]. rewrite <- rsum_scal. apply rsum_ext. intros j Hj.
  replace (dl ^ m) with (dl ^ j * dl ^ (m - j)) by (rewrite <- pow_add; f_equal; lia). ring.
Qed.
Variable M : nat -> nat -> R -> R.
Variable ok : nat -> nat -> Prop.
Hypotheses (M0 : forall k t, M 0 k t = exp (mS g sig k * t)) (Minit : forall m k, ok (S m) k -> M (S m) k 0 = 0)
  (Mder : forall m k t, ok (S m) k -> is_derive (M (S m) k) t (mS g sig k * M (S m) k t + INR (S m) * M m (S k) t))
  (Mok : forall m k, ok (S m) k -> ok m (S k)).
Lemma M_ex m k t : ok m k -> ex_derive (M m k) t.
Proof using M0 Mder.
  destruct m as [|m]; intros H; [|eexists; apply Mder, H].
  apply (ex_derive_ext (fun t => exp (mS g sig k * t))); [intros; now rewrite M0|]. auto_derive. trivial.
Qed.
Lemma cont_bounded (f : R -> R) (a b : R) : a <= b -> (forall t, continuous f t) -> exists B, 0 <= B /\ forall t, a <= t <= b -> Rabs (f t) <= B.
Proof.
  intros Hab H. destruct (continuity_ab_maj (fun t => Rabs (f t)) a b Hab) as (x & Hx & _).
  { intros c _. apply continuity_pt_filterlim. apply (continuous_comp f Rabs); [apply H|]. apply continuity_pt_filterlim, Rcontinuity_abs. }
  exists (Rabs (f x)). split; [apply Rabs_pos|exact Hx].
Qed.
Lemma mM_bound m k : ok m k -> exists B, 0 <= B /\ forall t, 0 <= t <= 2 * T -> Rabs (M m k t) <= B.
Proof using HT M0 Mder.
  intros H. apply cont_bounded; [lra|]. intros t. apply (ex_derive_continuous (K := R_AbsRing) (V := R_NormedModule) (M m k)). apply M_ex, H.
Qed.
Lemma mM_lip m k : ok m k -> exists B, 0 <= B /\ forall s t, 0 <= s <= 2 * T -> 0 <= t <= 2 * T -> Rabs (M m k s - M m k t) <= B * Rabs (s - t).
Proof using HT M0 Mder Mok.
  intros H.
  assert (exists D : R -> R, (forall t, is_derive (M m k) t (D t)) /\ exists B, 0 <= B /\ forall t, 0 <= t <= 2 * T -> Rabs (D t) <= B) as (D & HD & B & HB & Hb).
  { destruct m as [|m].
    - exists (fun t => mS g sig k * exp (mS g sig k * t)). split.
      + intros t. apply (is_derive_ext (fun t => exp (mS g sig k * t))); [intros; now rewrite M0|]. auto_derive; [trivial|]. Req. ring.
      + apply cont_bounded; [lra|]. intros t. apply (ex_derive_continuous (fun t => mS g sig k * exp (mS g sig k * t))). auto_derive. trivial.
    - exists (fun t => mS g sig k * M (S m) k t + INR (S m) * M m (S k) t). split; [intros; apply Mder, H|].
      destruct (mM_bound (S m) k H) as (B1 & HB1 & K1). destruct (mM_bound m (S k) (Mok _ _ H)) as (B2 & HB2 & K2).
      exists (Rabs (mS g sig k) * B1 + INR (S m) * B2). pose proof (pos_INR (S m)). pose proof (Rabs_pos (mS g sig k)).
      split; [apply Rplus_le_le_0_compat; apply Rmult_le_pos; assumption|].
      intros t Ht. eapply Rle_trans; [apply Rabs_triang|]. rewrite !Rabs_mult, (Rabs_right (INR (S m))) by lra.
      apply Rplus_le_compat; apply Rmult_le_compat_l; auto. }
  exists B. split; [exact HB|]. intros s t Hs' Ht'.
  destruct (MVT_gen (M m k) t s D) as (c & Hc & E).
  { intros; apply HD. } { intros; apply continuity_pt_filterlim. apply (ex_derive_continuous (K := R_AbsRing) (V := R_NormedModule) (M m k)). eexists; apply HD. }
  rewrite E, Rabs_mult. apply Rmult_le_compat_r; [apply Rabs_pos|]. apply Hb. unfold Rmin, Rmax in Hc. destruct (Rle_dec t s); lra.
Qed.
Lemma mM_taylor m k : ok (S m) k -> exists B, 0 <= B /\ forall t h, 0 <= t <= T -> 0 <= h <= T ->
  Rabs (M (S m) k (t + h) - M (S m) k t - h * (mS g sig k * M (S m) k t + INR (S m) * M m (S k) t)) <= B * h ^ 2.
Proof using HT M0 Mder Mok.
  intros H.
  destruct (mM_lip (S m) k H) as (B1 & HB1 & K1). destruct (mM_lip m (S k) (Mok _ _ H)) as (B2 & HB2 & K2).
  exists (Rabs (mS g sig k) * B1 + INR (S m) * B2). pose proof (pos_INR (S m)). pose proof (Rabs_pos (mS g sig k)).
  split; [apply Rplus_le_le_0_compat; apply Rmult_le_pos; assumption|].
  intros t h Ht Hh.
  destruct (MVT_gen (M (S m) k) t (t + h) (fun t => mS g sig k * M (S m) k t + INR (S m) * M m (S k) t)) as (c & Hc & E).
  { intros; apply Mder, H. } { intros; apply continuity_pt_filterlim. apply (ex_derive_continuous (K := R_AbsRing) (V := R_NormedModule) (M (S m) k)). eexists; apply Mder, H. }
  rewrite E. unfold Rmin, Rmax in Hc. destruct (Rle_dec t (t + h)); [|lra].
  specialize (K1 c t ltac:(lra) ltac:(lra)). specialize (K2 c t ltac:(lra) ltac:(lra)). rewrite (Rabs_right (c - t)) in K1, K2 by lra.
  replace ((mS g sig k * M (S m) k c + INR (S m) * M m (S k) c) * (t + h - t) - h * (mS g sig k * M (S m) k t + INR (S m) * M m (S k) t))
    with ((mS g sig k * (M (S m) k c - M (S m) k t) + INR (S m) * (M m (S k) c - M m (S k) t)) * h) by ring.
  rewrite Rabs_mult, (Rabs_right h) by lra. replace (h ^ 2) with (h * h) by ring. rewrite <- Rmult_assoc. apply Rmult_le_compat_r; [lra|].
  eapply Rle_trans; [apply Rabs_triang|]. rewrite !Rabs_mult, (Rabs_right (INR (S m))) by lra.
  rewrite Rmult_plus_distr_r, !Rmult_assoc. apply Rplus_le_compat; apply Rmult_le_compat_l; auto.
  - eapply Rle_trans; [exact K1|]. apply Rmult_le_compat_l; lra.
  - eapply Rle_trans; [exact K2|]. apply Rmult_le_compat_l; lra.
Qed.
Lemma ok_add j : forall k m, ok (j + m) k -> ok m (j + k).
Proof using Mok.
  induction j as [|j IH]; intros k m H; [exact H|].
  replace (S j + k)%nat with (j + S k)%nat by lia. apply IH. apply Mok. exact H.
Qed.

(** abstract Gronwall step *)
Lemma gronwall (e : nat -> R) (q0 C dl : R) (N : nat) : 1 <= q0 -> 0 <= C -> e 0%nat <= 0 -> (forall i, (i < N)%nat -> e (S i) <= q0 * e i + C * dl ^ 2) ->
  forall i, (i <= N)%nat -> e i <= INR i * (C * dl ^ 2) * q0 ^ i.
Proof.
  intros Hq HC H0 Hstep. induction i as [|i IH]; intros Hi; [simpl; lra|].
  eapply Rle_trans; [apply Hstep; lia|]. specialize (IH ltac:(lia)).
  rewrite S_INR. change (q0 ^ S i) with (q0 * q0 ^ i).
  assert (0 <= C * dl ^ 2) by (apply Rmult_le_pos; [lra|apply pow2_ge_0]).
  assert (1 <= q0 ^ i) by (apply pow_R1_Rle; exact Hq).
  apply (Rmult_le_compat_l q0) in IH; [|lra].
  assert (C * dl ^ 2 <= C * dl ^ 2 * (q0 * q0 ^ i)) by (assert (1 <= q0 * q0 ^ i) by nra; nra).
  nra.
Qed.
Definition dlN (N : nat) : R := T / INR N.
Lemma dlN_pos N : (1 <= N)%nat -> 0 < dlN N <= T.
Proof using HT.
  intros H. assert (1 <= INR N) by (change 1 with (INR 1); apply le_INR; exact H). unfold dlN. split; [apply Rdiv_lt_0_compat; lra|].
  apply (Rmult_le_reg_r (INR N)); [lra|]. unfold Rdiv. rewrite Rmult_assoc, Rinv_l by lra. nra.
Qed.
Lemma dlN_i N i : (1 <= N)%nat -> (i <= N)%nat -> 0 <= INR i * dlN N <= T.
Proof using HT.
  intros H Hi. assert (1 <= INR N) by (change 1 with (INR 1); apply le_INR; exact H). apply le_INR in Hi. pose proof (pos_INR i).
  pose proof (dlN_pos N H). split; [nra|].
  apply Rle_trans with (INR N * dlN N); [apply Rmult_le_compat_r; lra|]. right. unfold dlN. field. lra.
Qed.
Definition conv (m k : nat) : Prop := exists C, 0 <= C /\ forall N i, (1 <= N)%nat -> (i <= N)%nat -> Rabs (bm (dlN N) i m k - M m k (INR i * dlN N)) <= C * dlN N.

Lemma conv_0 k : conv 0 k.
Proof.
  exists 0. split; [lra|]. intros N i HN Hi. rewrite M0.
  assert (forall i, bm (dlN N) i 0 k = exp (mS g sig k * (INR i * dlN N))) as E.
  { clear. induction i as [|i IH]; [unfold bm; simpl; rewrite Rmult_0_l, Rmult_0_r, exp_0; ring|].
    rewrite bm_S. cbn [rsum]. rewrite C_n0. rewrite Nat.sub_0_r, Nat.add_0_l, IH. unfold qq. rewrite S_INR.
    rewrite Rplus_0_l. simpl pow. rewrite !Rmult_1_l, <- exp_plus. f_equal. ring. }
  rewrite E, Rminus_eq_0, Rabs_R0. lra.
Qed.
Lemma conv_bound m k : ok m k -> conv m k -> exists B, 0 <= B /\ forall N i, (1 <= N)%nat -> (i <= N)%nat -> Rabs (bm (dlN N) i m k) <= B.
Proof using HT Hs M0 Minit Mder Mok.
  intros Hok (C & HC & H). destruct (mM_bound m k Hok) as (B & HB & H2). exists (B + C * T). split; [nra|].
  intros N i HN Hi. specialize (H N i HN Hi). pose proof (dlN_i N i HN Hi) as Hti. specialize (H2 (INR i * dlN N) ltac:(lra)). pose proof (dlN_pos N HN).
  replace (bm (dlN N) i m k) with (M m k (INR i * dlN N) + (bm (dlN N) i m k - M m k (INR i * dlN N))) by ring.
  eapply Rle_trans; [apply Rabs_triang|]. nra.
Qed.
(** the terms of order two and higher in one step *)
Lemma rest_bound m k : ok (S (S m)) k -> (forall j, (j <= m)%nat -> conv (m - j) (S (S j) + k)) ->
  exists B, 0 <= B /\ forall N i, (1 <= N)%nat -> (i <= N)%nat ->
    Rabs (rsum (S m) (fun j => Binomial.C (S (S m)) (S (S j)) * dlN N ^ S (S j) * qq g sig (dlN N) (S (S j) + k) * bm (dlN N) i (m - j) (S (S j) + k))) <= B * dlN N ^ 2.
Proof using HT Hs M0 Minit Mder Mok.
  intros Hok H.
  assert (forall j, (j <= m)%nat -> exists B, 0 <= B /\ forall N i, (1 <= N)%nat -> (i <= N)%nat ->
    Rabs (Binomial.C (S (S m)) (S (S j)) * dlN N ^ S (S j) * qq g sig (dlN N) (S (S j) + k) * bm (dlN N) i (m - j) (S (S j) + k)) <= B * dlN N ^ 2) as H1.
  { intros j Hj. destruct (conv_bound _ _ (ok_add (S (S j)) k (m - j) ltac:(replace (S (S j) + (m - j))%nat with (S (S m)) by lia; exact Hok)) (H j Hj)) as (B & HB & H2).
    exists (Binomial.C (S (S m)) (S (S j)) * T ^ j * exp (Rabs (mS g sig (S (S j) + k)) * T) * B). pose proof (C_pos (S (S m)) (S (S j))) as HC.
    assert (0 <= T ^ j) by (apply pow_le; lra). pose proof (exp_pos (Rabs (mS g sig (S (S j) + k)) * T)).
    split; [apply Rmult_le_pos; [apply Rmult_le_pos; [apply Rmult_le_pos; assumption|lra]|assumption]|].
    intros N i HN Hi. specialize (H2 N i HN Hi). pose proof (dlN_pos N HN) as Hd.
    unfold qq. rewrite !Rabs_mult. rewrite (Rabs_right (Binomial.C _ _)) by lra. rewrite (Rabs_right (dlN N ^ _)) by (apply Rle_ge, pow_le; lra).
    rewrite (Rabs_right (exp _)) by (left; apply exp_pos).
    change (dlN N ^ S (S j)) with (dlN N * (dlN N * dlN N ^ j)).
    assert (dlN N ^ j <= T ^ j) by (apply pow_incr; lra).
    assert (0 <= dlN N ^ j) by (apply pow_le; lra).
    assert (exp (mS g sig (S (S j) + k) * dlN N) <= exp (Rabs (mS g sig (S (S j) + k)) * T)) by (apply exp_abs_le; lra).
    pose proof (exp_pos (mS g sig (S (S j) + k) * dlN N)).
    replace (Binomial.C (S (S m)) (S (S j)) * T ^ j * exp (Rabs (mS g sig (S (S j) + k)) * T) * B * dlN N ^ 2)
      with (Binomial.C (S (S m)) (S (S j)) * (dlN N * (dlN N * T ^ j)) * exp (Rabs (mS g sig (S (S j) + k)) * T) * B) by ring.
    apply Rmult_le_compat; try apply Rabs_pos; try assumption.
    { apply Rmult_le_pos; [|lra]. apply Rmult_le_pos; [lra|]. apply Rmult_le_pos; [lra|apply Rmult_le_pos; lra]. }
    apply Rmult_le_compat; try lra. { apply Rmult_le_pos; [lra|]. apply Rmult_le_pos; [lra|apply Rmult_le_pos; lra]. }
    apply Rmult_le_compat_l; [lra|]. apply Rmult_le_compat_l; [lra|]. apply Rmult_le_compat_l; lra. }
  clear H. assert (forall n, (n <= S m)%nat -> exists B, 0 <= B /\ forall N i, (1 <= N)%nat -> (i <= N)%nat ->
    Rabs (rsum n (fun j => Binomial.C (S (S m)) (S (S j)) * dlN N ^ S (S j) * qq g sig (dlN N) (S (S j) + k) * bm (dlN N) i (m - j) (S (S j) + k))) <= B * dlN N ^ 2) as H2.
  { induction n as [|n IH]; intros Hn.
    - exists 0. split; [lra|]. intros. cbn [rsum]. rewrite Rabs_R0. lra.
    - destruct (IH ltac:(lia)) as (B1 & HB1 & K1). destruct (H1 n ltac:(lia)) as (B2 & HB2 & K2).
      exists (B1 + B2). split; [lra|]. intros N i HN Hi. cbn [rsum].
      eapply Rle_trans; [apply Rabs_triang|]. specialize (K1 N i HN Hi). specialize (K2 N i HN Hi). lra. }
  apply H2. lia.
Qed.
Lemma rest_bound1 m k : ok (S m) k -> (forall j, (S j <= m)%nat -> conv (m - S j) (S (S j) + k)) ->
  exists B, 0 <= B /\ forall N i, (1 <= N)%nat -> (i <= N)%nat ->
    Rabs (rsum m (fun j => Binomial.C (S m) (S (S j)) * dlN N ^ S (S j) * qq g sig (dlN N) (S (S j) + k) * bm (dlN N) i (S m - S (S j)) (S (S j) + k))) <= B * dlN N ^ 2.
Proof using HT Hs M0 Minit Mder Mok.
  destruct m as [|m]; intros Hok H.
  - exists 0. split; [lra|]. intros. cbn [rsum]. rewrite Rabs_R0. lra.
  - destruct (rest_bound m k Hok) as (B & HB & K).
    { intros j Hj. specialize (H j ltac:(lia)). replace (S m - S j)%nat with (m - j)%nat in H by lia. exact H. }
    exists B. split; [exact HB|]. exact K.
Qed.
Lemma conv_S m k : ok (S m) k -> (forall j, (j <= m)%nat -> conv (m - j) (S j + k)) -> conv (S m) k.
Proof using HT Hs M0 Minit Mder Mok.
  intros Hn H.
  destruct (rest_bound1 m k Hn) as (B1 & HB1 & K1). { intros j Hj. apply (H (S j)). lia. }
  destruct (mM_taylor m k Hn) as (B2 & HB2 & K2).
  assert (conv m (S k)) as H0. { specialize (H 0%nat ltac:(lia)). rewrite Nat.sub_0_r in H. exact H. }
  destruct H0 as (C0 & HC0 & K0).
  destruct (mM_bound (S m) k Hn) as (B3 & HB3 & K3). destruct (mM_bound m (S k) (Mok _ _ Hn)) as (B4 & HB4 & K4).
  set (L := mS g sig k) in *. set (L' := mS g sig (S k)).
  set (E := exp (Rabs L * T)). set (E' := exp (Rabs L' * T)).
  assert (0 < E) by apply exp_pos. assert (0 < E') by apply exp_pos.
  pose proof (pos_INR (S m)) as Hm.
  set (CC := L ^ 2 * E * B3 + INR (S m) * (E' * C0 + Rabs L' * E' * B4) + B1 + B2).
  assert (0 <= CC) as HCC.
  { unfold CC. assert (0 <= L ^ 2) by apply pow2_ge_0. assert (0 <= L ^ 2 * E * B3) by (apply Rmult_le_pos; [apply Rmult_le_pos; lra|lra]).
    assert (0 <= Rabs L' * E' * B4) by (apply Rmult_le_pos; [apply Rmult_le_pos; [apply Rabs_pos|lra]|lra]). assert (0 <= E' * C0) by nra.
    assert (0 <= INR (S m) * (E' * C0 + Rabs L' * E' * B4)) by (apply Rmult_le_pos; lra). lra. }
  exists (T * CC * E). split; [apply Rmult_le_pos; [apply Rmult_le_pos; lra|lra]|].
  intros N i HN Hi. pose proof (dlN_pos N HN) as Hd.
  set (d := dlN N) in *.
  assert (forall i, (i <= N)%nat -> Rabs (bm d i (S m) k - M (S m) k (INR i * d)) <= INR i * (CC * d ^ 2) * exp (Rabs L * d) ^ i) as G.
  { apply (gronwall (fun i => Rabs (bm d i (S m) k - M (S m) k (INR i * d)))).
    - rewrite <- exp_0. apply exp_le. apply Rmult_le_pos; [apply Rabs_pos|lra].
    - exact HCC.
    - simpl. rewrite Rmult_0_l, Minit by exact Hn. unfold bm. simpl. rewrite Rmult_0_r, Rminus_0_r, Rabs_R0. lra.
    - clear i Hi. intros i Hi.
      pose proof (dlN_i N i HN ltac:(lia)) as Ht. fold d in Ht. set (t := INR i * d) in *.
      replace (INR (S i) * d) with (t + d) by (unfold t; rewrite S_INR; ring).
      specialize (K1 N i HN ltac:(lia)). fold d in K1. specialize (K2 t d Ht ltac:(lra)). specialize (K0 N i HN ltac:(lia)). fold d t in K0.
      specialize (K3 t ltac:(lra)). specialize (K4 t ltac:(lra)).
      rewrite bm_S.
      rewrite rsum_shift, rsum_shift. rewrite C_n0, C_n1. 
      match type of K1 with Rabs ?r <= _ => set (Rr := r) in * end.
      change (rsum m (fun k0 => Binomial.C (S m) (S (S k0)) * d ^ S (S k0) * qq g sig d (S (S k0) + k) * bm d i (S m - S (S k0)) (S (S k0) + k))) with Rr.
      replace (S m - 1)%nat with m by lia. rewrite Nat.sub_0_r, Nat.add_0_l. change (1 + k)%nat with (S k).
      change (d ^ 0) with 1. rewrite (pow_1 d). unfold qq. fold L L'.
      set (b := bm d i (S m) k) in *. set (b' := bm d i m (S k)) in *. set (MM := M (S m) k t) in *. set (M' := M m (S k) t) in *.
      set (M1 := M (S m) k (t + d)) in *.
      assert (Rabs (exp (L * d) - 1 - L * d) <= L ^ 2 * E * d ^ 2) as T1.
      { eapply Rle_trans; [apply exp_tay1|]. rewrite Rpow_mult_distr.
        replace (L ^ 2 * E * d ^ 2) with (L ^ 2 * d ^ 2 * E) by ring. apply Rmult_le_compat_l; [apply Rmult_le_pos; apply pow2_ge_0|].
        unfold E. apply exp_le. rewrite Rabs_mult, (Rabs_right d) by lra. pose proof (Rabs_pos L). nra. }
      assert (Rabs (exp (L' * d) - 1) <= Rabs L' * E' * d) as T2.
      { eapply Rle_trans; [apply exp_lip0|]. rewrite Rabs_mult, (Rabs_right d) by lra.
        replace (Rabs L' * E' * d) with (Rabs L' * d * E') by ring. apply Rmult_le_compat_l; [pose proof (Rabs_pos L'); nra|].
        unfold E'. apply exp_le. pose proof (Rabs_pos L'). nra. }
      assert (exp (L' * d) <= E') as T3 by (unfold E'; apply exp_abs_le; lra).
      assert (exp (L * d) <= exp (Rabs L * d)) as T4 by (apply exp_abs_le; lra).
      replace (1 * 1 * exp (L * d) * b + (INR (S m) * d * exp (L' * d) * b' + Rr) - M1)
        with (exp (L * d) * (b - MM) + ((exp (L * d) - 1 - L * d) * MM + (INR (S m) * d) * (exp (L' * d) * (b' - M') + (exp (L' * d) - 1) * M') + Rr
              - (M1 - MM - d * (L * MM + INR (S m) * M')))) by ring.
      eapply Rle_trans; [apply Rabs_triang|]. apply Rplus_le_compat.
      { rewrite Rabs_mult, (Rabs_right (exp _)) by (left; apply exp_pos). apply Rmult_le_compat_r; [apply Rabs_pos|exact T4]. }
      unfold CC.
      replace ((L ^ 2 * E * B3 + INR (S m) * (E' * C0 + Rabs L' * E' * B4) + B1 + B2) * d ^ 2)
        with (L ^ 2 * E * d ^ 2 * B3 + INR (S m) * d * (E' * (C0 * d) + Rabs L' * E' * d * B4) + B1 * d ^ 2 + B2 * d ^ 2) by ring.
      unfold Rminus at 1. eapply Rle_trans; [apply Rabs_triang|]. apply Rplus_le_compat.
      2:{ rewrite Rabs_Ropp. exact K2. }
      eapply Rle_trans; [apply Rabs_triang|]. apply Rplus_le_compat; [|exact K1].
      eapply Rle_trans; [apply Rabs_triang|]. apply Rplus_le_compat.
      { rewrite Rabs_mult. apply Rmult_le_compat; try apply Rabs_pos; assumption. }
      rewrite Rabs_mult, (Rabs_right (INR (S m) * d)) by (apply Rle_ge, Rmult_le_pos; lra).
      apply Rmult_le_compat_l; [apply Rmult_le_pos; lra|].
      eapply Rle_trans; [apply Rabs_triang|]. apply Rplus_le_compat.
      { rewrite Rabs_mult, (Rabs_right (exp _)) by (left; apply exp_pos). apply Rmult_le_compat; try apply Rabs_pos; try assumption. left; apply exp_pos. }
      rewrite Rabs_mult. apply Rmult_le_compat; try apply Rabs_pos; assumption. }
  specialize (G i Hi). eapply Rle_trans; [exact G|].
  rewrite <- exp_n. pose proof (dlN_i N i HN Hi) as Ht. fold d in Ht.
  replace (INR i * (CC * d ^ 2) * exp (INR i * (Rabs L * d))) with (INR i * d * (CC * d) * exp (Rabs L * (INR i * d))) by (replace (INR i * (Rabs L * d)) with (Rabs L * (INR i * d)) by ring; ring).
  replace (T * CC * E * d) with (T * (CC * d) * E) by ring.
  assert (0 <= CC * d) by (apply Rmult_le_pos; lra).
  apply Rmult_le_compat; [apply Rmult_le_pos; lra|left; apply exp_pos|apply Rmult_le_compat_r; lra|].
  unfold E. apply exp_le. pose proof (Rabs_pos L). nra.
Qed.
Lemma conv_all m : forall k, ok m k -> conv m k.
Proof using HT Hs M0 Minit Mder Mok.
  induction m as [m IH] using (well_founded_induction lt_wf). intros k Hn.
  destruct m as [|m]; [apply conv_0|]. apply conv_S; [exact Hn|].
  intros j Hj. apply IH; [lia|]. apply ok_add. replace (S j + (m - j))%nat with (S m) by lia. exact Hn.
Qed.
Lemma asian_moment_lim n : ok n 0 -> asian_moment g sig T n (M n 0 T / T ^ n).
Proof using HT Hs M0 Minit Mder Mok.
  intros Hn. exists (fun N => am g sig (dlN N) N n 0 / INR N ^ n). split.
  - intros N HN. pose proof (am_expect g sig (dlN N) (proj1 (dlN_pos N HN)) N n 0) as H.
    apply (normals_scal N _ _ (/ INR N ^ n)) in H. replace (am g sig (dlN N) N n 0 / INR N ^ n) with (/ INR N ^ n * am g sig (dlN N) N n 0) by (unfold Rdiv; ring).
    eapply normals_ext; [|exact H]. intros z. cbn beta. unfold gbm_avg.
    replace (rsum N (gbm_obs g sig T N z)) with (An g sig (dlN N) N z) by reflexivity.
    unfold Rdiv. rewrite Rpow_mult_distr, pow_inv. ring.
  - destruct (conv_all n 0 Hn) as (C & HC & K).
    apply is_lim_seq_ext_loc with (u := fun N => bm (dlN N) N n 0 / T ^ n).
    { exists 1%nat. intros N HN. unfold bm, dlN. assert (0 < INR N) by (apply lt_0_INR; lia).
      unfold Rdiv at 2. rewrite Rpow_mult_distr, pow_inv. field. split; [apply pow_nonzero; lra|apply pow_nonzero; lra]. }
    apply (is_lim_seq_mult _ _ (M n 0 T) (/ T ^ n)); [|apply is_lim_seq_const|reflexivity].
    apply is_lim_seq_le_le_loc with (u := fun N => M n 0 T - C * T * / INR N) (w := fun N => M n 0 T + C * T * / INR N).
    + exists 1%nat. intros N HN. specialize (K N N HN (le_n _)). assert (0 < INR N) by (apply lt_0_INR; lia).
      replace (INR N * dlN N) with T in K by (unfold dlN; field; lra). unfold dlN in K at 2.
      replace (C * T * / INR N) with (C * (T / INR N)) by (unfold Rdiv; ring).
      apply Rabs_le_between in K. lra.
    + replace (Finite (M n 0 T)) with (Finite (M n 0 T - C * T * 0)) by (f_equal; ring).
      apply (is_lim_seq_minus _ _ (M n 0 T) (C * T * 0)); [apply is_lim_seq_const| |reflexivity].
      apply (is_lim_seq_mult _ _ (C * T) 0); [apply is_lim_seq_const| |reflexivity].
      apply (is_lim_seq_inv INR p_infty); [apply is_lim_seq_INR|discriminate].
    + replace (Finite (M n 0 T)) with (Finite (M n 0 T + C * T * 0)) by (f_equal; ring).
      apply (is_lim_seq_plus _ _ (M n 0 T) (C * T * 0)); [apply is_lim_seq_const| |reflexivity].
      apply (is_lim_seq_mult _ _ (C * T) 0); [apply is_lim_seq_const| |reflexivity].
      apply (is_lim_seq_inv INR p_infty); [apply is_lim_seq_INR|discriminate].
Qed.
End Conv.

Lemma nores_S g sig k m : nores g sig k (S m) -> nores g sig (S k) m.
Proof.
  intros H i j Hij. specialize (H (S i) (S j) ltac:(lia)). unfold my in *.
  replace (S k + i)%nat with (k + S i)%nat by lia. replace (S k + j)%nat with (k + S j)%nat by lia. exact H.
Qed.
Lemma asian_closed g sig T n : 0 < sig -> 0 < T -> nores g sig 0 n -> asian_moment g sig T n (mM g sig n 0 T / T ^ n).
Proof.
  intros Hs HT Hn. apply (asian_moment_lim g sig T Hs HT (mM g sig) (fun m k => nores g sig k m)); [..|exact Hn].
  - intros. apply mM_0.
  - intros. apply mM_init. assumption.
  - intros. apply mM_derive; assumption.
  - intros m k. apply nores_S.
Qed.
