(** Lognormal functional of several normals; Monte-Carlo baskets and control variates. *)
From Coq Require Import Reals Lra Lia Psatz List Arith FunctionalExtensionality.
From Coquelicot Require Import Coquelicot.
From Verif Require Import Base Gauss Sums Spec_Opt Spec_Expect Spec_Multi M_Opt M_Params M_Fd M_Sabr M_Multi Spec_Multi2 P_Black P_Bsm P_Norm P_Expect P_KlLaw P_Sabr2 P_Nsvh P_Conv P_Conv2 P_Multi P_Multi2.
Import ListNotations.
Open Scope R_scope.

Definition vneg (b : nat -> R) : nat -> R := fun i => - b i.
Lemma lin_neg n b z : lin n (vneg b) z = - lin n b z.
Proof. unfold lin, vneg. rewrite (rsum_ext n _ (fun i => (-1) * (b i * z i))) by (intros; ring). rewrite rsum_scal. ring. Qed.
Lemma lin_neg_r n b z : lin n z (vneg b) = - lin n z b.
Proof. rewrite lin_comm, lin_neg, lin_comm. reflexivity. Qed.
Lemma nrm2_neg n b : nrm2 n (vneg b) = nrm2 n b.
Proof. apply rsum_ext. intros. unfold vneg. ring. Qed.
Lemma lin_z0 n b : lin n (fun _ => 0) b = 0.
Proof. unfold lin. rewrite (rsum_ext n _ (fun _ => 0)) by (intros; ring). apply rsum_0. Qed.
Lemma tilt_z0 n z : tilt n (fun _ => 0) z = 1.
Proof. unfold tilt. rewrite lin_z0. unfold nrm2. rewrite (rsum_ext n _ (fun _ => 0)) by (intros; ring). rewrite rsum_0. replace (0 - 0 / 2) with 0 by field. apply exp_0. Qed.
Lemma half_plain n b g : 0 < nrm2 n b -> normals_expect n (fun z => ind_le (lin n b z) g) (Phi (g / sqrt (nrm2 n b))).
Proof.
  intros Hb. pose proof (normals_half_space n (fun _ => 0) b g Hb) as H. rewrite lin_z0, Rminus_0_r in H.
  eapply normals_ext; [|exact H]. intros z. cbv beta. rewrite tilt_z0. ring.
Qed.
Lemma normals_minus n F G u v : normals_expect n F u -> normals_expect n G v -> normals_expect n (fun z => F z - G z) (u - v).
Proof.
  intros HF HG. pose proof (normals_plus n _ _ _ _ HF (normals_scal n _ _ (-1) HG)) as H. replace (u + -1 * v) with (u - v) in H by ring.
  eapply normals_ext; [|exact H]. intros z. cbv beta. ring.
Qed.

(** E[payoff(F exp(b.Z - |b|^2/2))] is the Black formula *)
Lemma normals_black n b cp K F : is_cp cp -> 0 < F -> 0 < K -> 0 < nrm2 n b ->
  normals_expect n (fun z => payoff cp K (F * tilt n b z)) (black (sqrt (nrm2 n b)) F K cp).
Proof.
  intros Hcp HF HK Hb. set (s := sqrt (nrm2 n b)). assert (Hs : 0 < s) by (apply sqrt_lt_R0, Hb).
  assert (S2 : nrm2 n b = s * s) by (symmetry; apply sqrt_sqrt; lra).
  assert (Hdot : lin n b b = s * s) by (rewrite <- S2; reflexivity).
  set (g := ln (F / K) - s * s / 2).
  assert (HFK : 0 < F / K) by (apply Rdiv_lt_0_compat; assumption).
  assert (Hev : forall z, K <= F * tilt n b z <-> - lin n b z <= g).
  { intros z. unfold tilt. rewrite S2. unfold g. split; intros H.
    - assert (H' : K / F <= exp (lin n b z - s * s / 2)) by (apply Rmult_le_reg_l with F; [exact HF|]; replace (F * (K / F)) with K by (field; lra); exact H).
      destruct (Rle_lt_dec (- lin n b z) (ln (F / K) - s * s / 2)); [assumption|exfalso].
      assert (lin n b z - s * s / 2 < ln (K / F)). { replace (K / F) with (/ (F / K)) by (field; lra). rewrite ln_Rinv by exact HFK. lra. }
      apply exp_increasing in H0. rewrite exp_ln in H0 by (apply Rdiv_lt_0_compat; assumption). lra.
    - assert (H' : ln (K / F) <= lin n b z - s * s / 2). { replace (K / F) with (/ (F / K)) by (field; lra). rewrite ln_Rinv by exact HFK. lra. }
      apply exp_le in H'. rewrite exp_ln in H' by (apply Rdiv_lt_0_compat; assumption).
      apply (Rmult_le_compat_l F) in H'; [|lra]. replace (F * (K / F)) with K in H' by (field; lra). exact H'. }
  destruct Hcp as [->| ->].
  - pose proof (normals_half_space n b (vneg b) g) as H1. rewrite nrm2_neg in H1. specialize (H1 Hb).
    pose proof (half_plain n (vneg b) g) as H2. rewrite nrm2_neg in H2. specialize (H2 Hb). fold s in H1, H2.
    pose proof (normals_minus n _ _ _ _ (normals_scal n _ _ F H1) (normals_scal n _ _ K H2)) as H.
    unfold black. rewrite Rmult_1_l.
    replace (1 * (ln (F / K) / s + s / 2)) with ((g - lin n b (vneg b)) / s) by (rewrite lin_neg_r, Hdot; unfold g; field; lra).
    replace (1 * (ln (F / K) / s - s / 2)) with (g / s) by (unfold g; field; lra).
    eapply normals_ext; [|exact H]. intros z. cbv beta. rewrite lin_neg. unfold ind_le, payoff. pose proof (Hev z) as E. destruct Rle_dec as [L|L].
    + rewrite Rmax_left; [ring|]. apply E in L. lra.
    + rewrite Rmax_right; [ring|]. destruct (Rle_lt_dec K (F * tilt n b z)) as [A|A]; [apply E in A; contradiction|lra].
  - pose proof (normals_half_space n b b (- g) Hb) as H1. pose proof (half_plain n b (- g) Hb) as H2. fold s in H1, H2.
    pose proof (normals_minus n _ _ _ _ (normals_scal n _ _ K H2) (normals_scal n _ _ F H1)) as H.
    unfold black.
    replace (-1 * (ln (F / K) / s + s / 2)) with ((- g - lin n b b) / s) by (rewrite Hdot; unfold g; field; lra).
    replace (-1 * (ln (F / K) / s - s / 2)) with (- g / s) by (unfold g; field; lra).
    match goal with |- normals_expect _ _ (-1 * (?a - ?c)) => replace (-1 * (a - c)) with (c - a) by ring end.
    eapply normals_ext; [|exact H]. intros z. cbv beta. unfold ind_le, payoff. pose proof (Hev z) as E. destruct Rle_dec as [L|L].
    + destruct (Rle_lt_dec K (F * tilt n b z)) as [A|A].
      * rewrite Rmax_right by lra. pose proof (proj1 E A). assert (EQ : - lin n b z = g) by lra.
        assert (B : F * tilt n b z = K).
        { unfold tilt. rewrite S2. replace (lin n b z) with (- g) by lra. unfold g. replace (- (ln (F / K) - s * s / 2) - s * s / 2) with (- ln (F / K)) by field.
          rewrite <- ln_Rinv, exp_ln by (try apply Rinv_0_lt_compat; exact HFK). field. lra. }
        lra.
      * rewrite Rmax_left by lra. ring.
    + rewrite Rmax_right; [ring|]. assert (K <= F * tilt n b z) by (apply E; lra). lra.
Qed.

(** normals: symmetry and blocks *)
Lemma normals_sym n : forall F v, normals_expect n F v -> normals_expect n (fun z => F (fun i => - z i)) v.
Proof.
  induction n as [|n IH]; intros F v H.
  - intros z. apply H.
  - destruct H as [h [H1 H2]]. exists (fun z => h (fun i => - z i)). split; [|apply IH, H2].
    intros z. apply (gauss_expect_ext (fun y => F (Spec_Expect.upd (fun i => - z i) n (- y)))); [|apply (ge_refl (fun y => F (Spec_Expect.upd (fun i => - z i) n y))), H1].
    intros y. f_equal. apply functional_extensionality. intros i. unfold Spec_Expect.upd. destruct (Nat.eqb i n); reflexivity.
Qed.
Lemma normals_below k : forall n F v, normals_expect n F v -> normals_expect (k + n) (fun Z => F (fun i => Z (k + i)%nat)) v.
Proof.
  induction n as [|n IH]; intros F v H.
  - rewrite Nat.add_0_r. eapply normals_ext; [|apply (normals_const k v)]. intros z. cbv beta. symmetry. apply H.
  - destruct H as [h [H1 H2]]. rewrite Nat.add_succ_r. exists (fun Z => h (fun i => Z (k + i)%nat)). split; [|apply IH, H2].
    intros z. eapply gauss_expect_ext; [|apply (H1 (fun i => z (k + i)%nat))]. intros y. cbv beta. f_equal. apply functional_extensionality. intros i. unfold Spec_Expect.upd.
    destruct (Nat.eqb_spec (k + i) (k + n)), (Nat.eqb_spec i n); try reflexivity; lia.
Qed.
Lemma normals_above m : forall N F v, (forall z z', (forall i, (i < N)%nat -> z i = z' i) -> F z = F z') -> normals_expect N F v -> normals_expect (N + m) F v.
Proof.
  induction m as [|m IH]; intros N F v HL H; [now rewrite Nat.add_0_r|].
  rewrite Nat.add_succ_r. exists F. split; [|now apply IH].
  intros z. eapply gauss_expect_ext; [|apply (gauss_expect_const (F z))]. intros y. cbv beta. apply HL. intros i Hi. unfold Spec_Expect.upd.
  destruct (Nat.eqb_spec i (N + m)); [lia|reflexivity].
Qed.
(** path k of m simulated paths, n normals each *)
Definition local (n : nat) (F : (nat -> R) -> R) : Prop := forall z z', (forall i, (i < n)%nat -> z i = z' i) -> F z = F z'.
Lemma draw_expect n m k F v : local n F -> (k < m)%nat -> normals_expect n F v -> normals_expect (m * n) (fun Z => F (draw n Z k)) v.
Proof.
  intros HL Hk H. replace (m * n)%nat with (k * n + n + (m - k - 1) * n)%nat by nia.
  apply normals_above; [|apply (normals_below (k * n) n F v H)].
  intros z z' E. apply HL. intros i Hi. unfold draw. apply E. lia.
Qed.
Lemma normals_lsum {A} N (l : list A) (f : A -> (nat -> R) -> R) v : (forall a, In a l -> normals_expect N (f a) v) ->
  normals_expect N (fun Z => lsum (map (fun a => f a Z) l)) (INR (length l) * v).
Proof.
  induction l as [|a l IH]; intros H.
  - eapply normals_ext; [|apply (normals_const N (INR 0 * v))]. intros z. cbn. ring.
  - pose proof (normals_plus N _ _ _ _ (H a (or_introl eq_refl)) (IH (fun b Hb => H b (or_intror Hb)))) as G.
    replace (INR (length (a :: l)) * v) with (v + INR (length l) * v) by (cbn [length]; rewrite S_INR; ring).
    eapply normals_ext; [|exact G]. intros z. reflexivity.
Qed.
Lemma mean_expect n m anti F v : local n F -> (0 < m)%nat -> normals_expect n F v ->
  normals_expect (m * n) (fun Z => lmean (map F (mc_draws anti (draws n m Z)))) v.
Proof.
  intros HL Hm H. assert (Hp : 0 < INR m) by (apply lt_0_INR; exact Hm).
  assert (P : normals_expect (m * n) (fun Z => lsum (map F (draws n m Z))) (INR m * v)).
  { pose proof (normals_lsum (m * n) (seq 0 m) (fun k Z => F (draw n Z k)) v) as G. rewrite seq_length in G.
    eapply normals_ext; [|apply G]. { intros Z. unfold draws. now rewrite map_map. }
    intros k Hk. apply in_seq in Hk. apply draw_expect; [exact HL|lia|exact H]. }
  unfold lmean. destruct anti; cbn [mc_draws].
  - assert (Q : normals_expect (m * n) (fun Z => lsum (map F (map (fun z i => - z i) (draws n m Z)))) (INR m * v)).
    { pose proof (normals_lsum (m * n) (seq 0 m) (fun k Z => F (fun i => - draw n Z k i)) v) as G. rewrite seq_length in G.
      eapply normals_ext; [|apply G]. { intros Z. unfold draws. now rewrite !map_map. }
      intros k Hk. apply in_seq in Hk. apply (draw_expect n m k (fun z => F (fun i => - z i))); [|lia|apply normals_sym, H].
      intros z z' E. apply HL. intros i Hi. now rewrite E. }
    pose proof (normals_scal _ _ _ (/ (2 * INR m)) (normals_plus _ _ _ _ _ P Q)) as G.
    replace (/ (2 * INR m) * (INR m * v + INR m * v)) with v in G by (field; lra).
    eapply normals_ext; [|exact G]. intros Z. cbv beta. rewrite map_app, lsum_app, app_length, !map_length. unfold draws. rewrite !map_length, seq_length, plus_INR. match goal with |- _ * ?a = ?b / _ => change b with a; generalize a end. intros a. field. lra.
  - pose proof (normals_scal _ _ _ (/ INR m) P) as G. replace (/ INR m * (INR m * v)) with v in G by (field; lra).
    eapply normals_ext; [|exact G]. intros Z. cbv beta. unfold draws. rewrite !map_length, seq_length. field. lra.
Qed.

(** the simulated baskets are the model's baskets *)
Lemma mc_z_corr o chol T z i : mc_z o chol T z i = corr_bm (bn o) chol T z i.
Proof. unfold mc_z, corr_bm. rewrite Rmult_comm. f_equal. apply rsum_ext. intros. ring. Qed.
Lemma bsm_mc_B_eq o chol spot T z : ok_basket o chol -> bsm_mc_B o chol spot T z = ln_basket (bn o) (mk_fwd (bk_m o) spot T) (bk_w o) chol (ma_cov (bk_ma o)) T z.
Proof.
  intros [_ Hd]. unfold bsm_mc_B, ln_basket. apply rsum_ext. intros i Hi. rewrite mc_z_corr, Hd by exact Hi.
  replace (- / 2 * ma_sigma (bk_ma o) i ^ 2 * T + corr_bm (bn o) chol T z i) with (corr_bm (bn o) chol T z i - ma_sigma (bk_ma o) i ^ 2 * T / 2) by field. ring.
Qed.
Lemma norm_mc_B_eq o chol spot T z : norm_mc_B o chol spot T z = n_basket (bn o) (mk_fwd (bk_m o) spot T) (bk_w o) chol T z.
Proof. unfold norm_mc_B, n_basket. apply rsum_ext. intros i Hi. rewrite mc_z_corr. ring. Qed.
Lemma bv_pos o T : eps <= sqrt (basket_var o) * sqrt T -> 0 < basket_var o.
Proof.
  intros He. pose proof eps_pos. destruct (Rle_lt_dec (basket_var o) 0) as [Hle|]; [|assumption]. rewrite sqrt_neg_0 in He by exact Hle. lra.
Qed.
Lemma geo_mc_G_eq o chol spot T z : factor_of (bn o) chol (ma_cov (bk_ma o)) -> 0 <= T -> 0 <= basket_var o ->
  geo_mc_G o chol spot T z = basket_fwd o spot T * tilt (bn o) (wl (bn o) chol T (bk_w o)) z.
Proof.
  intros HF HT HV. unfold geo_mc_G, tilt. rewrite (wl_nrm (bn o) chol _ T HF HT). rewrite <- (wl_lin (bn o) chol T (bk_w o) z), pow2_sqrt by exact HV.
  do 2 f_equal. rewrite (rsum_ext (bn o) (fun i => mc_z o chol T z i * bk_w o i) (fun i => bk_w o i * corr_bm (bn o) chol T z i)) by (intros; rewrite mc_z_corr; ring).
  change (rsum (bn o) (fun j => rsum (bn o) (fun i => bk_w o i * ma_cov (bk_ma o) i j) * bk_w o j)) with (basket_var o). field.
Qed.
Lemma geo_exact o chol K spot T cp : call_or_put cp -> 0 < T -> factor_of (bn o) chol (ma_cov (bk_ma o)) -> eps <= sqrt (basket_var o) * sqrt T ->
  0 < basket_fwd o spot T -> 0 < K ->
  normals_expect (bn o) (fun z => mk_df (bk_m o) T * payoff cp K (geo_mc_G o chol spot T z)) (geo_basket_price o K spot T cp).
Proof.
  intros Hcp HT HF He Hf HK. pose proof (bv_pos o T He) as HV. unfold geo_basket_price. rewrite bsm_formula_black. apply normals_scal.
  assert (E : nrm2 (bn o) (wl (bn o) chol T (bk_w o)) = T * basket_var o) by (rewrite (wl_nrm (bn o) chol _ T HF) by lra; reflexivity).
  assert (Es : sigma_std (sqrt (basket_var o)) T = sqrt (nrm2 (bn o) (wl (bn o) chol T (bk_w o)))).
  { unfold sigma_std. rewrite Rmax_left by exact He. rewrite E, Rmult_comm. symmetry. rewrite (Rmult_comm T). rewrite sqrt_mult by lra. ring. }
  rewrite Es. eapply normals_ext; [|apply normals_black; [exact Hcp|exact Hf|exact HK|]].
  - intros z. cbv beta. rewrite geo_mc_G_eq by (try exact HF; lra). reflexivity.
  - rewrite E. apply Rmult_lt_0_compat; assumption.
Qed.

Lemma local_mono n F G : local n F -> (forall z, G z = F z) -> local n G.
Proof. intros H E z z' A. rewrite !E. now apply H. Qed.
Lemma local_B o chol spot T cp K : local (bn o) (fun z => payoff cp K (bsm_mc_B o chol spot T z)).
Proof.
  intros z z' E. f_equal. unfold bsm_mc_B. apply rsum_ext. intros i _. unfold mc_z.
  rewrite (rsum_ext (bn o) (fun j => z j * chol i j) (fun j => z' j * chol i j)) by (intros; now rewrite E). reflexivity.
Qed.
Lemma local_N o chol spot T cp K : local (bn o) (fun z => payoff cp K (norm_mc_B o chol spot T z)).
Proof.
  intros z z' E. f_equal. unfold norm_mc_B. apply rsum_ext. intros i _. unfold mc_z.
  rewrite (rsum_ext (bn o) (fun j => z j * chol i j) (fun j => z' j * chol i j)) by (intros; now rewrite E). reflexivity.
Qed.
Lemma local_G o chol spot T cp K : local (bn o) (fun z => payoff cp K (geo_mc_G o chol spot T z)).
Proof.
  intros z z' E. f_equal. unfold geo_mc_G. do 3 f_equal. apply rsum_ext. intros i _. unfold mc_z.
  rewrite (rsum_ext (bn o) (fun j => z j * chol i j) (fun j => z' j * chol i j)) by (intros; now rewrite E). reflexivity.
Qed.
Lemma mc_mean_expect n m anti df cp K (B : (nat -> R) -> R) p : 0 < df -> local n (fun z => payoff cp K (B z)) -> (0 < m)%nat ->
  normals_expect n (fun z => df * payoff cp K (B z)) p ->
  normals_expect (m * n) (fun Z => mc_mean df cp K (map B (mc_draws anti (draws n m Z)))) p.
Proof.
  intros Hd HL Hm H. unfold mc_mean.
  assert (H' : normals_expect n (fun z => payoff cp K (B z)) (p / df)).
  { pose proof (normals_scal n _ _ (/ df) H) as G. replace (/ df * p) with (p / df) in G by (field; lra). eapply normals_ext; [|exact G]. intros z. cbv beta. field. lra. }
  pose proof (normals_scal _ _ _ df (mean_expect n m anti _ _ HL Hm H')) as G. replace (df * (p / df)) with p in G by (field; lra).
  eapply normals_ext; [|exact G]. intros Z. cbv beta. f_equal. unfold lmean. rewrite !map_length. f_equal. rewrite map_map. reflexivity.
Qed.

Lemma fwd_idem m r q spot T : mk_fwd (mkMkt r q true) (mk_fwd m spot T) T = mk_fwd m spot T.
Proof. apply functional_extensionality. intros i. reflexivity. Qed.
Lemma geo_ctrl_fwd o spot T : basket_fwd (geo_ctrl o) (mk_fwd (bk_m o) spot T) T = basket_fwd o spot T.
Proof. unfold basket_fwd, geo_ctrl. cbn [bk_m bk_w bk_ma bn]. reflexivity. Qed.
Lemma norm_ctrl_factor o chol fwd : factor_of (bn o) chol (fun i j => ma_sigma (bk_ma o) j * ma_cor (bk_ma o) i j * ma_sigma (bk_ma o) i) ->
  factor_of (bn o) (fun i j => fwd i * chol i j) (ma_cov (bk_ma (norm_ctrl o fwd))).
Proof.
  intros H i j Hi Hj. cbn [norm_ctrl bk_ma ma_cov]. rewrite (rsum_ext _ _ (fun k => fwd i * fwd j * (chol i k * chol j k))) by (intros; ring).
  rewrite rsum_scal, H by assumption. ring.
Qed.
(** BsmBasketMc with either control variate is unbiased *)
Lemma bsm_mc_unbiased cv anti m o chol K spot T cp p : call_or_put cp -> 0 < T -> 0 < K -> (0 < m)%nat -> ok_basket o chol ->
  (forall i j, (i < bn o)%nat -> (j < bn o)%nat -> ma_cov (bk_ma o) i j = ma_sigma (bk_ma o) j * ma_cor (bk_ma o) i j * ma_sigma (bk_ma o) i) ->
  match cv with CvNone => True
  | CvGeo => eps <= sqrt (basket_var o) * sqrt T /\ 0 < basket_fwd o spot T
  | CvNorm => eps <= sqrt (basket_var (norm_ctrl o (mk_fwd (bk_m o) spot T))) * sqrt T end ->
  normals_expect (bn o) (fun z => mk_df (bk_m o) T * payoff cp K (ln_basket (bn o) (mk_fwd (bk_m o) spot T) (bk_w o) chol (ma_cov (bk_ma o)) T z)) p ->
  normals_expect (m * bn o) (fun Z => bsm_mc_price cv anti o chol (draws (bn o) m Z) K spot T cp) p.
Proof.
  intros Hcp HT HK Hm Hok Hcov Hcv Hp. pose proof (mk_df_pos (bk_m o) T) as HD.
  assert (HB : normals_expect (m * bn o) (fun Z => mc_mean (mk_df (bk_m o) T) cp K (map (bsm_mc_B o chol spot T) (mc_draws anti (draws (bn o) m Z)))) p).
  { apply mc_mean_expect; [exact HD|apply local_B|exact Hm|]. eapply normals_ext; [|exact Hp]. intros z. cbv beta. now rewrite bsm_mc_B_eq. }
  destruct cv; cbn [bsm_mc_price].
  - exact HB.
  - destruct Hcv as [He Hf]. set (fwd := mk_fwd (bk_m o) spot T).
    assert (HG : normals_expect (m * bn o) (fun Z => mc_mean (mk_df (bk_m o) T) cp K (map (geo_mc_G (geo_ctrl o) chol fwd T) (mc_draws anti (draws (bn o) m Z)))) (geo_basket_price (geo_ctrl o) K fwd T cp)).
    { apply mc_mean_expect; [exact HD|apply (local_G (geo_ctrl o))|exact Hm|].
      apply (geo_exact (geo_ctrl o) chol K fwd T cp Hcp HT (proj1 Hok) He); [unfold fwd; rewrite geo_ctrl_fwd; exact Hf|exact HK]. }
    pose proof (normals_minus _ _ _ _ _ HB (normals_minus _ _ _ _ _ HG (normals_const _ (geo_basket_price (geo_ctrl o) K fwd T cp)))) as G.
    match type of G with normals_expect _ _ ?v => replace v with p in G by ring end. exact G.
  - set (fwd := mk_fwd (bk_m o) spot T). set (oc := norm_ctrl o fwd).
    assert (HG : normals_expect (m * bn o) (fun Z => mc_mean (mk_df (bk_m o) T) cp K (map (norm_mc_B oc (fun i j => fwd i * chol i j) fwd T) (mc_draws anti (draws (bn o) m Z)))) (norm_basket_price oc K fwd T cp)).
    { apply mc_mean_expect; [exact HD|apply (local_N oc)|exact Hm|].
      assert (HF : factor_of (bn o) (fun i j => fwd i * chol i j) (ma_cov (bk_ma oc))).
      { apply norm_ctrl_factor. intros i j Hi Hj. rewrite <- Hcov by assumption. apply Hok; assumption. }
      pose proof (norm_basket_exact oc (fun i j => fwd i * chol i j) K fwd T cp Hcp HT HF Hcv) as G.
      eapply normals_ext; [|exact G]. intros z. cbv beta. rewrite norm_mc_B_eq. reflexivity. }
    pose proof (normals_minus _ _ _ _ _ HB (normals_minus _ _ _ _ _ HG (normals_const _ (norm_basket_price oc K fwd T cp)))) as G.
    match type of G with normals_expect _ _ ?v => replace v with p in G by ring end. exact G.
Qed.
(** one asset of unit weight: the geometric control removes all the noise *)
Lemma bsm_mc_single anti o chol zs K spot T cp : bn o = 1%nat -> bk_w o 0%nat = 1 -> 0 <= ma_sigma (bk_ma o) 0%nat -> ma_cov (bk_ma o) 0%nat 0%nat = ma_sigma (bk_ma o) 0%nat ^ 2 ->
  bsm_mc_price CvGeo anti o chol zs K spot T cp = mk_df (bk_m o) T * bsm_price_formula K (mk_fwd (bk_m o) spot T 0%nat) (ma_sigma (bk_ma o) 0%nat) T cp 0 0 true.
Proof.
  intros H1 Hw Hs Hd.
  assert (V : basket_var o = ma_sigma (bk_ma o) 0%nat ^ 2) by (unfold basket_var; rewrite H1; cbn [rsum]; rewrite Hw, Hd; ring).
  assert (E : forall z, geo_mc_G (geo_ctrl o) chol (mk_fwd (bk_m o) spot T) T z = bsm_mc_B o chol spot T z).
  { intros z. unfold geo_mc_G, bsm_mc_B. rewrite geo_ctrl_fwd. change (basket_var (geo_ctrl o)) with (basket_var o). change (bn (geo_ctrl o)) with (bn o).
    change (mc_z (geo_ctrl o) chol T z) with (mc_z o chol T z). change (bk_w (geo_ctrl o)) with (bk_w o).
    rewrite V, sqrt_pow2 by exact Hs. unfold basket_fwd. rewrite H1. cbn [rsum]. rewrite Hw, !Rplus_0_l, !Rmult_1_r. reflexivity. }
  unfold bsm_mc_price. cbv zeta. rewrite (map_ext _ _ E).
  unfold geo_basket_price. rewrite geo_ctrl_fwd. change (basket_var (geo_ctrl o)) with (basket_var o). rewrite V, sqrt_pow2 by exact Hs.
  assert (EF : basket_fwd o spot T = mk_fwd (bk_m o) spot T 0%nat) by (unfold basket_fwd; rewrite H1; cbn [rsum]; rewrite Hw; ring).
  rewrite EF. change (mk_df (bk_m (geo_ctrl o)) T) with (mk_df (bk_m o) T). ring.
Qed.
(** sample parity *)
Lemma mc_mean_parity df K B : B <> [] -> mc_mean df 1 K B - mc_mean df (-1) K B = df * (lmean B - K).
Proof.
  intros HB. unfold mc_mean, lmean. rewrite !map_length.
  assert (Hn : INR (length B) <> 0) by (apply not_0_INR; destruct B; [congruence|discriminate]).
  rewrite <- Rmult_minus_distr_l. f_equal.
  replace (lsum (map (fun b => Rmax (1 * (b - K)) 0) B) / INR (length B) - lsum (map (fun b => Rmax (-1 * (b - K)) 0) B) / INR (length B))
    with ((lsum (map (fun b => Rmax (1 * (b - K)) 0) B) - lsum (map (fun b => Rmax (-1 * (b - K)) 0) B)) / INR (length B)) by (field; exact Hn).
  rewrite <- lsum_map_minus. rewrite (lsum_map_ext _ (fun b => b - K)).
  2:{ intros b _. unfold Rmax. destruct (Rle_dec (1 * (b - K)) 0), (Rle_dec (-1 * (b - K)) 0); lra. }
  rewrite lsum_map_minus, lsum_map_const. rewrite map_id. field. exact Hn.
Qed.
Lemma nsvh_basket_parity o p K spot T : nsvh_basket_price o p K spot T 1 - nsvh_basket_price o p K spot T (-1) = mk_df (bk_m o) T * (basket_fwd o spot T - K).
Proof.
  unfold nsvh_basket_price. rewrite <- Rmult_minus_distr_l, nsvh1_parity. cbn [intr divr is_fwd]. f_equal.
  unfold DF, FWD. replace (- 0 * T) with 0 by ring. rewrite ?Rmult_0_r, ?Rmult_0_l, ?exp_0. try rewrite Ropp_0. rewrite ?exp_0. replace ((0 - 0) * T) with 0 by ring. rewrite ?exp_0. ring.
Qed.
