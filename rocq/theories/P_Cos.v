(** Proofs about the COS pricer. *)
From Coq Require Import Reals Lra Lia List.
From Coquelicot Require Import Coquelicot.
From Verif Require Import Base Sums M_Opt M_Mgf M_Cos Spec_Opt P_Bsm.
Import ListNotations.
Open Scope R_scope.

Lemma chi_is_integral u a c d : cos_chi u a c d = RInt (fun x => exp x * cos (u * (x - a))) c d.
Proof.
  rewrite (RInt_of_derive (fun x => (cos (u * (x - a)) * exp x + u * (sin (u * (x - a)) * exp x)) / (1 + u ^ 2))).
  - unfold cos_chi. field. nra.
  - intros x _. auto_derive; [exact I|]. Req. unfold Rminus. field. nra.
  - intros x _. apply ex_derive_continuous_R. auto_derive. exact I.
Qed.
Lemma psi_is_integral k u a c d : (k = 0%nat <-> u = 0) ->
  cos_psi k u a c d = RInt (fun x => cos (u * (x - a))) c d.
Proof.
  intros Hk. unfold cos_psi. destruct (Nat.eqb_spec k 0) as [->|Hn].
  - assert (u = 0) as -> by (now apply Hk).
    rewrite (RInt_ext _ (fun _ => 1)); [rewrite RInt_const_R; ring|]. intros x _. rewrite Rmult_0_l. apply cos_0.
  - assert (u <> 0) by (intros E; apply Hn; now apply Hk).
    rewrite (RInt_of_derive (fun x => sin (u * (x - a)) / u)).
    + field. exact H.
    + intros x _. auto_derive; [exact I|]. Req. unfold Rminus. field. exact H.
    + intros x _. apply ex_derive_continuous_R. auto_derive. exact I.
Qed.
Lemma cos_u_zero a b k : a < b -> (k = 0%nat <-> cos_u a b k = 0).
Proof.
  intros H. unfold cos_u. split; [intros ->; simpl; unfold Rdiv; ring|].
  intros E. destruct k as [|k]; [reflexivity|]. exfalso.
  assert (0 < INR (S k) * PI / (b - a)); [|lra].
  apply Rdiv_lt_0_compat; [|lra]. apply Rmult_lt_0_compat; [apply lt_0_INR; lia|apply PI_RGT_0].
Qed.

(** the truncated cosine series with the coefficients A_k *)
Definition cos_density (A : nat -> R) (n : nat) (a b x : R) : R :=
  2 / (b - a) * rsum n (fun k => A k * cos (cos_u a b k * (x - a))).

Lemma ex_cd A n a b c d : ex_RInt (cos_density A n a b) c d.
Proof.
  unfold cos_density. apply (ex_RInt_scal_R (fun x => rsum n (fun k => A k * cos (cos_u a b k * (x - a))))).
  apply (rsum_ex_RInt n (fun k x => A k * cos (cos_u a b k * (x - a)))). intros k _.
  apply ex_RInt_of_ex_derive. intros x _. auto_derive. exact I.
Qed.
Lemma ex_cd_exp A n a b c d : ex_RInt (fun x => exp x * cos_density A n a b x) c d.
Proof.
  apply (ex_RInt_ext (fun x => 2 / (b - a) * rsum n (fun k => A k * (exp x * cos (cos_u a b k * (x - a)))))).
  - intros x _. unfold cos_density. rewrite (rsum_ext n _ (fun k => exp x * (A k * cos (cos_u a b k * (x - a))))) by (intros; ring).
    rewrite rsum_scal. Req. ring.
  - apply (ex_RInt_scal_R (fun x => rsum n (fun k => A k * (exp x * cos (cos_u a b k * (x - a)))))).
    apply (rsum_ex_RInt n (fun k x => A k * (exp x * cos (cos_u a b k * (x - a))))). intros k _.
    apply ex_RInt_of_ex_derive. intros x _. auto_derive. exact I.
Qed.
Lemma RInt_cd A n a b c d : a < b ->
  RInt (cos_density A n a b) c d = rsum n (fun k => 2 / (b - a) * cos_psi k (cos_u a b k) a c d * A k).
Proof.
  intros H. unfold cos_density. rewrite (RInt_scal_R (fun x => rsum n (fun k => A k * cos (cos_u a b k * (x - a))))).
  2:{ apply (rsum_ex_RInt n (fun k x => A k * cos (cos_u a b k * (x - a)))). intros k _.
      apply ex_RInt_of_ex_derive. intros x _. auto_derive. exact I. }
  rewrite (rsum_RInt n (fun k x => A k * cos (cos_u a b k * (x - a)))).
  2:{ intros k _. apply ex_RInt_of_ex_derive. intros x _. auto_derive. exact I. }
  rewrite <- rsum_scal. apply rsum_ext. intros k _.
  rewrite (RInt_scal_R (fun x => cos (cos_u a b k * (x - a)))).
  2:{ apply ex_RInt_of_ex_derive. intros x _. auto_derive. exact I. }
  rewrite (psi_is_integral k) by now apply cos_u_zero. ring.
Qed.
Lemma RInt_cd_exp A n a b c d : a < b ->
  RInt (fun x => exp x * cos_density A n a b x) c d = rsum n (fun k => 2 / (b - a) * cos_chi (cos_u a b k) a c d * A k).
Proof.
  intros H.
  rewrite (RInt_ext _ (fun x => 2 / (b - a) * rsum n (fun k => A k * (exp x * cos (cos_u a b k * (x - a)))))).
  2:{ intros x _. unfold cos_density. rewrite (rsum_ext n (fun k => A k * (exp x * _)) (fun k => exp x * (A k * cos (cos_u a b k * (x - a))))) by (intros; ring).
      rewrite rsum_scal. Req. ring. }
  rewrite (RInt_scal_R (fun x => rsum n (fun k => A k * (exp x * cos (cos_u a b k * (x - a)))))).
  2:{ apply (rsum_ex_RInt n (fun k x => A k * (exp x * cos (cos_u a b k * (x - a))))). intros k _.
      apply ex_RInt_of_ex_derive. intros x _. auto_derive. exact I. }
  rewrite (rsum_RInt n (fun k x => A k * (exp x * cos (cos_u a b k * (x - a))))).
  2:{ intros k _. apply ex_RInt_of_ex_derive. intros x _. auto_derive. exact I. }
  rewrite <- rsum_scal. apply rsum_ext. intros k _.
  rewrite (RInt_scal_R (fun x => exp x * cos (cos_u a b k * (x - a)))).
  2:{ apply ex_RInt_of_ex_derive. intros x _. auto_derive. exact I. }
  rewrite chi_is_integral. ring.
Qed.
Lemma clip_range x a b : a <= b -> a <= clip x a b <= b.
Proof. intros H. unfold clip. split; [apply Rmin_glb; [apply Rmax_r|exact H]|apply Rmin_r]. Qed.
Lemma clip_in x a b : a <= x <= b -> clip x a b = x.
Proof. intros H. unfold clip. rewrite Rmax_left by lra. apply Rmin_left. lra. Qed.
Lemma clip_lo x a b : x <= a -> a <= b -> clip x a b = a.
Proof. intros H1 H2. unfold clip. rewrite Rmax_right by lra. apply Rmin_left. lra. Qed.
Lemma clip_hi x a b : b <= x -> a <= b -> clip x a b = b.
Proof. intros H1 H2. unfold clip. rewrite Rmax_left by lra. apply Rmin_right. lra. Qed.

Lemma is_RInt_eq (f : R -> R) a b u v : is_RInt f a b u -> u = v -> is_RInt f a b v.
Proof. now intros H <-. Qed.
(** payoff against any function integrable together with exp, split at the clipped log-strike *)
Lemma payoff_split_call (kk : R) (f : R -> R) a b : 0 < kk -> a < b -> (forall c d, ex_RInt f c d) -> (forall c d, ex_RInt (fun x => exp x * f x) c d) ->
  is_RInt (fun x => Rmax (exp x - kk) 0 * f x) a b
    (RInt (fun x => exp x * f x) (clip (ln kk) a b) b - kk * RInt f (clip (ln kk) a b) b).
Proof.
  intros Hk Hab Hf He. set (z := clip (ln kk) a b). pose proof (clip_range (ln kk) a b ltac:(lra)) as Hz. fold z in Hz.
  assert (E1 : is_RInt (fun x => Rmax (exp x - kk) 0 * f x) a z 0).
  { apply (is_RInt_ext (fun _ => 0)).
    - intros x Hx. rewrite Rmin_left, Rmax_right in Hx by lra.
      assert (x < ln kk). { unfold z, clip in Hx. destruct Hx as [H1 H2]. 
        assert (x < Rmax (ln kk) a) by (eapply Rlt_le_trans; [exact H2|apply Rmin_l]). unfold Rmax in H. destruct (Rle_dec (ln kk) a); lra. }
      assert (exp x < kk) by (rewrite <- (exp_ln kk Hk); now apply exp_increasing). rewrite Rmax_right by lra. Req. ring.
    - eapply is_RInt_eq; [apply (is_RInt_const (V := R_NormedModule))|]. unfold scal; simpl; unfold mult; simpl. ring. }
  assert (X2 : ex_RInt (fun x => exp x * f x - kk * f x) z b).
  { apply (ex_RInt_minus (V := R_NormedModule) (fun x => exp x * f x)); [apply He|apply (ex_RInt_scal_R f); apply Hf]. }
  assert (E2 : is_RInt (fun x => Rmax (exp x - kk) 0 * f x) z b (RInt (fun x => exp x * f x - kk * f x) z b)).
  { apply (is_RInt_ext (fun x => exp x * f x - kk * f x)).
    - intros x Hx. rewrite Rmin_left, Rmax_right in Hx by lra.
      assert (ln kk < x). { unfold z, clip in Hx. destruct Hx as [H1 H2].
        unfold Rmin in H1. destruct (Rle_dec (Rmax (ln kk) a) b); [|lra]. eapply Rle_lt_trans; [apply Rmax_l|exact H1]. }
      assert (kk < exp x) by (rewrite <- (exp_ln kk Hk) at 1; now apply exp_increasing). rewrite Rmax_left by lra. Req. ring.
    - apply (RInt_correct (V := R_CompleteNormedModule)). exact X2. }
  pose proof (is_RInt_Chasles (V := R_NormedModule) _ _ _ _ _ _ E1 E2) as E. 
  rewrite (RInt_minus_R (fun x => exp x * f x) (fun x => kk * f x)) in E by (apply He || (apply (ex_RInt_scal_R f); apply Hf)).
  rewrite RInt_scal_R in E by apply Hf. fold z. eapply is_RInt_eq; [exact E|]. unfold plus; simpl. ring.
Qed.
Lemma payoff_split_put (kk : R) (f : R -> R) a b : 0 < kk -> a < b -> (forall c d, ex_RInt f c d) -> (forall c d, ex_RInt (fun x => exp x * f x) c d) ->
  is_RInt (fun x => Rmax (kk - exp x) 0 * f x) a b
    (kk * RInt f a (clip (ln kk) a b) - RInt (fun x => exp x * f x) a (clip (ln kk) a b)).
Proof.
  intros Hk Hab Hf He. set (z := clip (ln kk) a b). pose proof (clip_range (ln kk) a b ltac:(lra)) as Hz. fold z in Hz.
  assert (E1 : is_RInt (fun x => Rmax (kk - exp x) 0 * f x) z b 0).
  { apply (is_RInt_ext (fun _ => 0)).
    - intros x Hx. rewrite Rmin_left, Rmax_right in Hx by lra.
      assert (ln kk < x). { unfold z, clip in Hx. destruct Hx as [H1 H2].
        unfold Rmin in H1. destruct (Rle_dec (Rmax (ln kk) a) b); [|lra]. eapply Rle_lt_trans; [apply Rmax_l|exact H1]. }
      assert (kk < exp x) by (rewrite <- (exp_ln kk Hk) at 1; now apply exp_increasing). rewrite Rmax_right by lra. Req. ring.
    - eapply is_RInt_eq; [apply (is_RInt_const (V := R_NormedModule))|]. unfold scal; simpl; unfold mult; simpl. ring. }
  assert (X2 : ex_RInt (fun x => kk * f x - exp x * f x) a z).
  { apply (ex_RInt_minus (V := R_NormedModule) (fun x => kk * f x)); [apply (ex_RInt_scal_R f); apply Hf|apply He]. }
  assert (E2 : is_RInt (fun x => Rmax (kk - exp x) 0 * f x) a z (RInt (fun x => kk * f x - exp x * f x) a z)).
  { apply (is_RInt_ext (fun x => kk * f x - exp x * f x)).
    - intros x Hx. rewrite Rmin_left, Rmax_right in Hx by lra.
      assert (x < ln kk). { unfold z, clip in Hx. destruct Hx as [H1 H2].
        assert (x < Rmax (ln kk) a) by (eapply Rlt_le_trans; [exact H2|apply Rmin_l]). unfold Rmax in H. destruct (Rle_dec (ln kk) a); lra. }
      assert (exp x < kk) by (rewrite <- (exp_ln kk Hk); now apply exp_increasing). rewrite Rmax_left by lra. Req. ring.
    - apply (RInt_correct (V := R_CompleteNormedModule)). exact X2. }
  pose proof (is_RInt_Chasles (V := R_NormedModule) _ _ _ _ _ _ E2 E1) as E. 
  rewrite (RInt_minus_R (fun x => kk * f x) (fun x => exp x * f x)) in E by (apply He || (apply (ex_RInt_scal_R f); apply Hf)).
  rewrite RInt_scal_R in E by apply Hf. fold z. eapply is_RInt_eq; [exact E|]. unfold plus; simpl. ring.
Qed.
From Verif Require Import Spec_Cos.
Lemma cd_series re im n a b x : cos_density (cos_A re im (cos_u a b) a) n a b x = cosine_series re im n a b x.
Proof.
  unfold cos_density, cosine_series. f_equal. apply rsum_ext. intros k _. unfold cos_A, cos_transform, freq, cos_u.
  destruct (Nat.eqb k 0); ring.
Qed.
Lemma ex_series re im n a b c d : ex_RInt (cosine_series re im n a b) c d.
Proof. apply (ex_RInt_ext (cos_density (cos_A re im (cos_u a b) a) n a b)); [intros; apply cd_series|apply ex_cd]. Qed.
Lemma ex_series_exp re im n a b c d : ex_RInt (fun x => exp x * cosine_series re im n a b x) c d.
Proof. apply (ex_RInt_ext (fun x => exp x * cos_density (cos_A re im (cos_u a b) a) n a b x)); [intros; now rewrite cd_series|apply ex_cd_exp]. Qed.
Lemma RInt_series re im n a b c d : a < b ->
  RInt (cosine_series re im n a b) c d = rsum n (fun k => 2 / (b - a) * cos_psi k (cos_u a b k) a c d * cos_A re im (cos_u a b) a k).
Proof. intros H. rewrite <- RInt_cd by exact H. apply RInt_ext. intros; symmetry; apply cd_series. Qed.
Lemma RInt_series_exp re im n a b c d : a < b ->
  RInt (fun x => exp x * cosine_series re im n a b x) c d = rsum n (fun k => 2 / (b - a) * cos_chi (cos_u a b k) a c d * cos_A re im (cos_u a b) a k).
Proof. intros H. rewrite <- RInt_cd_exp by exact H. apply RInt_ext. intros; now rewrite cd_series. Qed.

Lemma w_call_sum re im n a b kk z d :  a < b ->
  rsum n (fun k => 2 / (b - a) * (cos_chi (cos_u a b k) a z d - kk * cos_psi k (cos_u a b k) a z d) * cos_A re im (cos_u a b) a k) =
  RInt (fun x => exp x * cosine_series re im n a b x) z d - kk * RInt (cosine_series re im n a b) z d.
Proof.
  intros H. rewrite RInt_series_exp, RInt_series by exact H. rewrite <- rsum_scal, <- rsum_minus. apply rsum_ext. intros k _. ring.
Qed.
Lemma payoff_norm_call K F x : 0 < F -> F * Rmax (exp x - K / F) 0 = payoff 1 K (F * exp x).
Proof.
  intros H. unfold payoff. rewrite Rmult_1_l. replace (F * exp x - K) with (F * (exp x - K / F)) by (field; lra).
  rewrite <- (Rmult_0_r F) at 2. rewrite RmaxRmult by lra. reflexivity.
Qed.
Lemma payoff_norm_put K F x : 0 < F -> F * Rmax (K / F - exp x) 0 = payoff (-1) K (F * exp x).
Proof.
  intros H. unfold payoff. replace (-1 * (F * exp x - K)) with (F * (K / F - exp x)) by (field; lra).
  rewrite <- (Rmult_0_r F) at 2. rewrite RmaxRmult by lra. reflexivity.
Qed.
Lemma cos_price_integral m re im n a b K S T cp : a < b -> 0 < K -> 0 < S -> call_or_put cp ->
  cos_price m re im n a b K S T cp =
  DF (intr m) T * RInt (fun x => payoff cp K (FWD (intr m) (divr m) (is_fwd m) S T * exp x) * cosine_series re im n a b x) a b.
Proof.
  intros Hab HK HS Hcp. unfold cos_price. rewrite fdd_eq. unfold mD. fold (mF m S T).
  assert (HF : 0 < mF m S T) by now apply mF_pos. set (F := mF m S T) in *. set (p := cosine_series re im n a b).
  assert (Hk : 0 < K / F) by (apply Rdiv_lt_0_compat; assumption).
  assert (Xf : forall c d, ex_RInt p c d) by (intros; apply ex_series).
  assert (Xe : forall c d, ex_RInt (fun x => exp x * p x) c d) by (intros; apply ex_series_exp).
  rewrite Rmult_assoc. f_equal. unfold cos_w. destruct Hcp as [-> | ->].
  - destruct (Rlt_dec 0 1); [|lra]. rewrite w_call_sum by exact Hab. fold p.
    symmetry. apply is_RInt_unique. apply (is_RInt_ext (fun x => F * (Rmax (exp x - K / F) 0 * p x))).
    + intros x _. rewrite <- payoff_norm_call by exact HF. Req. ring.
    + apply (is_RInt_scal (V := R_NormedModule)). apply payoff_split_call; assumption.
  - destruct (Rlt_dec 0 (-1)); [lra|].
    rewrite (rsum_ext n _ (fun k => - (2 / (b - a) * (cos_chi (cos_u a b k) a a (clip (ln (K / F)) a b)
       - K / F * cos_psi k (cos_u a b k) a a (clip (ln (K / F)) a b)) * cos_A re im (cos_u a b) a k))) by (intros; ring).
    rewrite (rsum_ext n _ (fun k => (-1) * (2 / (b - a) * (cos_chi (cos_u a b k) a a (clip (ln (K / F)) a b)
       - K / F * cos_psi k (cos_u a b k) a a (clip (ln (K / F)) a b)) * cos_A re im (cos_u a b) a k))) by (intros; ring).
    rewrite rsum_scal, w_call_sum by exact Hab. fold p.
    symmetry. apply is_RInt_unique. apply (is_RInt_ext (fun x => F * (Rmax (K / F - exp x) 0 * p x))).
    + intros x _. rewrite <- payoff_norm_put by exact HF. Req. ring.
    + apply (is_RInt_scal (V := R_NormedModule)). eapply is_RInt_eq; [apply payoff_split_put; assumption|]. Req. ring.
Qed.
(** orthogonality of the cosine system *)
Lemma sin_kpi (j : Z) : sin (IZR j * PI) = 0.
Proof. apply sin_eq_0_1. exists j. reflexivity. Qed.
Lemma freq_0 a b : freq a b 0 = 0.
Proof. unfold freq. simpl. unfold Rdiv. ring. Qed.
Lemma freq_width a b k : a < b -> freq a b k * (b - a) = IZR (Z.of_nat k) * PI.
Proof. intros H. unfold freq. rewrite INR_IZR_INZ. field. lra. Qed.
Lemma freq_inj a b j k : a < b -> freq a b j = freq a b k -> j = k.
Proof.
  intros H E. assert (freq a b j * (b - a) = freq a b k * (b - a)) by now rewrite E. rewrite !freq_width in H0 by exact H.
  apply Rmult_eq_reg_r in H0; [|pose proof PI_RGT_0; lra]. apply eq_IZR in H0. lia.
Qed.
Lemma freq_nonneg a b k : a < b -> 0 <= freq a b k.
Proof. intros H. unfold freq. apply Rmult_le_pos; [apply Rmult_le_pos; [apply pos_INR|pose proof PI_RGT_0; lra]|left; apply Rinv_0_lt_compat; lra]. Qed.
Lemma freq_pos a b k : a < b -> (0 < k)%nat -> 0 < freq a b k.
Proof. intros H Hk. unfold freq. apply Rdiv_lt_0_compat; [apply Rmult_lt_0_compat; [now apply lt_0_INR|apply PI_RGT_0]|lra]. Qed.
Lemma cos_orth a b j k : a < b ->
  RInt (fun x => cos (freq a b k * (x - a)) * cos (freq a b j * (x - a))) a b
  = kd j k * (if Nat.eqb k 0 then b - a else (b - a) / 2).
Proof.
  intros H. Req. destruct (Nat.eq_dec j k) as [->|Hn].
  - rewrite kd_refl. destruct (Nat.eqb_spec k 0) as [->|Hk].
    + rewrite (RInt_ext _ (fun _ => 1)); [rewrite RInt_const_R; Req; ring|]. intros x _. rewrite freq_0, Rmult_0_l, cos_0. Req. ring.
    + pose proof (freq_pos a b k H ltac:(lia)) as Hu. pose proof (freq_width a b k H) as Hw. set (u := freq a b k) in *.
      rewrite (RInt_of_derive (fun x => x / 2 + sin (2 * u * (x - a)) / (4 * u))).
      * replace (2 * u * (b - a)) with (IZR (2 * Z.of_nat k) * PI) by (rewrite mult_IZR, Rmult_assoc, <- Hw; Req; ring).
        rewrite sin_kpi. replace (2 * u * (a - a)) with 0 by ring. rewrite sin_0. field. lra.
      * intros x _. auto_derive; [exact I|]. Req.
        replace (2 * u * (x + - a)) with (2 * (u * (x - a))) by ring. rewrite cos_2a_cos. unfold Rminus. field. lra.
      * intros x _. apply ex_derive_continuous_R. auto_derive. exact I.
  - rewrite kd_neq by exact Hn. rewrite Rmult_0_l.
    assert (Hd : freq a b k - freq a b j <> 0). { intros E. apply Hn. symmetry. apply (freq_inj a b); [exact H|lra]. }
    assert (Hs : freq a b k + freq a b j <> 0).
    { pose proof (freq_nonneg a b k H). pose proof (freq_nonneg a b j H). intros E. apply Hd. lra. }
    pose proof (freq_width a b k H) as Hw. pose proof (freq_width a b j H) as Hv.
    set (u := freq a b k) in *. set (v := freq a b j) in *.
    rewrite (RInt_of_derive (fun x => sin ((u - v) * (x - a)) / (2 * (u - v)) + sin ((u + v) * (x - a)) / (2 * (u + v)))).
    + replace ((u - v) * (b - a)) with (IZR (Z.of_nat k - Z.of_nat j) * PI) by (rewrite minus_IZR, Rmult_minus_distr_r, <- Hw, <- Hv; ring).
      replace ((u + v) * (b - a)) with (IZR (Z.of_nat k + Z.of_nat j) * PI) by (rewrite plus_IZR, Rmult_plus_distr_r, <- Hw, <- Hv; ring).
      rewrite !sin_kpi, !Rminus_eq_0, !Rmult_0_r, sin_0. unfold Rdiv. ring.
    + intros x _. auto_derive; [exact I|]. Req.
      replace ((u - v) * (x + - a)) with (u * (x - a) - v * (x - a)) by ring.
      replace ((u + v) * (x + - a)) with (u * (x - a) + v * (x - a)) by ring. rewrite cos_plus, cos_minus. field. split; assumption.
    + intros x _. apply ex_derive_continuous_R. auto_derive. exact I.
Qed.
Lemma series_cos_moment re im n a b j : a < b -> (j < n)%nat ->
  is_RInt (fun x => cosine_series re im n a b x * cos (freq a b j * (x - a))) a b (cos_transform re im a (freq a b j)).
Proof.
  intros H Hj.
  set (c k := 2 / (b - a) * ((if Nat.eqb k 0 then / 2 else 1) * cos_transform re im a (freq a b k))).
  assert (X : forall k, (k < n)%nat -> ex_RInt (fun x => c k * (cos (freq a b k * (x - a)) * cos (freq a b j * (x - a)))) a b).
  { intros k _. apply ex_RInt_of_ex_derive. intros x _. auto_derive. exact I. }
  apply (is_RInt_ext (fun x => rsum n (fun k => c k * (cos (freq a b k * (x - a)) * cos (freq a b j * (x - a)))))).
  { intros x _. unfold cosine_series, c. rewrite <- rsum_scal, <- rsum_scal_r. apply rsum_ext. intros; ring. }
  eapply is_RInt_eq. { apply (RInt_correct (V := R_CompleteNormedModule)). apply rsum_ex_RInt. exact X. }
  rewrite rsum_RInt by exact X.
  rewrite (rsum_ext n _ (fun k => kd j k * (c k * (if Nat.eqb k 0 then b - a else (b - a) / 2)))).
  2:{ intros k Hk. rewrite (RInt_scal_R (fun x => cos (freq a b k * (x - a)) * cos (freq a b j * (x - a)))), cos_orth by
       (try exact H; apply ex_RInt_of_ex_derive; intros x _; auto_derive; exact I). ring. }
  rewrite rsum_kd by exact Hj. unfold c. destruct (Nat.eqb j 0); Req; field; lra.
Qed.
Lemma series_mass re im n a b : a < b -> (0 < n)%nat -> RInt (cosine_series re im n a b) a b = re 0.
Proof.
  intros H Hn. pose proof (series_cos_moment re im n a b 0 H Hn) as E. apply (is_RInt_unique (V := R_CompleteNormedModule)) in E.
  replace (re 0) with (cos_transform re im a (freq a b 0)).
  - rewrite <- E. apply RInt_ext. intros x _. rewrite freq_0, Rmult_0_l, cos_0. Req. ring.
  - unfold cos_transform. rewrite freq_0, Rmult_0_l, cos_0, sin_0. ring.
Qed.
(** if re + i im is the characteristic function of a density supported on [a,b], the series coefficients are its cosine moments *)
Lemma cf_cos_moment (f re im : R -> R) a b u :
  ex_RInt (fun x => f x * cos (u * x)) a b -> ex_RInt (fun x => f x * sin (u * x)) a b ->
  re u = RInt (fun x => f x * cos (u * x)) a b -> im u = RInt (fun x => f x * sin (u * x)) a b ->
  cos_transform re im a u = RInt (fun x => f x * cos (u * (x - a))) a b.
Proof.
  intros X1 X2 E1 E2. unfold cos_transform. rewrite E1, E2.
  rewrite (RInt_ext (fun x => f x * cos (u * (x - a))) (fun x => cos (u * a) * (f x * cos (u * x)) + sin (u * a) * (f x * sin (u * x)))).
  2:{ intros x _. replace (u * (x - a)) with (u * x - u * a) by ring. rewrite cos_minus. Req. ring. }
  rewrite RInt_plus_R; [|apply (ex_RInt_scal_R (fun x => f x * cos (u * x))); exact X1|apply (ex_RInt_scal_R (fun x => f x * sin (u * x))); exact X2].
  rewrite (RInt_scal_R (fun x => f x * cos (u * x))), (RInt_scal_R (fun x => f x * sin (u * x))) by assumption. ring.
Qed.
Lemma cos_parity m re im n a b K S T : a < b -> (0 < n)%nat -> 0 < K -> 0 < S ->
  cos_price m re im n a b K S T 1 - cos_price m re im n a b K S T (-1) =
  DF (intr m) T * (FWD (intr m) (divr m) (is_fwd m) S T * RInt (fun x => exp x * cosine_series re im n a b x) a b - K * re 0).
Proof.
  intros Hab Hn HK HS. unfold cos_price. rewrite fdd_eq. fold (mF m S T). unfold mD.
  assert (HF : 0 < mF m S T) by now apply mF_pos. set (F := mF m S T) in *.
  unfold cos_w. destruct (Rlt_dec 0 1); [|lra]. destruct (Rlt_dec 0 (-1)); [lra|].
  set (z := clip (ln (K / F)) a b). rewrite w_call_sum by exact Hab.
  rewrite (rsum_ext n _ (fun k => (-1) * (2 / (b - a) * (cos_chi (cos_u a b k) a a z
       - K / F * cos_psi k (cos_u a b k) a a z) * cos_A re im (cos_u a b) a k))) by (intros; ring).
  rewrite rsum_scal, w_call_sum by exact Hab.
  rewrite <- (series_mass re im n a b Hab Hn).
  rewrite <- (RInt_Chasles_R (cosine_series re im n a b) a z b) by apply ex_series.
  rewrite <- (RInt_Chasles_R (fun x => exp x * cosine_series re im n a b x) a z b) by apply ex_series_exp.
  field. lra.
Qed.
Lemma lefloch_parity m re im n a b K S T :
  lefloch_price m re im n a b K S T 1 - lefloch_price m re im n a b K S T (-1) =
  DF (intr m) T * (FWD (intr m) (divr m) (is_fwd m) S T - K).
Proof.
  unfold lefloch_price. rewrite fdd_eq. fold (mF m S T). unfold mD.
  destruct (Rlt_dec 0 1); [|lra]. destruct (Rlt_dec 0 (-1)); [lra|]. ring.
Qed.
(** inside the interval the Le Floc'h put is the Fang-Oosterlee put *)
Lemma lefloch_put_inside m re im n a b K S T : 0 < S -> a <= ln (K / FWD (intr m) (divr m) (is_fwd m) S T) <= b ->
  lefloch_price m re im n a b K S T (-1) = cos_price m re im n a b K S T (-1).
Proof.
  intros HS H. unfold lefloch_price, cos_price. rewrite fdd_eq. fold (mF m S T) in *.
  unfold cos_w. destruct (Rlt_dec 0 (-1)); [lra|]. destruct (Rlt_dec _ a); [lra|]. destruct (Rlt_dec b _); [lra|]. reflexivity.
Qed.
Lemma lefloch_outside m re im n a b K S T : a < b ->
  let F := FWD (intr m) (divr m) (is_fwd m) S T in
  (ln (K / F) < a -> lefloch_price m re im n a b K S T (-1) = 0) /\
  (b < ln (K / F) -> lefloch_price m re im n a b K S T (-1) = DF (intr m) T * payoff (-1) K F).
Proof.
  intros H F. unfold lefloch_price. rewrite fdd_eq. fold (mF m S T). change (mF m S T) with F. unfold mD.
  destruct (Rlt_dec 0 (-1)); [lra|]. split; intros H1.
  - destruct (Rlt_dec _ a); [reflexivity|contradiction].
  - destruct (Rlt_dec _ a); [lra|]. destruct (Rlt_dec b _); [|contradiction]. unfold payoff. f_equal. f_equal. ring.
Qed.

(** ** HestonCos *)
Lemma hcos_width m p L c1 K S T : let '(a, b) := hcos_range m p L c1 K S T in b - a = 2 * (hcos_L L T * hcos_sigma_h p).
Proof. unfold hcos_range. destruct (fwd_df_divf m S T) as [[f d] q]. ring. Qed.
Lemma hcos_eq_cos m p L c1 re im n K S T cp : hcos_price m p L c1 re im n K S T cp =
  cos_price m re im n (fst (hcos_range m p L c1 K S T)) (snd (hcos_range m p L c1 K S T)) K S T cp.
Proof.
  pose proof (hcos_width m p L c1 K S T) as W. unfold hcos_price, cos_price. destruct (hcos_range m p L c1 K S T) as [a b]. simpl.
  destruct (fwd_df_divf m S T) as [[f d] q]. f_equal. apply rsum_ext. intros k _. unfold cos_w, cos_A, cos_u. rewrite W. reflexivity.
Qed.
Lemma hcos_mean_excluded m p L c1 K S T : 0 < K -> 0 < S ->
  let F := FWD (intr m) (divr m) (is_fwd m) S T in
  let r := hcos_range m p L c1 K S T in
  (fst r <= c1 <= snd r <-> Rabs (ln (F / K)) <= hcos_L L T * hcos_sigma_h p).
Proof.
  intros HK HS F r. unfold r, hcos_range. rewrite fdd_eq. fold (mF m S T). change (mF m S T) with F. simpl.
  split; intros H.
  - apply Rabs_le. lra.
  - apply Rabs_le_between in H. lra.
Qed.
(** far strikes: the put is exactly zero although the discounted intrinsic value is large *)
Lemma hcos_call_zero m p L c1 re im n K S T : 0 < K -> 0 < S ->
  0 < hcos_L L T * hcos_sigma_h p ->
  let F := FWD (intr m) (divr m) (is_fwd m) S T in
  c1 + hcos_L L T * hcos_sigma_h p <= 2 * ln (K / F) ->
  hcos_price m p L c1 re im n K S T 1 = 0.
Proof.
  intros HK HS Hw F H. rewrite hcos_eq_cos. pose proof (hcos_width m p L c1 K S T) as W.
  assert (Eb : snd (hcos_range m p L c1 K S T) = - ln (K / F) + c1 + hcos_L L T * hcos_sigma_h p).
  { unfold hcos_range. rewrite fdd_eq. fold (mF m S T). change (mF m S T) with F. simpl.
    assert (0 < F) by (now apply (mF_pos m S T)).
    replace (F / K) with (/ (K / F)) by (field; lra). rewrite ln_Rinv by (apply Rdiv_lt_0_compat; lra). ring. }
  destruct (hcos_range m p L c1 K S T) as [a b]. simpl in *.
  unfold cos_price. rewrite fdd_eq. fold (mF m S T). change (mF m S T) with F. unfold cos_w.
  destruct (Rlt_dec 0 1); [|lra]. rewrite clip_hi by lra. rewrite w_call_sum by lra.
  rewrite !RInt_point. unfold zero; simpl. ring.
Qed.

(** ** Chernoff truncation *)
Lemma lmin_le l m x : lmin l = Some m -> In x l -> m <= x.
Proof.
  revert m. induction l as [|y l IH]; intros m H Hx; [contradiction|]. simpl in H. destruct (lmin l) as [t|] eqn:E.
  - injection H as <-. destruct Hx as [->|Hx]; [apply Rmin_l|]. eapply Rle_trans; [apply Rmin_r|]. now apply IH.
  - injection H as <-. destruct Hx as [->|Hx]; [lra|]. destruct l; [contradiction|]. simpl in E. destruct (lmin l); discriminate.
Qed.
Lemma lmin_in l m : lmin l = Some m -> In m l.
Proof.
  revert m. induction l as [|y l IH]; intros m H; simpl in H; [discriminate|]. destruct (lmin l) as [t|] eqn:E.
  - injection H as <-. unfold Rmin. destruct (Rle_dec y t); [now left|right; now apply IH].
  - injection H as <-. now left.
Qed.
Lemma filter_map_in {A B} (f : A -> option B) l b : In b (filter_map f l) -> exists a, In a l /\ f a = Some b.
Proof.
  induction l as [|a l IH]; simpl; [contradiction|]. destruct (f a) eqn:E; intros H.
  - destruct H as [->|H]; [exists a; auto|]. destruct (IH H) as (a' & H1 & H2). exists a'; auto.
  - destruct (IH H) as (a' & H1 & H2). exists a'; auto.
Qed.
Lemma chernoff f mgf s M c d : subdensity f -> mgf_bounds f mgf -> mgf s = Some M -> c <= d ->
  (forall x, c < x < d -> 1 <= exp (s * x - s * c)) -> RInt f c d <= exp (ln M - s * c).
Proof.
  intros (H0 & Hf & _) HM E Hcd Hx. destruct (HM s M E) as (HMp & X & HB).
  rewrite exp_sub, exp_ln by exact HMp.
  apply (Rmult_le_reg_r (exp (s * c))); [apply exp_pos|].
  replace (M / exp (s * c) * exp (s * c)) with M by (field; apply Rgt_not_eq, exp_pos).
  eapply Rle_trans; [|apply (HB c d Hcd)].
  rewrite Rmult_comm, <- (RInt_scal_R f) by apply Hf.
  apply RInt_le; [exact Hcd|apply (ex_RInt_scal_R f); apply Hf|apply X|].
  intros x Hx'. apply Rmult_le_compat_r; [apply H0|]. specialize (Hx x Hx').
  replace (s * x) with ((s * x - s * c) + s * c) by ring. rewrite exp_plus. pose proof (exp_pos (s * c)). nra.
Qed.
Lemma chernoff_left f mgf s M c d : subdensity f -> mgf_bounds f mgf -> mgf (- s) = Some M -> c <= d -> 0 < s ->
  RInt f c d <= exp (ln M + s * d).
Proof.
  intros (H0 & Hf & _) HM E Hcd Hs. destruct (HM (- s) M E) as (HMp & X & HB).
  rewrite exp_plus, exp_ln by exact HMp.
  apply (Rmult_le_reg_r (exp (- s * d))); [apply exp_pos|].
  replace (M * exp (s * d) * exp (- s * d)) with M.
  2:{ rewrite Rmult_assoc, <- exp_plus. replace (s * d + - s * d) with 0 by ring. rewrite exp_0. ring. }
  eapply Rle_trans; [|apply (HB c d Hcd)].
  rewrite Rmult_comm, <- (RInt_scal_R f) by apply Hf.
  apply RInt_le; [exact Hcd|apply (ex_RInt_scal_R f); apply Hf|apply X|].
  intros x Hx. apply Rmult_le_compat_r; [apply H0|]. apply exp_le. nra.
Qed.
Lemma junike_upper_bound f mgf grid c1 w d : subdensity f -> mgf_bounds f mgf -> (forall s, In s grid -> 0 < s) -> c1 + w <= d ->
  RInt f (c1 + w) d <= junike_upper mgf grid c1 w.
Proof.
  intros Hf HM Hg Hd. unfold junike_upper. destruct (lmin _) as [e|] eqn:E.
  - apply lmin_in, filter_map_in in E. destruct E as (s & Hs & E). destruct (mgf s) as [M|] eqn:EM; [|discriminate].
    injection E as <-. apply (chernoff f mgf s M); auto. intros x Hx. rewrite <- exp_0. apply exp_le. specialize (Hg s Hs). nra.
  - destruct Hf as (_ & _ & H). now apply H.
Qed.
Lemma junike_lower_bound f mgf grid c1 w c : subdensity f -> mgf_bounds f mgf -> (forall s, In s grid -> 0 < s) -> c <= c1 - w ->
  RInt f c (c1 - w) <= junike_lower mgf grid c1 w.
Proof.
  intros Hf HM Hg Hd. unfold junike_lower. destruct (lmin _) as [e|] eqn:E.
  - apply lmin_in, filter_map_in in E. destruct E as (s & Hs & E). destruct (mgf (- s)) as [M|] eqn:EM; [|discriminate].
    injection E as <-. apply (chernoff_left f mgf s M); auto.
  - destruct Hf as (_ & _ & H). now apply H.
Qed.
Lemma junike_loop_true mgf grid ej c1 c2 c4 n : forall L w0 w, junike_loop mgf grid ej c1 c2 c4 n L w0 = (w, true) ->
  junike_upper mgf grid c1 w + junike_lower mgf grid c1 w <= ej.
Proof.
  induction n as [|n IH]; intros L w0 w H; simpl in H; [discriminate|]. destruct (Rle_dec _ ej) as [Hle|Hn].
  - injection H as <-. eapply Rle_trans; [apply Rmax_r|exact Hle].
  - now apply IH in H.
Qed.
Lemma junike_loop_range mgf grid ej c1 c2 c4 n : forall L w0, 12 <= L <= 30 ->
  let s := sqrt (Rabs c2 + sqrt (Rabs c4)) in
  (n = 0%nat /\ fst (junike_loop mgf grid ej c1 c2 c4 n L w0) = w0) \/
  12 * s <= fst (junike_loop mgf grid ej c1 c2 c4 n L w0) <= 30 * s.
Proof.
  induction n as [|n IH]; intros L w0 HL s; [left; auto|]. right. simpl.
  assert (Hs : 0 <= s) by apply sqrt_pos. fold s.
  destruct (Rle_dec _ ej).
  - simpl. split; nra.
  - assert (HL2 : 12 <= Rmin (L * (125 / 100)) 30 <= 30) by (split; [apply Rmin_glb; lra|apply Rmin_r]).
    destruct (IH (Rmin (L * (125 / 100)) 30) (L * s) HL2) as [[-> E]|E]; [|exact E]. fold s in E. rewrite E. split; nra.
Qed.
Lemma junike_tails f mgf grid ej c1 c2 c4 w c d : subdensity f -> mgf_bounds f mgf -> (forall s, In s grid -> 0 < s) ->
  junike_half_width mgf grid ej c1 c2 c4 = (w, true) -> c <= c1 - w -> c1 + w <= d ->
  RInt f c (c1 - w) + RInt f (c1 + w) d <= ej.
Proof.
  intros Hf HM Hg H Hc Hd. apply junike_loop_true in H.
  pose proof (junike_upper_bound f mgf grid c1 w d Hf HM Hg Hd). pose proof (junike_lower_bound f mgf grid c1 w c Hf HM Hg Hc). lra.
Qed.
Lemma junike_range mgf grid ej c1 c2 c4 :
  let s := sqrt (Rabs c2 + sqrt (Rabs c4)) in
  12 * s <= fst (junike_half_width mgf grid ej c1 c2 c4) <= 30 * s.
Proof.
  intros s. unfold junike_half_width. destruct (junike_loop_range mgf grid ej c1 c2 c4 15 12 0 ltac:(lra)) as [[E _]|E]; [discriminate|exact E].
Qed.
(** the standard normal density meets the hypotheses *)
From Verif Require Import Gauss P_Expect.
Lemma npdf_subdensity : subdensity npdf.
Proof.
  split; [intros x; left; apply npdf_pos|]. split; [apply ex_RInt_npdf|]. intros c d Hcd.
  rewrite (RInt_of_derive Phi).
  - pose proof (Phi_bounds c). pose proof (Phi_bounds d). lra.
  - intros x _. apply is_derive_Phi.
  - intros x _. eapply continuous_ext; [|apply (cont_npdf_shift 0)]. intros z. simpl. now rewrite Rminus_0_r.
Qed.
Lemma npdf_mgf_bounds : mgf_bounds npdf (fun s => Some (exp (s * s / 2))).
Proof.
  intros s M [= <-]. split; [apply exp_pos|].
  assert (E : forall x, exp (s * s / 2) * npdf (x - s) = exp (s * x) * npdf x).
  { intros x. rewrite <- npdf_shift, <- Rmult_assoc, <- exp_plus. f_equal. f_equal. field. }
  assert (X : forall c d, ex_RInt (fun x => npdf (x - s)) c d).
  { intros c d. apply ex_RInt_cont_all. intros x. apply cont_npdf_shift. }
  split.
  - intros c d. apply (ex_RInt_ext (fun x => exp (s * s / 2) * npdf (x - s))); [intros; apply E|]. apply (ex_RInt_scal_R (fun x => npdf (x - s))), X.
  - intros c d Hcd. rewrite <- (RInt_ext (fun x => exp (s * s / 2) * npdf (x - s))) by (intros; apply E).
    rewrite (RInt_scal_R (fun x => npdf (x - s))) by apply X.
    rewrite (RInt_of_derive (fun z => Phi (z - s))); [|intros; apply is_derive_Phi_shift|intros; apply cont_npdf_shift].
    pose proof (exp_pos (s * s / 2)). pose proof (Phi_bounds (c - s)). pose proof (Phi_bounds (d - s)). nra.
Qed.
Lemma junike_normal_run : junike_half_width (fun s => Some (exp (s * s / 2))) [1 / 2; 1] (1 / 10) 0 1 0 = (12, true).
Proof.
  unfold junike_half_width. cbn [junike_loop].
  replace (12 * sqrt (Rabs 1 + sqrt (Rabs 0))) with 12.
  2:{ rewrite Rabs_R0, Rabs_R1, sqrt_0, Rplus_0_r, sqrt_1. ring. }
  destruct (Rle_dec _ (1 / 10)) as [|H]; [reflexivity|exfalso; apply H].
  unfold junike_upper, junike_lower; simpl. rewrite !ln_exp.
  assert (B : forall x, x <= -11 -> exp x <= 1 / 20).
  { intros x Hx. apply Rle_trans with (exp (- (11))); [apply exp_le; lra|]. rewrite exp_Ropp.
    assert (20 <= exp 11). { replace 11 with (1 + 10) by ring. rewrite exp_plus. pose proof (exp_ineq1 1 ltac:(lra)). pose proof (exp_ineq1 10 ltac:(lra)). nra. }
    apply Rle_trans with (/ 20); [apply Rinv_le_contravar; lra|lra]. }
  apply Rmax_lub; [lra|].
  assert (U : exp (Rmin (1 / 2 * (1 / 2) / 2 - 1 / 2 * (0 + 12)) (1 * 1 / 2 - 1 * (0 + 12))) <= 1 / 20).
  { apply B. eapply Rle_trans; [apply Rmin_r|]. lra. }
  assert (L : exp (Rmin (- (1 / 2) * - (1 / 2) / 2 + 1 / 2 * (0 - 12)) (- (1) * - (1) / 2 + 1 * (0 - 12))) <= 1 / 20).
  { apply B. eapply Rle_trans; [apply Rmin_r|]. lra. }
  match goal with |- ?a + ?b <= _ => assert (a <= 1 / 20) by exact U; assert (b <= 1 / 20) by exact L end. lra.
Qed.
