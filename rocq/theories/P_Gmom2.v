(** All moments of a standard normal variable; symmetrisation. *)
From Coq Require Import Reals Lra Psatz Lia.
From Coquelicot Require Import Coquelicot.
From Verif Require Import Base Gauss P_Black Spec_Expect P_Expect P_Gmom Spec_Dist.
Open Scope R_scope.

Lemma npdf_scale b : npdf b = npdf (b / sqrt 2) * exp (- (b * b) / 4).
Proof.
  unfold npdf. assert (S : sqrt 2 * sqrt 2 = 2) by (apply sqrt_sqrt; lra). assert (P : sqrt 2 <> 0) by (intro E; rewrite E in S; lra).
  replace (- (b / sqrt 2 * (b / sqrt 2)) / 2) with (- (b * b) / 4).
  2:{ replace (b / sqrt 2 * (b / sqrt 2)) with (b * b / (sqrt 2 * sqrt 2)) by (field; exact P). rewrite S. field. }
  replace (- (b * b) / 2) with (- (b * b) / 4 + - (b * b) / 4) by field. rewrite exp_plus. field.
  apply Rgt_not_eq. apply sqrt_lt_R0. pose proof PI_RGT_0. lra.
Qed.
Lemma npdf_le1 b : npdf b <= 1.
Proof.
  unfold npdf. assert (S1 : 1 <= sqrt (2 * PI)). { rewrite <- sqrt_1 at 1. apply sqrt_le_1_alt. pose proof PI2_3_2. lra. }
  apply (Rmult_le_reg_r (sqrt (2 * PI))); [lra|]. unfold Rdiv at 1. rewrite Rmult_assoc, Rinv_l by lra. rewrite Rmult_1_r, Rmult_1_l.
  apply Rle_trans with 1; [|exact S1]. rewrite <- exp_0. apply exp_le. nra.
Qed.
Lemma pow_exp_lim (k : nat) : is_lim (fun b => b ^ k * exp (- (b * b) / 4)) p_infty 0.
Proof.
  apply (is_lim_le_le_loc (fun _ => 0) (fun b => (8 * INR (S k)) ^ S k * / b)).
  - exists 1. intros b Hb. assert (E := exp_pos (- (b * b) / 4)). split.
    { apply Rmult_le_pos; [apply pow_le; lra|lra]. }
    assert (IK : 0 < INR (S k)) by (apply lt_0_INR; lia).
    assert (G : (1 + b * b / 4 / INR (S k)) ^ S k <= exp (b * b / 4)) by (apply exp_ge_pow; [nra|lia]).
    assert (G2 : (b / (8 * INR (S k))) ^ S k <= exp (b * b / 4)).
    { eapply Rle_trans; [|exact G]. apply pow_incr. assert (0 < / INR (S k)) by now apply Rinv_0_lt_compat.
      unfold Rdiv. rewrite Rinv_mult. set (i := / INR (S k)) in *. clearbody i. assert (0 < b * i) by nra. assert (b * i <= b * (b * i)) by nra.
      split; [replace (b * (/ 8 * i)) with (/ 8 * (b * i)) by ring; lra|].
      replace (b * b * / 4 * i) with (/ 4 * (b * (b * i))) by ring. replace (b * (/ 8 * i)) with (/ 8 * (b * i)) by ring. lra. }
    replace (- (b * b) / 4) with (- (b * b / 4)) by field. rewrite exp_Ropp.
    assert (Hp : 0 < (b / (8 * INR (S k))) ^ S k). { apply pow_lt. apply Rdiv_lt_0_compat; lra. }
    apply Rle_trans with (b ^ k * / ((b / (8 * INR (S k))) ^ S k)).
    { apply Rmult_le_compat_l; [apply pow_le; lra|]. apply Rinv_le_contravar; assumption. }
    right. unfold Rdiv. rewrite Rpow_mult_distr, pow_inv. cbn [pow]. assert (0 < b ^ k) by (apply pow_lt; lra).
    assert (0 < (8 * INR (S k)) ^ k) by (apply pow_lt; lra). field. repeat split; lra.
  - apply is_lim_const.
  - replace (Finite 0) with (Rbar_mult ((8 * INR (S k)) ^ S k) (Rbar_inv p_infty)). 2:{ cbn [Rbar_inv]. cbn. f_equal. ring. }
    apply is_lim_scal_l. apply is_lim_inv; [apply is_lim_id|easy].
Qed.
Lemma pow_npdf_lim_all (k : nat) : is_lim (fun b => b ^ k * npdf b) p_infty 0.
Proof.
  apply (is_lim_le_le_loc (fun _ => 0) (fun b => b ^ k * exp (- (b * b) / 4))).
  - exists 0. intros b Hb. assert (0 <= b ^ k) by (apply pow_le; lra). pose proof (npdf_pos b). pose proof (exp_pos (- (b * b) / 4)). split; [nra|].
    apply Rmult_le_compat_l; [assumption|]. rewrite npdf_scale. rewrite <- (Rmult_1_l (exp _)) at 2. apply Rmult_le_compat_r; [lra|]. apply npdf_le1.
  - apply is_lim_const.
  - apply pow_exp_lim.
Qed.
Lemma gauss_zSS (k : nat) v : gauss_expect (fun z => z ^ k) v -> gauss_expect (fun z => z ^ (S (S k))) (INR (S k) * v).
Proof.
  intros [H1 H2].
  assert (D : forall x, is_derive (fun z => z ^ (S k) * npdf z) x (INR (S k) * (x ^ k * npdf x) - x ^ (S (S k)) * npdf x)).
  { intros x. eapply is_derive_eq.
    - apply (is_derive_mult (fun z => z ^ S k) npdf x (INR (S k) * x ^ k) (- x * npdf x)); [|apply is_derive_npdf|intros; apply Rmult_comm].
      eapply is_derive_eq. { apply (is_derive_pow (fun z => z) (S k) x 1). apply (is_derive_id x). } cbn [pred]. Req. ring.
    - Req. cbn [pow plus mult]. unfold plus, mult; cbn. ring. }
  assert (CI : forall b, is_RInt (fun z => z ^ (S (S k)) * npdf z) (- b) b
     (INR (S k) * RInt (fun z => z ^ k * npdf z) (- b) b - (b ^ (S k) * npdf b - (- b) ^ (S k) * npdf (- b)))).
  { intros b.
    apply (is_RInt_ext (fun z => minus (INR (S k) * (z ^ k * npdf z)) (INR (S k) * (z ^ k * npdf z) - z ^ (S (S k)) * npdf z))).
    { intros x _. Req. unfold minus, plus, opp; cbn. ring. }
    apply (is_RInt_minus (V := R_NormedModule)).
    - apply (is_RInt_scal (V := R_NormedModule) (fun z => z ^ k * npdf z)). apply (RInt_correct (V := R_CompleteNormedModule)). apply H1.
    - apply (is_RInt_derive (fun z => z ^ (S k) * npdf z)); intros; [apply D|].
      apply (continuous_ext (fun z => minus (scal (INR (S k)) (z ^ k * npdf z)) (z ^ (S (S k)) * npdf z))). { intros; reflexivity. }
      apply (continuous_minus (V := R_NormedModule)); [|apply cont_pow_npdf].
      apply (continuous_scal_r (V := R_NormedModule) (INR (S k)) (fun z => z ^ k * npdf z)). apply cont_pow_npdf. }
  apply (gauss_expect_of _ 0 (fun b => INR (S k) * RInt (fun z => z ^ k * npdf z) (- b) b - (b ^ (S k) * npdf b - (- b) ^ (S k) * npdf (- b)))).
  - intros b. eexists. apply CI.
  - intros b _. apply CI.
  - replace (Finite (INR (S k) * v)) with (Finite (INR (S k) * v - (0 - (-1) ^ S k * 0))) by (f_equal; ring).
    apply (is_lim_minus' _ _ p_infty (INR (S k) * v) (0 - (-1) ^ S k * 0)). { apply (is_lim_scal_l _ (INR (S k)) p_infty v). exact H2. }
    apply (is_lim_minus' _ _ p_infty 0 ((-1) ^ S k * 0)). { apply pow_npdf_lim_all. }
    apply (is_lim_ext (fun b => (-1) ^ S k * (b ^ S k * npdf b))).
    { intros b. rewrite npdf_even. replace (- b) with (-1 * b) by ring. rewrite Rpow_mult_distr. ring. }
    apply (is_lim_scal_l _ ((-1) ^ S k) p_infty 0). apply pow_npdf_lim_all.
Qed.
Lemma gauss_even_moment (k : nat) : gauss_expect (fun z => z ^ (2 * k)) (odd_product k).
Proof.
  induction k as [|k IH]. { exact gauss_z0. }
  replace (2 * S k)%nat with (S (S (2 * k))) by lia. cbn [odd_product].
  replace (odd_product k * (2 * INR k + 1)) with (INR (S (2 * k)) * odd_product k). 2:{ rewrite S_INR, mult_INR. cbn [INR]. ring. }
  now apply gauss_zSS.
Qed.
(** only the even part matters *)
Lemma gauss_sym (f : R -> R) v : (forall x, continuous f x) -> gauss_expect (fun z => (f z + f (- z)) / 2) v -> gauss_expect f v.
Proof.
  intros HC [_ L].
  assert (C : forall x, continuous (fun z => f z * npdf z) x) by (intros x; apply (continuous_mult f npdf); [apply HC|apply cont_npdf]).
  assert (C' : forall x, continuous (fun z => f (- z) * npdf z) x).
  { intros x. apply (continuous_mult (fun z => f (- z)) npdf); [|apply cont_npdf]. apply (continuous_comp Ropp f); [|apply HC].
    apply ex_derive_continuous_R. auto_derive. trivial. }
  assert (I : forall b, ex_RInt (fun z => f z * npdf z) (- b) b) by (intros b; now apply ex_RInt_cont_all).
  assert (I' : forall b, ex_RInt (fun z => f (- z) * npdf z) (- b) b) by (intros b; now apply ex_RInt_cont_all).
  split. { exact I. }
  eapply is_lim_ext; [|exact L]. intros b. cbv beta.
  change gauss_density with npdf.
  assert (E : RInt (fun z => f (- z) * npdf z) (- b) b = RInt (fun z => f z * npdf z) (- b) b).
  { pose proof (RInt_comp_lin (V := R_CompleteNormedModule) (fun z => f z * npdf z) (-1) 0 (- b) b) as H.
    replace (-1 * - b + 0) with b in H by ring. replace (-1 * b + 0) with (- b) in H by ring.
    assert (X : ex_RInt (V := R_CompleteNormedModule) (fun z => f z * npdf z) b (- b)) by (apply ex_RInt_swap; apply I). specialize (H X).
    pose proof (opp_RInt_swap (V := R_CompleteNormedModule) (fun z => f z * npdf z) (- b) b (I b)) as HS. rewrite <- HS in H.
    assert (H2 : RInt (fun y => scal (-1) (f (-1 * y + 0) * npdf (-1 * y + 0))) (- b) b = RInt (fun z => -1 * (f (- z) * npdf z)) (- b) b).
    { apply RInt_ext. intros x _. unfold scal; cbn; unfold mult; cbn. replace (-1 * x + 0) with (- x) by ring. now rewrite npdf_even. }
    assert (H' := eq_trans (eq_sym H2) H). clear H. rename H' into H. pose proof (RInt_scal (V := R_CompleteNormedModule) (fun z => f (- z) * npdf z) (- b) b (-1) (I' b)) as H3.
    unfold scal in H3; cbn in H3; unfold mult in H3; cbn in H3. unfold opp in H; cbn in H. rewrite H3 in H. Req. revert H. unfold opp; cbn. intros H. match type of H with _ * ?u = - ?v => set (A := u) in *; set (B := v) in * end. apply (Rmult_eq_reg_l (-1)); [|lra]. rewrite H. ring. }
  transitivity (/ 2 * (RInt (fun z => f z * npdf z) (- b) b + RInt (fun z => f (- z) * npdf z) (- b) b)).
  2:{ rewrite E. lra. }
  rewrite <- (RInt_plus (V := R_CompleteNormedModule)) by first [apply I|apply I'].
  rewrite <- (RInt_scal (V := R_CompleteNormedModule)).
  2:{ apply (ex_RInt_plus (V := R_NormedModule)); [apply I|apply I']. }
  apply RInt_ext. intros x _. unfold scal, plus; cbn; unfold mult; cbn. field.
Qed.
