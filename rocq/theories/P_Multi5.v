(** Baskets and spreads driven by one Brownian motion: exercise boundary, price, root finder. *)
From Coq Require Import Reals Lra Lia Psatz List Arith Bool.
From Coquelicot Require Import Coquelicot.
From Verif Require Import Base Gauss Sums Spec_Opt Spec_Expect Spec_Multi M_Opt M_Params M_Fd M_Sabr M_Multi Spec_Multi2 P_Black P_Bsm P_Norm P_Expect P_KlLaw P_Sabr2 P_Conv P_Conv2 P_Multi P_Multi2 P_Multi3.
Import ListNotations.
Open Scope R_scope.

(** exercise rule of a boundary, possibly infinite: 1 when the call is exercised *)
Lemma exercised_range x z : 0 <= exercised x z <= 1.
Proof. destruct x; cbn [exercised]; try lra. unfold when_le. destruct Rle_dec; lra. Qed.
Lemma when_ind x y : when_le x y = ind_le x y. Proof. reflexivity. Qed.

  Lemma ge_le2 f g u v : (forall z, f z <= g z) -> gauss_expect f u -> gauss_expect g v -> u <= v.
  Proof. intros H A B. eapply ge_le; eassumption. Qed.
  Lemma ge_rsum k (f : nat -> R -> R) v : (forall i, (i < k)%nat -> gauss_expect (f i) (v i)) -> gauss_expect (fun z => rsum k (fun i => f i z)) (rsum k v).
  Proof.
    induction k as [|k IH]; intros H; cbn [rsum]; [apply gauss_expect_const|].
    apply (gauss_expect_plus (fun z => rsum k (fun i => f i z)) (f k)); [apply IH; intros; apply H; lia|apply H; lia].
  Qed.

Section Price.
  Variables (o : bsk) (spot : vec) (T K : R).
  Let n := bn o.
  Let fwd := mk_fwd (bk_m o) spot T.
  Let s := fun i => ma_sigma (bk_ma o) i * sqrt T.
  Let df := mk_df (bk_m o) T.
  Let B := one_factor_basket n fwd (bk_w o) s.
  Let fac := bm1_fac o spot T.
  Lemma bm1_ysum z : ysum n fac s z = B z.
  Proof using.
    unfold ysum, B, one_factor_basket. apply rsum_ext. intros i _. unfold fac, bm1_fac, mv_v. fold fwd. unfold s.
    transitivity (bk_w o i * (fwd i * (exp (- (ma_sigma (bk_ma o) i * sqrt T) ^ 2 / 2) * exp (ma_sigma (bk_ma o) i * sqrt T * z)))); [ring|].
    rewrite <- exp_plus. do 3 f_equal. field.
  Qed.
  Lemma one_term i (x : xval) : gauss_expect (fun z => exp (s i * z - s i ^ 2 / 2) * exercised x z) (PhiX 1 x (s i)).
  Proof using.
    destruct x as [| |x]; cbn [exercised PhiX].
    - destruct (Rlt_dec 0 1); [|lra]. destruct (ind_half (s i) 0) as [A1 A2].
      pose proof (gauss_expect_scal _ _ (exp (- (s i ^ 2 / 2))) (gauss_mgf (s i))) as G. rewrite <- exp_plus in G.
      replace (- (s i ^ 2 / 2) + s i * s i / 2) with 0 in G by field. rewrite exp_0 in G.
      eapply gauss_expect_ext; [|exact G]. intros z. cbv beta. rewrite Rmult_1_r, <- exp_plus. f_equal. ring.
    - destruct (Rlt_dec 0 1); [|lra]. eapply gauss_expect_ext; [|apply (gauss_expect_const 0)]. intros z. cbv beta. ring.
    - pose proof (proj2 (ind_half (s i) x)) as H. replace (1 * - x + 1 * s i) with (s i - x) by ring.
      eapply gauss_expect_ext; [|exact H]. intros z. cbv beta. unfold when_le, ind_le. replace (s i ^ 2) with (s i * s i) by ring. reflexivity.
  Qed.
  Lemma one_const (x : xval) : gauss_expect (exercised x) (PhiX 1 x 0).
  Proof using.
    destruct x as [| |x]; cbn [exercised PhiX].
    - destruct (Rlt_dec 0 1); [|lra]. apply (gauss_expect_ext (fun _ => 1)); [reflexivity|apply gauss_expect_const].
    - destruct (Rlt_dec 0 1); [|lra]. apply (gauss_expect_ext (fun _ => 0)); [reflexivity|apply gauss_expect_const].
    - pose proof (proj2 (ind_half 0 x)) as H. replace (1 * - x + 1 * 0) with (0 - x) by ring.
      eapply gauss_expect_ext; [|exact H]. intros z. cbv beta. unfold exercised, when_le, ind_le. replace (0 * z - 0 * 0 / 2) with 0 by field. rewrite exp_0. ring.
  Qed.
  Lemma PhiX_sum x c : PhiX 1 x c + PhiX (-1) x c = 1.
  Proof using.
    destruct x as [| |x]; cbn [PhiX].
    - destruct (Rlt_dec 0 1); [|lra]. destruct (Rlt_dec 0 (-1)); lra.
    - destruct (Rlt_dec 0 1); [|lra]. destruct (Rlt_dec 0 (-1)); lra.
    - replace (-1 * - x + -1 * c) with (- (1 * - x + 1 * c)) by ring. rewrite Phi_sym. ring.
  Qed.
  Lemma B_mean : gauss_expect B (basket_fwd o spot T).
  Proof using.
    apply (ge_rsum n (fun i z => bk_w o i * (fwd i * exp (s i * z - s i ^ 2 / 2)))). intros i _.
    pose proof (gauss_expect_scal _ _ (bk_w o i * fwd i) (one_term i XNeg)) as H. cbn [exercised PhiX] in H. destruct (Rlt_dec 0 1) in H; [|lra].
    replace (bk_w o i * fwd i * 1) with (mk_fwd (bk_m o) spot T i * bk_w o i) in H by (fold fwd; ring).
    eapply gauss_expect_ext; [|exact H]. intros z. cbv beta. ring.
  Qed.
  Lemma bm1_eq x cp : bm1_price o x K spot T cp = (rsum n (fun i => mv_v o fwd i * PhiX cp x (s i)) + - K * PhiX cp x 0) * (cp * df).
  Proof using. unfold bm1_price. cbv zeta. fold n fwd df. unfold s. ring. Qed.
  Lemma bm1_call x : gauss_expect (fun z => df * ((B z - K) * exercised x z)) (bm1_price o x K spot T 1).
  Proof using.
    rewrite bm1_eq, Rmult_1_l, Rmult_comm. apply gauss_expect_scal.
    assert (H1 : gauss_expect (fun z => B z * exercised x z) (rsum n (fun i => mv_v o fwd i * PhiX 1 x (s i)))).
    { eapply gauss_expect_ext; [|apply (ge_rsum n (fun i z => mv_v o fwd i * (exp (s i * z - s i ^ 2 / 2) * exercised x z)))].
      - intros z. cbv beta. unfold B, one_factor_basket. rewrite <- rsum_scal_r. apply rsum_ext. intros i _. unfold mv_v. ring.
      - intros i _. apply gauss_expect_scal, one_term. }
    pose proof (gauss_expect_plus _ _ _ _ H1 (gauss_expect_scal _ _ (- K) (one_const x))) as H.
    eapply gauss_expect_ext; [|exact H]. intros z. cbv beta. ring.
  Qed.
  Lemma bm1_parity x : bm1_price o x K spot T 1 - bm1_price o x K spot T (-1) = df * (basket_fwd o spot T - K).
  Proof using.
    rewrite !bm1_eq.
    rewrite (rsum_ext n (fun i => mv_v o fwd i * PhiX (-1) x (s i)) (fun i => mv_v o fwd i - mv_v o fwd i * PhiX 1 x (s i))).
    2:{ intros i _. pose proof (PhiX_sum x (s i)). replace (PhiX (-1) x (s i)) with (1 - PhiX 1 x (s i)) by lra. ring. }
    rewrite rsum_minus.
    pose proof (PhiX_sum x 0). replace (PhiX (-1) x 0) with (1 - PhiX 1 x 0) by lra. change (basket_fwd o spot T) with (rsum n (mv_v o fwd)). ring.
  Qed.
  Lemma bm1_put x : gauss_expect (fun z => df * ((K - B z) * (1 - exercised x z))) (bm1_price o x K spot T (-1)).
  Proof using.
    replace (bm1_price o x K spot T (-1)) with (bm1_price o x K spot T 1 + df * (K + - 1 * basket_fwd o spot T)) by (pose proof (bm1_parity x); lra).
    pose proof (gauss_expect_plus _ _ _ _ (bm1_call x) (gauss_expect_scal _ _ df (gauss_expect_plus _ _ _ _ (gauss_expect_const K) (gauss_expect_scal _ _ (-1) B_mean)))) as H.
    eapply gauss_expect_ext; [|exact H]. intros z. cbv beta. ring.
  Qed.
  (** never above the true price *)
  Lemma bm1_lower x cp p : call_or_put cp -> gauss_expect (fun z => df * payoff cp K (B z)) p -> bm1_price o x K spot T cp <= p.
  Proof using.
    intros Hcp Hp. pose proof (mk_df_pos (bk_m o) T) as D. fold df in D. destruct Hcp as [->| ->].
    - refine (ge_le2 _ _ _ _ _ (bm1_call x) Hp). intros z. cbv beta. apply Rmult_le_compat_l; [lra|].
      rewrite <- (Rmult_1_l (B z - K)). apply payoff_ge; [now left|apply exercised_range].
    - refine (ge_le2 _ _ _ _ _ (bm1_put x) Hp). intros z. cbv beta. apply Rmult_le_compat_l; [lra|].
      replace (K - B z) with (-1 * (B z - K)) by ring. apply payoff_ge; [now right|]. pose proof (exercised_range x z). lra.
  Qed.
  Hypothesis Hmon : forall i, (i < n)%nat -> 0 <= fac i * s i.
  Lemma B_incr x y : x <= y -> B x <= B y.
  Proof using Hmon.
    intros Hxy. rewrite <- !bm1_ysum. apply rsum_le. intros i Hi. specialize (Hmon i Hi).
    destruct (Rle_lt_dec 0 (s i)) as [Hs|Hs].
    - destruct (Req_dec (s i) 0) as [E|E]; [rewrite E, !Rmult_0_l; lra|].
      assert (0 <= fac i) by nra. apply Rmult_le_compat_l; [assumption|]. apply exp_le. nra.
    - assert (fac i <= 0) by nra. assert (exp (s i * y) <= exp (s i * x)) by (apply exp_le; nra). nra.
  Qed.
  (** the error is at most the discounted residual at the boundary used *)
  Lemma bm1_error x cp p : call_or_put cp -> gauss_expect (fun z => df * payoff cp K (B z)) p -> p - bm1_price o (XFin x) K spot T cp <= df * Rabs (B x - K).
  Proof using Hmon.
    intros Hcp Hp. pose proof (mk_df_pos (bk_m o) T) as D. fold df in D.
    assert (HB : forall z, (x <= z -> B x <= B z) /\ (z <= x -> B z <= B x)) by (intros z; split; intros; now apply B_incr).
    pose proof (Rle_abs (B x - K)). pose proof (Rle_abs (- (B x - K))) as Hn. rewrite Rabs_Ropp in Hn. pose proof (Rabs_pos (B x - K)).
    assert (H' : p <= bm1_price o (XFin x) K spot T cp + df * Rabs (B x - K)); [|lra].
    destruct Hcp as [->| ->].
    - refine (ge_le2 _ _ _ _ _ Hp (gauss_expect_plus _ _ _ _ (bm1_call (XFin x)) (gauss_expect_const (df * Rabs (B x - K))))).
      intros z. cbv beta. rewrite <- Rmult_plus_distr_l. apply Rmult_le_compat_l; [lra|]. cbn [exercised]. unfold payoff, when_le. destruct (HB z) as [H1 H2].
      destruct Rle_dec as [L|L]; [specialize (H1 L)|specialize (H2 ltac:(lra))]; apply Rmax_lub; lra.
    - refine (ge_le2 _ _ _ _ _ Hp (gauss_expect_plus _ _ _ _ (bm1_put (XFin x)) (gauss_expect_const (df * Rabs (B x - K))))).
      intros z. cbv beta. rewrite <- Rmult_plus_distr_l. apply Rmult_le_compat_l; [lra|]. cbn [exercised]. unfold payoff, when_le. destruct (HB z) as [H1 H2].
      destruct Rle_dec as [L|L]; [specialize (H1 L)|specialize (H2 ltac:(lra))]; apply Rmax_lub; lra.
  Qed.
  (** exact at the root *)
  Lemma bm1_exact x cp : call_or_put cp -> B x = K -> gauss_expect (fun z => df * payoff cp K (B z)) (bm1_price o (XFin x) K spot T cp).
  Proof using Hmon.
    intros Hcp E.
    assert (HB : forall z, (x <= z -> B x <= B z) /\ (z <= x -> B z <= B x)) by (intros z; split; intros; now apply B_incr).
    destruct Hcp as [->| ->].
    - eapply gauss_expect_ext; [|apply bm1_call]. intros z. cbv beta. f_equal. cbn [exercised]. unfold payoff, when_le. destruct (HB z) as [H1 H2].
      destruct Rle_dec as [L|L]; [specialize (H1 L); rewrite Rmax_left by lra|specialize (H2 ltac:(lra)); rewrite Rmax_right by lra]; ring.
    - eapply gauss_expect_ext; [|apply bm1_put]. intros z. cbv beta. f_equal. cbn [exercised]. unfold payoff, when_le. destruct (HB z) as [H1 H2].
      destruct Rle_dec as [L|L]; [specialize (H1 L); rewrite Rmax_right by lra|specialize (H2 ltac:(lra)); rewrite Rmax_left by lra]; ring.
  Qed.
  (** strikes declared out of range at +-9 standard deviations *)
  Hypothesis Hpos : forall i, (i < n)%nat -> 0 <= fac i.
  Lemma B_nonneg z : 0 <= B z.
  Proof using Hpos. rewrite <- bm1_ysum. apply rsum_nonneg. intros i Hi. apply Rmult_le_pos; [apply Hpos, Hi|left; apply exp_pos]. Qed.
  Lemma bm1_far_low cp p : call_or_put cp -> 0 <= K -> 0 <= root_lo n fac s K -> gauss_expect (fun z => df * payoff cp K (B z)) p ->
    0 <= p - bm1_price o XNeg K spot T cp <= df * (K * Phi (- (9))).
  Proof using Hmon Hpos.
    intros Hcp HK Hlo Hp. pose proof (mk_df_pos (bk_m o) T) as D. fold df in D. pose proof (bm1_lower XNeg cp p Hcp Hp) as L.
    assert (HB9 : K <= B (- (9))).
    { rewrite <- bm1_ysum. unfold root_lo in Hlo. rewrite (rsum_ext n (fun i => fac i / exp (9 * s i)) (fun i => fac i * exp (s i * - (9)))) in Hlo; [unfold ysum; lra|].
      intros i _. unfold Rdiv. rewrite <- exp_Ropp. do 2 f_equal. ring. }
    split; [lra|]. assert (HP : forall z, K - B z <= K * (1 - when_le (- (9)) z)).
    { intros z. unfold when_le. destruct Rle_dec as [Hz|Hz]; [pose proof (B_incr _ _ Hz); lra|pose proof (B_nonneg z); lra]. }
    assert (HT9 : gauss_expect (fun z => df * (K * (1 - when_le (- (9)) z))) (df * (K * Phi (- (9))))).
    { apply gauss_expect_scal, gauss_expect_scal. pose proof (gauss_expect_plus _ _ _ _ (gauss_expect_const 1) (gauss_expect_scal _ _ (-1) (one_const (XFin (- (9)))))) as G.
      cbn [exercised PhiX] in G. replace (Phi (- (9))) with (1 + -1 * Phi (1 * - - (9) + 1 * 0)).
      2:{ replace (1 * - - (9) + 1 * 0) with 9 by ring. pose proof (Phi_sym 9). lra. }
      eapply gauss_expect_ext; [|exact G]. intros z. cbv beta. ring. }
    enough (H' : p <= bm1_price o XNeg K spot T cp + df * (K * Phi (- (9)))) by lra.
    destruct Hcp as [->| ->].
    - refine (ge_le2 _ _ _ _ _ Hp (gauss_expect_plus _ _ _ _ (bm1_call XNeg) HT9)). intros z. cbv beta. rewrite <- Rmult_plus_distr_l. apply Rmult_le_compat_l; [lra|].
      cbn [exercised]. specialize (HP z). unfold payoff. apply Rmax_lub; [|lra]. assert (0 <= K * (1 - when_le (- (9)) z)); [|lra]. apply Rmult_le_pos; [lra|]. unfold when_le; destruct Rle_dec; lra.
    - refine (ge_le2 _ _ _ _ _ Hp (gauss_expect_plus _ _ _ _ (bm1_put XNeg) HT9)). intros z. cbv beta. rewrite <- Rmult_plus_distr_l. apply Rmult_le_compat_l; [lra|].
      cbn [exercised]. specialize (HP z). unfold payoff. assert (0 <= K * (1 - when_le (- (9)) z)). { apply Rmult_le_pos; [lra|]. unfold when_le; destruct Rle_dec; lra. }
      apply Rmax_lub; lra.
  Qed.
  Lemma bm1_far_high cp p : call_or_put cp -> 0 <= K -> root_hi n fac s K <= 0 -> gauss_expect (fun z => df * payoff cp K (B z)) p ->
    0 <= p - bm1_price o XPos K spot T cp <= df * rsum n (fun i => mv_v o fwd i * Phi (s i - 9)).
  Proof using Hmon Hpos.
    intros Hcp HK Hhi Hp. pose proof (mk_df_pos (bk_m o) T) as D. fold df in D. pose proof (bm1_lower XPos cp p Hcp Hp) as L.
    assert (HB9 : B 9 <= K).
    { rewrite <- bm1_ysum. unfold root_hi in Hhi. rewrite (rsum_ext n (fun i => fac i * exp (9 * s i)) (fun i => fac i * exp (s i * 9))) in Hhi; [unfold ysum; lra|].
      intros i _. do 2 f_equal. ring. }
    split; [lra|]. assert (HP : forall z, B z - K <= B z * when_le 9 z).
    { intros z. unfold when_le. destruct Rle_dec as [Hz|Hz]; [lra|]. pose proof (B_incr z 9 ltac:(lra)). lra. }
    assert (HT9 : gauss_expect (fun z => df * (B z * when_le 9 z)) (df * rsum n (fun i => mv_v o fwd i * Phi (s i - 9)))).
    { apply gauss_expect_scal. eapply gauss_expect_ext; [|apply (ge_rsum n (fun i z => mv_v o fwd i * (exp (s i * z - s i ^ 2 / 2) * exercised (XFin 9) z)))].
      - intros z. cbv beta. unfold B, one_factor_basket. rewrite <- rsum_scal_r. apply rsum_ext. intros i _. unfold mv_v. cbn [exercised]. ring.
      - intros i _. apply gauss_expect_scal. pose proof (one_term i (XFin 9)) as H. cbn [PhiX] in H. replace (1 * - (9) + 1 * s i) with (s i - 9) in H by ring. exact H. }
    assert (HW : forall z, 0 <= B z * when_le 9 z). { intros z. apply Rmult_le_pos; [apply B_nonneg|unfold when_le; destruct Rle_dec; lra]. }
    match goal with |- p - ?a <= ?b => enough (H' : p <= a + b) by lra end.
    destruct Hcp as [->| ->].
    - refine (ge_le2 _ _ _ _ _ Hp (gauss_expect_plus _ _ _ _ (bm1_call XPos) HT9)). intros z. cbv beta. rewrite <- Rmult_plus_distr_l. apply Rmult_le_compat_l; [lra|].
      cbn [exercised]. specialize (HP z). specialize (HW z). unfold payoff. apply Rmax_lub; lra.
    - refine (ge_le2 _ _ _ _ _ Hp (gauss_expect_plus _ _ _ _ (bm1_put XPos) HT9)). intros z. cbv beta. rewrite <- Rmult_plus_distr_l. apply Rmult_le_compat_l; [lra|].
      cbn [exercised]. specialize (HP z). specialize (HW z). unfold payoff. apply Rmax_lub; lra.
  Qed.
End Price.
