From Coq Require Import Reals Lra List.
From Coquelicot Require Import Coquelicot.
(** Proofs about CgmyCos' truncation interval. *)
From Verif Require Import Base M_Opt M_Mgf M_Sabr M_Cos M_Params M_CgmyRange Spec_Opt Spec_Cos Sums P_Bsm P_Cos.
Open Scope R_scope.

Lemma cgmy_close_pos (Y : R) : isclose Y (198 / 100) = true -> 197 / 100 < Y.
Proof.
  unfold isclose. destruct (Rle_dec _ _) as [H|]; [|discriminate]. intros _.
  rewrite (Rabs_pos_eq (198 / 100)) in H by lra.
  assert (/ 10 ^ 8 + / 10 ^ 5 * (198 / 100) < / 100) by lra.
  pose proof (Rle_abs (- (Y - 198 / 100))). rewrite Rabs_Ropp in H1. lra.
Qed.
Lemma cgmy_range_sign (c1 half L Y : R) : 0 < L ->
  let r := cgmy_range false c1 half L Y in
  (fst r < 0 < snd r <-> 0 < Y) /\ (snd r < 0 < fst r <-> Y < 0) /\ (fst r = snd r <-> Y = 0).
Proof.
  intros HL. unfold cgmy_range. destruct (isclose Y (198 / 100)) eqn:E.
  - apply cgmy_close_pos in E. cbn [fst snd]. repeat split; intros; lra.
  - cbn [fst snd]. split; [|split]; split; intro H.
    + apply Rnot_le_lt. intro. nra.
    + nra.
    + apply Rnot_le_lt. intro. nra.
    + nra.
    + assert (L * Y = 0) by lra. apply Rmult_integral in H0. lra.
    + subst. lra.
Qed.
Lemma clip_top (x a b : R) : b <= Rmax x a -> clip x a b = b.
Proof. intros. unfold clip. apply Rmin_right. exact H. Qed.
Lemma cos_call_zero (m : opt) re im n (a b K S T : R) :
  b <= Rmax (ln (K / FWD (intr m) (divr m) (is_fwd m) S T)) a -> cos_price m re im n a b K S T 1 = 0.
Proof.
  intros H. unfold cos_price. rewrite fdd_eq. unfold mF.
  set (F := FWD _ _ _ _ _) in *.
  assert (E : rsum n (fun k => cos_w (K / F) a b 1 (cos_u a b) k * cos_A re im (cos_u a b) a k) = 0).
  { rewrite (rsum_ext n _ (fun _ => 0)).
    - apply rsum_0.
    - intros k _. unfold cos_w. destruct (Rlt_dec 0 1); [|lra].
      rewrite (clip_top _ _ _ H). unfold cos_chi, cos_psi.
      destruct (Nat.eqb k 0); unfold Rdiv; ring. }
  rewrite E. ring.
Qed.
Lemma lefloch_reversed (m : opt) re im n (a b K S T : R) : b < a ->
  let F := FWD (intr m) (divr m) (is_fwd m) S T in
  lefloch_price m re im n a b K S T (-1) = (if Rlt_dec (ln (K / F)) a then 0 else DF (intr m) T * Rmax (K - F) 0) /\
  lefloch_price m re im n a b K S T 1 = (if Rlt_dec (ln (K / F)) a then 0 else DF (intr m) T * Rmax (K - F) 0) + DF (intr m) T * (F - K).
Proof.
  intros H F. unfold lefloch_price. rewrite fdd_eq. unfold mF, mD. fold F.
  destruct (Rlt_dec 0 (-1)); [lra|]. destruct (Rlt_dec 0 1); [|lra].
  destruct (Rlt_dec (ln (K / F)) a); [split; reflexivity|].
  destruct (Rlt_dec b (ln (K / F))); [split; reflexivity|lra].
Qed.
Lemma cgmy_accepts_all (C G M Y : R) : cgmy_accepts C G M Y = true <-> 0 < C /\ 0 < G /\ 1 < M /\ Y < 2.
Proof.
  unfold cgmy_accepts. destruct (Rle_dec C 0), (Rle_dec G 0), (Rle_dec M 1), (Rle_dec 2 Y); split; intros; try discriminate; try reflexivity; try lra.
Qed.
Lemma cgmy_range_generic (c1 half L Y : R) : Y <= 197 / 100 -> cgmy_range false c1 half L Y = (- L * Y, L * Y).
Proof.
  intros H. unfold cgmy_range. destruct (isclose Y (198 / 100)) eqn:E; [|reflexivity].
  apply cgmy_close_pos in E. lra.
Qed.
Lemma cgmy_call_zero (m : opt) (c1 half L Y : R) re im n (K S T : R) : 0 < L -> 0 < Y <= 197 / 100 ->
  L * Y <= ln (K / FWD (intr m) (divr m) (is_fwd m) S T) -> cgmy_cos_price m false false c1 half L Y re im n K S T 1 = 0.
Proof.
  intros HL HY H. unfold cgmy_cos_price. rewrite cgmy_range_generic by lra.
  apply cos_call_zero. eapply Rle_trans; [exact H|apply Rmax_l].
Qed.
Lemma cgmy_call_zero_neg (m : opt) (c1 half L Y : R) re im n (K S T : R) : 0 < L -> Y < 0 ->
  cgmy_cos_price m false false c1 half L Y re im n K S T 1 = 0.
Proof.
  intros HL HY. unfold cgmy_cos_price. rewrite cgmy_range_generic by lra.
  apply cos_call_zero. eapply Rle_trans; [|apply Rmax_r]. nra.
Qed.
Lemma DF_pos_ (r T : R) : 0 < DF r T.
Proof. unfold DF. apply exp_pos. Qed.
Lemma cgmy_lefloch_neg (m : opt) (c1 half L Y : R) re im n (K S T : R) : 0 < L -> Y < 0 -> 0 < S ->
  let F := FWD (intr m) (divr m) (is_fwd m) S T in
  F < K < F * exp (- (L * Y)) ->
  cgmy_cos_price m false true c1 half L Y re im n K S T (-1) = 0 /\
  cgmy_cos_price m false true c1 half L Y re im n K S T 1 < 0.
Proof.
  intros HL HY HS F HK. unfold cgmy_cos_price. rewrite cgmy_range_generic by lra.
  assert (P : 0 < F) by (apply mF_pos; exact HS).
  assert (Q : L * Y < - L * Y) by nra.
  destruct (lefloch_reversed m re im n (- L * Y) (L * Y) K S T Q) as [E1 E2].
  fold F in E1, E2. rewrite E1, E2.
  assert (D : ln (K / F) < - L * Y).
  { replace (- L * Y) with (- (L * Y)) by ring. rewrite <- (ln_exp (- (L * Y))).
    apply ln_increasing. { apply Rdiv_lt_0_compat; lra. }
    apply (Rmult_lt_reg_r F); [exact P|]. unfold Rdiv. rewrite Rmult_assoc, Rinv_l by lra. lra. }
  destruct (Rlt_dec (ln (K / F)) (- L * Y)); [|contradiction].
  split; [reflexivity|]. pose proof (DF_pos_ (intr m) T). nra.
Qed.
Lemma cgmy_integral (m : opt) (c1 half L Y : R) re im n (K S T cp : R) : 0 < L -> 0 < Y <= 197 / 100 -> 0 < K -> 0 < S -> call_or_put cp ->
  cgmy_cos_price m false false c1 half L Y re im n K S T cp =
  DF (intr m) T * RInt (fun x => payoff cp K (FWD (intr m) (divr m) (is_fwd m) S T * exp x) * cosine_series re im n (- (L * Y)) (L * Y) x) (- (L * Y)) (L * Y).
Proof.
  intros HL HY HK HS Hc. unfold cgmy_cos_price. rewrite cgmy_range_generic by lra.
  rewrite Ropp_mult_distr_l_reverse. apply cos_price_integral; try assumption. nra.
Qed.
Lemma cgmy_junike (m : opt) (c1 half L Y : R) re im n (K S T cp : R) : 0 < half -> 0 < K -> 0 < S -> call_or_put cp ->
  cgmy_cos_price m true false c1 half L Y re im n K S T cp =
  DF (intr m) T * RInt (fun x => payoff cp K (FWD (intr m) (divr m) (is_fwd m) S T * exp x) * cosine_series re im n (c1 - half) (c1 + half) x) (c1 - half) (c1 + half).
Proof. intros. unfold cgmy_cos_price, cgmy_range. apply cos_price_integral; try assumption. lra. Qed.
Lemma cgmy_special (m : opt) (c1 half L Y : R) re im n (K S T cp : R) : Rabs (Y - 198 / 100) <= 1 / 100000 -> 0 < K -> 0 < S -> call_or_put cp ->
  cgmy_cos_price m false false c1 half L Y re im n K S T cp =
  DF (intr m) T * RInt (fun x => payoff cp K (FWD (intr m) (divr m) (is_fwd m) S T * exp x) * cosine_series re im n (-100) 20 x) (-100) 20.
Proof.
  intros HY. intros. unfold cgmy_cos_price, cgmy_range.
  assert (E : isclose Y (198 / 100) = true).
  { unfold isclose. destruct (Rle_dec _ _) as [|N]; [reflexivity|]. exfalso. apply N.
    rewrite (Rabs_pos_eq (198 / 100)) by lra. lra. }
  rewrite E. apply cos_price_integral; try assumption. lra.
Qed.
Lemma cgmy_lefloch_parity (m : opt) junike (c1 half L Y : R) re im n (K S T : R) :
  cgmy_cos_price m junike true c1 half L Y re im n K S T 1 - cgmy_cos_price m junike true c1 half L Y re im n K S T (-1) =
  DF (intr m) T * (FWD (intr m) (divr m) (is_fwd m) S T - K).
Proof. unfold cgmy_cos_price. destruct (cgmy_range junike c1 half L Y). apply lefloch_parity. Qed.
Lemma cgmy_lefloch_put (m : opt) junike (c1 half L Y : R) re im n (K S T : R) : 0 < S ->
  fst (cgmy_range junike c1 half L Y) <= ln (K / FWD (intr m) (divr m) (is_fwd m) S T) <= snd (cgmy_range junike c1 half L Y) ->
  cgmy_cos_price m junike true c1 half L Y re im n K S T (-1) = cgmy_cos_price m junike false c1 half L Y re im n K S T (-1).
Proof.
  unfold cgmy_cos_price. destruct (cgmy_range junike c1 half L Y) as [a b]. cbn [fst snd]. apply lefloch_put_inside.
Qed.
