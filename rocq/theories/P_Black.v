(** Analysis of the Black formula, independent of any pyfeng code. *)
From Coq Require Import Reals Lra Psatz.
From Coquelicot Require Import Coquelicot.
From Verif Require Import Base Gauss.
Open Scope R_scope.

Definition is_cp (cp : R) : Prop := cp = 1 \/ cp = -1.

(** Undiscounted Black price with total volatility [s], forward [F], strike [K]. *)
Definition black (s F K cp : R) : R :=
  cp * (F * Phi (cp * (ln (F / K) / s + s / 2)) - K * Phi (cp * (ln (F / K) / s - s / 2))).

Lemma cp_sq cp : is_cp cp -> cp * cp = 1.
Proof. intros [->| ->]; lra. Qed.

Lemma npdf_cp cp x : is_cp cp -> npdf (cp * x) = npdf x.
Proof.
  intros [->| ->]; [now rewrite Rmult_1_l|].
  replace (-1 * x) with (- x) by ring. apply npdf_even.
Qed.

Lemma black_core s F K : 0 < s -> 0 < F -> 0 < K ->
  F * npdf (ln (F / K) / s + s / 2) = K * npdf (ln (F / K) / s - s / 2).
Proof.
  intros Hs HF HK. unfold npdf.
  set (l := ln (F / K)).
  assert (E : F = K * exp l).
  { unfold l. rewrite exp_ln by (apply Rdiv_lt_0_compat; lra). field. lra. }
  replace (- ((l / s + s / 2) * (l / s + s / 2)) / 2)
    with (- l + - ((l / s - s / 2) * (l / s - s / 2)) / 2) by (field; lra).
  rewrite exp_plus, exp_Ropp. rewrite E at 1.
  pose proof (exp_pos l). pose proof sqrt_2PI_pos. field. lra.
Qed.

Lemma black_parity s F K : black s F K 1 - black s F K (-1) = F - K.
Proof.
  unfold black. rewrite !Rmult_1_l.
  replace (-1 * (ln (F / K) / s + s / 2)) with (- (ln (F / K) / s + s / 2)) by ring.
  replace (-1 * (ln (F / K) / s - s / 2)) with (- (ln (F / K) / s - s / 2)) by ring.
  rewrite !Phi_opp. ring.
Qed.

(** Total differential of the Black price along any differentiable curve. *)
Lemma black_total (sf Ff Kf : R -> R) (t ds dF dK cp : R) : is_cp cp ->
  is_derive sf t ds -> is_derive Ff t dF -> is_derive Kf t dK ->
  0 < sf t -> 0 < Ff t -> 0 < Kf t ->
  is_derive (fun u => black (sf u) (Ff u) (Kf u) cp) t
    (cp * (dF * Phi (cp * (ln (Ff t / Kf t) / sf t + sf t / 2))
           - dK * Phi (cp * (ln (Ff t / Kf t) / sf t - sf t / 2)))
     + Ff t * npdf (ln (Ff t / Kf t) / sf t + sf t / 2) * ds).
Proof.
  intros Hcp Hs HF HK Ps PF PK.
  pose proof (Rdiv_lt_0_compat _ _ PF PK) as Pq.
  set (l := fun u => ln (Ff u / Kf u)).
  assert (Hl : is_derive l t (dF / Ff t - dK / Kf t)).
  { unfold l. eapply is_derive_eq.
    - apply (is_derive_comp_R ln (fun u => Ff u / Kf u)).
      + apply is_derive_Reals. apply derivable_pt_lim_ln. exact Pq.
      + eapply (is_derive_div Ff Kf); eauto. lra.
    - field. lra. }
  set (q := fun u => l u / sf u).
  set (dq := (dF / Ff t - dK / Kf t) / sf t - l t * ds / (sf t * sf t)).
  assert (Hq : is_derive q t dq).
  { unfold q. eapply is_derive_eq.
    - eapply (is_derive_div l sf); eauto. lra.
    - unfold dq. field. lra. }
  assert (Hh : is_derive (fun u => sf u / 2) t (ds / 2)).
  { eapply is_derive_eq; [eapply (is_derive_ext (fun u => / 2 * sf u)); [intros; simpl; unfold Rdiv; apply Rmult_comm|apply is_derive_scal_R, Hs]|]. field. }
  assert (H1 : is_derive (fun u => cp * (q u + sf u / 2)) t (cp * (dq + ds / 2))).
  { apply is_derive_scal_R. now apply is_derive_plus_R. }
  assert (H2 : is_derive (fun u => cp * (q u - sf u / 2)) t (cp * (dq - ds / 2))).
  { apply is_derive_scal_R. now apply is_derive_minus_R. }
  pose proof (black_core (sf t) (Ff t) (Kf t) Ps PF PK) as Hcore.
  unfold black. eapply is_derive_eq.
  - apply is_derive_scal_R. apply is_derive_minus_R.
    + apply is_derive_mult_R; [exact HF|]. apply (is_derive_Phi_comp (fun u => cp * (q u + sf u / 2))). exact H1.
    + apply is_derive_mult_R; [exact HK|]. apply (is_derive_Phi_comp (fun u => cp * (q u - sf u / 2))). exact H2.
  - rewrite !npdf_cp by assumption. unfold q, l.
    set (N1 := npdf (ln (Ff t / Kf t) / sf t + sf t / 2)) in *.
    set (N2 := npdf (ln (Ff t / Kf t) / sf t - sf t / 2)) in *.
    set (P1 := Phi (cp * (ln (Ff t / Kf t) / sf t + sf t / 2))).
    set (P2 := Phi (cp * (ln (Ff t / Kf t) / sf t - sf t / 2))).
    pose proof (cp_sq cp Hcp) as Hc2.
    replace (Ff t * (cp * (dq + ds / 2) * N1)) with (cp * (dq + ds / 2) * (Ff t * N1)) by ring.
    replace (Kf t * (cp * (dq - ds / 2) * N2)) with (cp * (dq - ds / 2) * (Kf t * N2)) by ring.
    rewrite <- Hcore.
    replace (cp * (dF * P1 + cp * (dq + ds / 2) * (Ff t * N1) - (dK * P2 + cp * (dq - ds / 2) * (Ff t * N1))))
      with (cp * (dF * P1 - dK * P2) + (cp * cp) * (Ff t * N1 * ds)) by field.
    rewrite Hc2. ring.
Qed.

(** Mills-type positivity: x Phi(x) + n(x) > 0. *)
Definition gfun (x : R) := x * Phi x + npdf x.

Lemma is_derive_gfun (x : R) : is_derive gfun x (Phi x).
Proof.
  unfold gfun. eapply is_derive_eq.
  - apply is_derive_plus_R.
    + apply is_derive_mult_R; [apply is_derive_id_R | apply is_derive_Phi].
    + apply is_derive_npdf.
  - cbv beta. ring.
Qed.

Lemma gfun_incr x y : x < y -> gfun x < gfun y.
Proof. apply (strictly_increasing_of_derive gfun Phi); [apply is_derive_gfun | apply Phi_pos]. Qed.

Lemma exp_quad_bound x : 1 <= x -> x * exp (- (x * x) / 2) <= 2 / x.
Proof.
  intros Hx. replace (- (x * x) / 2) with (- (x * x / 2)) by field. rewrite exp_Ropp.
  assert (x * x / 2 <= exp (x * x / 2)).
  { apply Rle_trans with (1 + x * x / 2); [lra|]. left. apply exp_ineq1. nra. }
  assert (0 < x * x / 2) by nra.
  apply Rle_trans with (x * / (x * x / 2)).
  - apply Rmult_le_compat_l; [lra|]. apply Rinv_le_contravar; lra.
  - right. field. lra.
Qed.

Lemma gfun_pos x : 0 < gfun x.
Proof.
  destruct (Rlt_le_dec 0 (gfun x)) as [H|H]; [exact H|exfalso].
  pose proof (gfun_incr (x - 1) x ltac:(lra)) as H1.
  set (c := - gfun (x - 1)). assert (Hc : 0 < c) by (unfold c; lra).
  set (y := Rmax (Rmax 1 (1 - x)) (2 / c) + 1).
  assert (Y1 : 1 <= y - 1).
  { unfold y. pose proof (Rmax_l (Rmax 1 (1 - x)) (2 / c)). pose proof (Rmax_l 1 (1 - x)). lra. }
  assert (Y2 : 1 - x <= y - 1).
  { unfold y. pose proof (Rmax_l (Rmax 1 (1 - x)) (2 / c)). pose proof (Rmax_r 1 (1 - x)). lra. }
  assert (Y3 : 2 / c < y).
  { unfold y. pose proof (Rmax_r (Rmax 1 (1 - x)) (2 / c)). lra. }
  pose proof (gfun_incr (- y) (x - 1) ltac:(lra)) as H2.
  unfold gfun in H2 at 1. pose proof (npdf_pos (- y)) as Hn.
  rewrite Phi_opp in H2.
  pose proof (Phi_tail y ltac:(lra)) as Ht.
  pose proof (exp_quad_bound y ltac:(lra)) as Hq.
  assert (HPI : 2 < PI) by (pose proof PI2_1; lra).
  assert (Hb : y * (1 - Phi y) <= 2 / y).
  { apply Rle_trans with (y * (2 * exp (- (y * y) / 2) / PI)).
    - apply Rmult_le_compat_l; lra.
    - apply Rle_trans with (y * exp (- (y * y) / 2)); [|exact Hq].
      apply Rmult_le_compat_l; [lra|].
      pose proof (exp_pos (- (y * y) / 2)).
      apply (Rmult_le_reg_r PI); [lra|]. unfold Rdiv. rewrite Rmult_assoc, Rinv_l by lra. nra. }
  assert (2 / y < c).
  { apply (Rmult_lt_reg_r y); [lra|]. replace (2 / y * y) with 2 by (field; lra).
    apply (Rmult_lt_compat_r c) in Y3; [|exact Hc].
    replace (2 / c * c) with 2 in Y3 by (field; lra). lra. }
  unfold c in *. lra.
Qed.

(** Phi/npdf is strictly increasing. *)
Lemma is_derive_Mills (x : R) : is_derive (fun y => Phi y / npdf y) x (gfun x / npdf x).
Proof.
  pose proof (npdf_pos x).
  eapply is_derive_eq.
  - eapply (is_derive_div Phi npdf); [apply is_derive_Phi | apply is_derive_npdf | lra].
  - unfold gfun. field. lra.
Qed.

Lemma Mills_incr x y : x < y -> Phi x / npdf x < Phi y / npdf y.
Proof.
  apply (strictly_increasing_of_derive (fun y => Phi y / npdf y) (fun x => gfun x / npdf x)).
  - apply is_derive_Mills.
  - intros z. apply Rdiv_lt_0_compat; [apply gfun_pos | apply npdf_pos].
Qed.

Lemma black_call_pos s F K : 0 < s -> 0 < F -> 0 < K -> 0 < black s F K 1.
Proof.
  intros Hs HF HK. unfold black. rewrite !Rmult_1_l.
  set (d1 := ln (F / K) / s + s / 2). set (d2 := ln (F / K) / s - s / 2).
  pose proof (black_core s F K Hs HF HK) as Hc. fold d1 d2 in Hc.
  pose proof (Mills_incr d2 d1 ltac:(unfold d1, d2; lra)) as Hm.
  pose proof (npdf_pos d1) as N1. pose proof (npdf_pos d2) as N2.
  replace (F * Phi d1) with (F * npdf d1 * (Phi d1 / npdf d1)) by (field; lra).
  replace (K * Phi d2) with (K * npdf d2 * (Phi d2 / npdf d2)) by (field; lra).
  rewrite <- Hc. assert (0 < F * npdf d1) by (apply Rmult_lt_0_compat; lra). nra.
Qed.

(** Put-call symmetry: a put is a call with forward and strike exchanged. *)
Lemma black_sym s F K : 0 < s -> 0 < F -> 0 < K -> black s F K (-1) = black s K F 1.
Proof.
  intros Hs HF HK. unfold black.
  assert (E : ln (K / F) = - ln (F / K)).
  { replace (K / F) with (/ (F / K)) by (field; lra). apply ln_Rinv. apply Rdiv_lt_0_compat; lra. }
  rewrite E.
  replace (1 * (- ln (F / K) / s + s / 2)) with (-1 * (ln (F / K) / s - s / 2)) by (field; lra).
  replace (1 * (- ln (F / K) / s - s / 2)) with (-1 * (ln (F / K) / s + s / 2)) by (field; lra).
  ring.
Qed.

Lemma black_put_pos s F K : 0 < s -> 0 < F -> 0 < K -> 0 < black s F K (-1).
Proof. intros. rewrite black_sym by assumption. now apply black_call_pos. Qed.

Lemma black_pos s F K cp : is_cp cp -> 0 < s -> 0 < F -> 0 < K -> 0 < black s F K cp.
Proof. intros [->| ->]; [apply black_call_pos | apply black_put_pos]. Qed.

Lemma black_lower s F K cp : is_cp cp -> 0 < s -> 0 < F -> 0 < K ->
  Rmax (cp * (F - K)) 0 < black s F K cp.
Proof.
  intros Hcp Hs HF HK. pose proof (black_parity s F K) as Hp.
  pose proof (black_call_pos s F K Hs HF HK). pose proof (black_put_pos s F K Hs HF HK).
  apply Rmax_lub_lt; [|now apply black_pos].
  destruct Hcp as [->| ->]; lra.
Qed.

Lemma black_upper s F K cp : is_cp cp -> 0 < s -> 0 < F -> 0 < K ->
  black s F K cp < (if Rlt_dec 0 cp then F else K).
Proof.
  intros Hcp Hs HF HK. pose proof (black_parity s F K) as Hp.
  destruct (Rlt_dec 0 cp) as [H|H]; destruct Hcp as [->| ->]; try lra.
  - unfold black. rewrite !Rmult_1_l.
    pose proof (Phi_bounds (ln (F / K) / s + s / 2)). pose proof (Phi_bounds (ln (F / K) / s - s / 2)). nra.
  - unfold black.
    pose proof (Phi_bounds (-1 * (ln (F / K) / s + s / 2))). pose proof (Phi_bounds (-1 * (ln (F / K) / s - s / 2))). nra.
Qed.

Lemma is_derive_black_s s F K cp : is_cp cp -> 0 < s -> 0 < F -> 0 < K ->
  is_derive (fun u => black u F K cp) s (F * npdf (ln (F / K) / s + s / 2)).
Proof.
  intros Hcp Hs HF HK. eapply is_derive_eq.
  - apply (black_total (fun u => u) (fun _ => F) (fun _ => K) s 1 0 0 cp Hcp);
      try assumption; [apply is_derive_id_R | apply is_derive_const_R | apply is_derive_const_R].
  - dring.
Qed.

Lemma is_derive_black_F s F K cp : is_cp cp -> 0 < s -> 0 < F -> 0 < K ->
  is_derive (fun u => black s u K cp) F (cp * Phi (cp * (ln (F / K) / s + s / 2))).
Proof.
  intros Hcp Hs HF HK. eapply is_derive_eq.
  - apply (black_total (fun _ => s) (fun u => u) (fun _ => K) F 0 1 0 cp Hcp);
      try assumption; [apply is_derive_const_R | apply is_derive_id_R | apply is_derive_const_R].
  - dring.
Qed.

Lemma is_derive_black_K s F K cp : is_cp cp -> 0 < s -> 0 < F -> 0 < K ->
  is_derive (fun u => black s F u cp) K (- cp * Phi (cp * (ln (F / K) / s - s / 2))).
Proof.
  intros Hcp Hs HF HK. eapply is_derive_eq.
  - apply (black_total (fun _ => s) (fun _ => F) (fun u => u) K 0 0 1 cp Hcp);
      try assumption; [apply is_derive_const_R | apply is_derive_const_R | apply is_derive_id_R].
  - dring.
Qed.

Lemma black_incr_s s1 s2 F K cp : is_cp cp -> 0 < s1 -> s1 < s2 -> 0 < F -> 0 < K ->
  black s1 F K cp < black s2 F K cp.
Proof.
  intros Hcp H1 H12 HF HK.
  apply (increasing_on (fun u => black u F K cp) (fun s => F * npdf (ln (F / K) / s + s / 2))); [exact H12| |].
  - intros z Hz. apply is_derive_black_s; auto; lra.
  - intros z Hz. apply Rmult_lt_0_compat; [exact HF | apply npdf_pos].
Qed.

Lemma black_inj_s s1 s2 F K cp : is_cp cp -> 0 < s1 -> 0 < s2 -> 0 < F -> 0 < K ->
  black s1 F K cp = black s2 F K cp -> s1 = s2.
Proof.
  intros Hcp H1 H2 HF HK E. destruct (Rtotal_order s1 s2) as [H|[H|H]]; [|exact H|].
  - pose proof (black_incr_s s1 s2 F K cp Hcp H1 H HF HK). lra.
  - pose proof (black_incr_s s2 s1 F K cp Hcp H2 H HF HK). lra.
Qed.

Lemma black_mono_K s F K1 K2 : 0 < s -> 0 < F -> 0 < K1 -> K1 < K2 ->
  black s F K2 1 < black s F K1 1 /\ black s F K1 (-1) < black s F K2 (-1).
Proof.
  intros Hs HF H1 H12. split.
  - apply Ropp_lt_cancel.
    apply (increasing_on (fun u => - black s F u 1) (fun K => Phi (1 * (ln (F / K) / s - s / 2)))); [exact H12| |].
    + intros z Hz. eapply is_derive_eq.
      * apply (is_derive_opp (fun u => black s F u 1)). apply is_derive_black_K; try lra. now left.
      * runfold. ring.
    + intros; apply Phi_pos.
  - apply (increasing_on (fun u => black s F u (-1)) (fun K => Phi (-1 * (ln (F / K) / s - s / 2)))); [exact H12| |].
    + intros z Hz. eapply is_derive_eq; [apply is_derive_black_K; try lra; now right|]. ring.
    + intros; apply Phi_pos.
Qed.

Lemma black_mono_F s F1 F2 K : 0 < s -> 0 < F1 -> F1 < F2 -> 0 < K ->
  black s F1 K 1 < black s F2 K 1 /\ black s F2 K (-1) < black s F1 K (-1).
Proof.
  intros Hs H1 H12 HK. split.
  - apply (increasing_on (fun u => black s u K 1) (fun F => Phi (1 * (ln (F / K) / s + s / 2)))); [exact H12| |].
    + intros z Hz. eapply is_derive_eq; [apply is_derive_black_F; try lra; now left|]. ring.
    + intros; apply Phi_pos.
  - apply Ropp_lt_cancel.
    apply (increasing_on (fun u => - black s u K (-1)) (fun F => Phi (-1 * (ln (F / K) / s + s / 2)))); [exact H12| |].
    + intros z Hz. eapply is_derive_eq.
      * apply (is_derive_opp (fun u => black s u K (-1))). apply is_derive_black_F; try lra. now right.
      * runfold. ring.
    + intros; apply Phi_pos.
Qed.

(** Convexity from a nondecreasing derivative. *)
Lemma convex_of_derive (f df : R -> R) (a b l : R) : a < b -> 0 <= l <= 1 ->
  (forall x, a <= x <= b -> is_derive f x (df x)) ->
  (forall x y, a <= x -> x <= y -> y <= b -> df x <= df y) ->
  f (l * a + (1 - l) * b) <= l * f a + (1 - l) * f b.
Proof.
  intros Hab Hl Hd Hm. set (c := l * a + (1 - l) * b).
  assert (Hca : a <= c) by (unfold c; nra). assert (Hcb : c <= b) by (unfold c; nra).
  destruct (Rle_lt_or_eq_dec a c Hca) as [H1|H1].
  2:{ rewrite <- H1. assert (l = 1) by (unfold c in H1; nra). subst l. lra. }
  destruct (Rle_lt_or_eq_dec c b Hcb) as [H2|H2].
  2:{ rewrite H2. assert (l = 0) by (unfold c in H2; nra). subst l. lra. }
  destruct (MVT_R f df a c H1) as [x [Hx Ex]]; [intros; apply Hd; lra|].
  destruct (MVT_R f df c b H2) as [y [Hy Ey]]; [intros; apply Hd; lra|].
  assert (Hxy : df x <= df y) by (apply Hm; lra).
  assert (E1 : c - a = (1 - l) * (b - a)) by (unfold c; ring).
  assert (E2 : b - c = l * (b - a)) by (unfold c; ring).
  rewrite E1 in Ex. rewrite E2 in Ey.
  assert (0 <= l * (1 - l) * (b - a) * (df y - df x)).
  { repeat apply Rmult_le_pos; lra. }
  nra.
Qed.

Lemma black_convex_K s F K1 K2 l cp : is_cp cp -> 0 < s -> 0 < F -> 0 < K1 -> 0 < K2 -> 0 <= l <= 1 ->
  black s F (l * K1 + (1 - l) * K2) cp <= l * black s F K1 cp + (1 - l) * black s F K2 cp.
Proof.
  intros Hcp Hs HF.
  assert (Main : forall A B t, 0 < A -> A < B -> 0 <= t <= 1 ->
    black s F (t * A + (1 - t) * B) cp <= t * black s F A cp + (1 - t) * black s F B cp).
  { intros A B t HA HAB Ht.
    apply (convex_of_derive (fun u => black s F u cp) (fun K => - cp * Phi (cp * (ln (F / K) / s - s / 2)))); auto.
    - intros x Hx. apply is_derive_black_K; auto; lra.
    - intros x y Hx Hxy Hy.
      assert (Hl : ln (F / y) <= ln (F / x)).
      { apply ln_le_R; [apply Rdiv_lt_0_compat; lra|]. unfold Rdiv. apply Rmult_le_compat_l; [lra|].
        apply Rinv_le_contravar; lra. }
      assert (Hd : ln (F / y) / s - s / 2 <= ln (F / x) / s - s / 2).
      { apply Rplus_le_compat_r. unfold Rdiv. apply Rmult_le_compat_r; [left; now apply Rinv_0_lt_compat | exact Hl]. }
      destruct Hcp as [->| ->].
      + rewrite !Rmult_1_l. pose proof (Phi_le _ _ Hd). lra.
      + pose proof (Phi_le (-1 * (ln (F / x) / s - s / 2)) (-1 * (ln (F / y) / s - s / 2)) ltac:(lra)). lra. }
  intros H1 H2 Hl.
  destruct (Rtotal_order K1 K2) as [H|[H|H]].
  - now apply Main.
  - subst K2. replace (l * K1 + (1 - l) * K1) with K1 by ring. lra.
  - replace (l * K1 + (1 - l) * K2) with ((1 - l) * K2 + (1 - (1 - l)) * K1) by ring.
    pose proof (Main K2 K1 (1 - l) H2 H ltac:(lra)). lra.
Qed.

Lemma black_homog s F K cp c : 0 < c -> 0 < F -> 0 < K -> black s (c * F) (c * K) cp = c * black s F K cp.
Proof.
  intros Hc HF HK. unfold black.
  replace (c * F / (c * K)) with (F / K) by (field; lra). ring.
Qed.
