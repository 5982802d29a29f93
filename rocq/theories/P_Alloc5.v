(** Witnesses for the allocation theorems. *)
From Coq Require Import Reals Lra Lia Psatz List Arith FunctionalExtensionality.
From Coquelicot Require Import Coquelicot.
From Verif Require Import Base Sums M_Params Spec_Alloc M_Alloc P_Alloc P_Alloc2 P_Alloc3 P_Alloc4.
Import ListNotations.
Open Scope R_scope.

Definition id2 : mat := fun i j => if Nat.eqb i j then 1 else 0.
Definition cor2 : mat := fun i j => if Nat.eqb i j then 1 else 3 / 5.
Lemma cor2_ok : correlation_matrix 2 cor2.
Proof.
  split; [|split].
  - intros i j _ _. unfold cor2. now rewrite Nat.eqb_sym.
  - intros i _. unfold cor2. now rewrite Nat.eqb_refl.
  - exists (2 / 5). split; [lra|]. intros w. unfold port_var, cor2. cbn. pose proof (pow2_ge_0 (w 0%nat + w 1%nat)). nra.
Qed.
Lemma id2_ok : correlation_matrix 2 id2.
Proof.
  split; [|split].
  - intros i j _ _. unfold id2. now rewrite Nat.eqb_sym.
  - intros i _. unfold id2. now rewrite Nat.eqb_refl.
  - exists 1. split; [lra|]. intros w. unfold port_var, id2. cbn. lra.
Qed.
Lemma half_ok : budgets 2 (fun _ => / 2).
Proof. split; [intros; lra|cbn; lra]. Qed.
Lemma dispersion_eq n cov w : dispersion n cov w = sca_objective n cov w.
Proof.
  assert (E : (fun i => rsum n (fun j => w i * (cov i j * w j))) = risk_contrib n cov w) by (apply functional_extensionality; intros i; unfold risk_contrib, matvec; now rewrite rsum_scal).
  unfold dispersion, sca_objective. cbv zeta. rewrite E. apply rsum_ext. intros i _. now rewrite <- E.
Qed.
(** two uncorrelated assets, equal budgets: one sweep suffices, for either sign *)
Lemma ccd_id2 (e tol : R) (sigma : vec) : e = 1 \/ e = -1 -> 0 < tol -> (forall i, (i < 2)%nat -> 0 < sigma i) ->
  exists r, fit_ccd 2 id2 (fun _ => / 2) (fun _ => e) sigma tol = Some r /\ r 0%nat = sigma 1%nat / (sigma 0%nat + sigma 1%nat).
Proof.
  intros He Ht Hs. set (s := sqrt (/ 2)). assert (S2 : s * s = / 2) by (apply sqrt_sqrt; lra). assert (S0 : 0 < s) by (apply sqrt_lt_R0; lra).
  assert (E2 : e * e = 1) by (destruct He as [-> | ->]; ring).
  assert (ST : forall w i, (i < 2)%nat -> ccd_step 2 id2 (fun _ => / 2) (fun _ => e) w i = setv w i (e * s)).
  { intros w i Hi. unfold ccd_step. cbv zeta. replace (matvec 2 id2 w i) with (w i).
    - replace ((w i - w i) / 2) with 0 by field. rewrite Rmult_0_l, Rplus_0_l. fold s. f_equal. ring.
    - unfold matvec, id2. destruct i as [|[|i]]; [cbn; ring|cbn; ring|lia]. }
  remember (ccd_sweep 2 id2 (fun _ => / 2) (fun _ => e) (ccd_init 2 id2)) as w1 eqn:EW.
  assert (W : forall i, (i < 2)%nat -> w1 i = e * s).
  { intros i Hi. rewrite EW. unfold ccd_sweep. cbn [seq fold_left]. rewrite !ST by lia. destruct i as [|[|i]]; [reflexivity|reflexivity|lia]. }
  assert (Q : ccd_scale 2 id2 w1 = 1).
  { unfold ccd_scale. replace (quad_form 2 id2 w1) with 1; [apply sqrt_1|]. unfold quad_form, matvec, id2. cbn. rewrite !W by lia. replace (0 + e * s * (0 + 1 * (e * s) + 0 * (e * s)) + e * s * (0 + 0 * (e * s) + 1 * (e * s))) with (2 * (e * e) * (s * s)) by ring. rewrite E2, S2. field. }
  assert (ER : ccd_err 2 id2 (fun _ => / 2) (fun _ => e) (ccd_init 2 id2) < tol).
  { unfold ccd_err. cbv zeta. rewrite <- EW, Q. apply vmax_lt; [exact Ht|]. intros i Hi.
    replace (matvec 2 id2 w1 i) with (w1 i) by (unfold matvec, id2; destruct i as [|[|i]]; [cbn; ring|cbn; ring|lia]). rewrite W by exact Hi.
    replace (e * s / 1 * (e * s / 1) - / 2) with ((e * e) * (s * s) - / 2) by field. rewrite E2, S2. replace (1 * / 2 - / 2) with 0 by ring. now rewrite Rabs_R0. }
  exists (norm_weights 2 sigma (ccd_next 2 id2 (fun _ => / 2) (fun _ => e) (ccd_init 2 id2))). split.
  - assert (G : forall f, ccd_loop (S f) 2 id2 (fun _ => / 2) (fun _ => e) sigma tol (ccd_init 2 id2) = Some (norm_weights 2 sigma (ccd_next 2 id2 (fun _ => / 2) (fun _ => e) (ccd_init 2 id2)))).
    { intros f. cbn [ccd_loop]. cbv zeta. destruct Rlt_dec as [_|N]; [reflexivity|contradiction]. }
    unfold fit_ccd. replace (3 * 11 * 31)%nat with (S (33 * 31 - 1)) by (vm_compute; reflexivity). apply G.
  - pose proof (Hs 0%nat ltac:(lia)). pose proof (Hs 1%nat ltac:(lia)). unfold norm_weights, ccd_next. cbv zeta. rewrite <- EW, Q. cbn [rsum]. rewrite !W by lia. field. repeat split; try lra; destruct He as [-> | ->]; try lra; try nra.
Qed.
(** the coded gradient is not the gradient *)
Definition wbad : vec := fun i => if Nat.eqb i 0 then / 4 else 3 / 4.
Lemma grad_refuted : sca_grad 2 cor2 wbad 0%nat <> true_grad 2 cor2 wbad 0%nat.
Proof. unfold sca_grad, true_grad, risk_contrib, vmean, matvec, cor2, wbad. cbn. lra. Qed.
Lemma two101 : 0 < / 2 ^ 101 <= / 1000000000000000.
Proof.
  split; [apply Rinv_0_lt_compat, pow_lt; lra|]. apply Rinv_le_contravar; [lra|]. apply Rle_trans with (2 ^ 50); [lra|]. apply Rle_pow; [lra|lia].
Qed.
Lemma slack_ex : Rmax (2 * (/ 10 ^ 12 * gbound 2 1 1)) (2 * slack 2 1 1) < / 1000000.
Proof.
  unfold slack, gbound. cbn [INR]. unfold Rdiv. pose proof two101 as T. set (z := / 2 ^ 101) in *. clearbody z.
  apply Rmax_lub_lt; lra.
Qed.
(** *** the starting point of the Newton search *)
Lemma newton_init_ok n cor bud : correlation_matrix n cor -> budgets n bud ->
  exists w0, 0 < w0 /\ port_var n cor (fun _ => w0) = 1 /\
  forall i, (i < n)%nat -> 0 < newton_init n cor bud i /\ newton_val n cor bud (setv (fun _ => w0) i (newton_init n cor bud i)) i = 0.
Proof.
  intros (_ & Hd & lam & Hl & Hq) Hb. pose proof (n_pos n bud Hb) as Hn.
  set (S := rsum n (fun i => rsum n (fun j => cor i j))).
  assert (SP : 0 < S).
  { specialize (Hq (fun _ => 1)). unfold port_var in Hq. rewrite (rsum_ext n (fun i => rsum n (fun j => 1 * (cor i j * 1))) (fun i => rsum n (fun j => cor i j))) in Hq by (intros; apply rsum_ext; intros; ring). fold S in Hq.
    assert (0 < rsum n (fun _ => 1 ^ 2)) by (apply rsum_pos; [exact Hn|intros; lra]). nra. }
  assert (RS : sqrt S * sqrt S = S) by (apply sqrt_sqrt; lra). assert (RP : 0 < sqrt S) by (now apply sqrt_lt_R0).
  exists (/ sqrt S). split; [now apply Rinv_0_lt_compat|]. split.
  { unfold port_var. rewrite (rsum_ext n _ (fun i => / S * rsum n (fun j => cor i j))).
    - rewrite rsum_scal. fold S. field. lra.
    - intros i _. rewrite <- rsum_scal. apply rsum_ext. intros j _. rewrite <- RS at 3. field. lra. }
  intros i Hi. unfold newton_init. fold S. set (a := / 2 * (rsum n (fun j => cor i j) - 1) / sqrt S). cbv zeta.
  destruct Hb as [Hb _]. pose proof (Hb i Hi) as B.
  assert (Q : sqrt (a * a + bud i) * sqrt (a * a + bud i) = a * a + bud i) by (apply sqrt_sqrt; nra). set (q := sqrt (a * a + bud i)) in *.
  assert (QP : 0 < q) by (apply sqrt_lt_R0; nra). assert (X : 0 < q - a). { destruct (Rle_dec a 0); [lra|]. assert (a < q); [|lra]. apply Rsqr_incrst_0; unfold Rsqr; lra. }
  split; [exact X|]. unfold newton_val. rewrite matvec_setv by exact Hi. rewrite setv_eq, Hd by exact Hi. unfold matvec.
  rewrite (rsum_ext n _ (fun j => / sqrt S * cor i j)) by (intros; ring). rewrite rsum_scal.
  assert (E : rsum n (fun j => cor i j) = 2 * a * sqrt S + 1) by (unfold a; field; lra). change (rsum n (fun j : nat => cor i j)) with (rsum n (cor i)) in E; rewrite E.
  assert (BE : bud i = (q - a) * (q + a)) by nra. rewrite BE. field. lra.
Qed.

(** ** constructor checks *)
Lemma lsum_repeat (x : R) n : lsum (repeat x n) = INR n * x.
Proof. induction n as [|n IH]; [cbn; ring|]. cbn [repeat]. rewrite S_INR. cbn [lsum]. try rewrite IH. try (unfold lsum in *; cbn; rewrite IH). ring. Qed.
Lemma rp_budget_default n : (0 < n)%nat -> exists b, rp_budget n None = Some b /\ length b = n /\ lsum b = 1 /\ forall x, In x b -> x = 1 / INR n.
Proof.
  intros Hn. exists (repeat (1 / INR n) n). split; [reflexivity|]. split; [apply repeat_length|]. split.
  - rewrite lsum_repeat. pose proof (lt_0_INR n Hn). field. lra.
  - intros x Hx. exact (repeat_spec _ _ _ Hx).
Qed.
Lemma rp_budget_given n b b' : rp_budget n (Some b) = Some b' <-> b' = b /\ length b = n /\ Rabs (lsum b - 1) <= / 10 ^ 8 + / 10 ^ 5.
Proof.
  unfold rp_budget. rewrite Rmult_1_r. destruct (Nat.eqb_spec (length b) n) as [E|E]; cbn [negb].
  - destruct (Rle_dec (Rabs (lsum b - 1)) (/ 10 ^ 8 + / 10 ^ 5)) as [L|L]; split.
    + intros H. injection H as <-. auto. + intros [-> _]. reflexivity. + discriminate. + intros [_ [_ H]]. contradiction.
  - split; [discriminate|]. intros [_ [H _]]. contradiction.
Qed.
Lemma np_sign_val x : (0 < x -> np_sign x = 1) /\ (x < 0 -> np_sign x = -1) /\ (x = 0 -> np_sign x = 0).
Proof. unfold np_sign. destruct (Rlt_dec 0 x), (Rlt_dec x 0); repeat split; intros; lra. Qed.
Lemma rp_longshort_array n l s : rp_longshort n (Some (inr l)) = Some s <-> length l = n /\ s = map np_sign l.
Proof.
  unfold rp_longshort. destruct (Nat.eqb_spec (length l) n) as [E|E]; cbn [negb]; split.
  - intros H. injection H as <-. auto. - intros [_ ->]. reflexivity. - discriminate. - intros [H _]. contradiction.
Qed.
Lemma rp_longshort_scalar n x : exists s, rp_longshort n (Some (inl x)) = Some s /\ length s = n /\
  forall y, In y s -> (1 <= x -> y = 1) /\ (x <= -1 -> y = -1) /\ (-1 < x < 1 -> y = 0).
Proof.
  eexists. split; [reflexivity|]. split; [apply repeat_length|]. intros y Hy. apply repeat_spec in Hy. subst y. unfold py_int.
  destruct (np_sign_val (if Rle_dec 0 x then IZR (Int_part x) else - IZR (Int_part (- x)))) as [S1 [S2 S3]].
  destruct (Rle_dec 0 x) as [L|L].
  - destruct (base_Int_part x) as [B1 B2]. split; [|split]; intros H.
    + apply S1. lra. + lra. + apply S3. assert (- 1 < IZR (Int_part x) < 1) by lra. assert (Int_part x = 0%Z) as ->; [|reflexivity]. destruct H0 as [Ha Hb]. apply lt_IZR in Ha, Hb. lia.
  - destruct (base_Int_part (- x)) as [B1 B2]. split; [|split]; intros H.
    + lra. + apply S2. lra. + apply S3. assert (- 1 < IZR (Int_part (- x)) < 1) by lra. assert (Int_part (- x) = 0%Z) as ->; [|lra]. destruct H0 as [Ha Hb]. apply lt_IZR in Ha, Hb. lia.
Qed.
