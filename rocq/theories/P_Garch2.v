From Coq Require Import Reals Lra Lia List Psatz.
From Coquelicot Require Import Coquelicot.
From Verif Require Import Base Gauss Sums M_Opt M_Mgf M_Heston M_Ou M_Garch Spec_Opt Spec_Expect Spec_Garch P_Bsm P_Cir P_Expect P_Gmom P_Garch.
Open Scope R_scope.

(** ** one step *)
Lemma garch_euler_mean p mil dt v0 : 0 <= dt ->
  gauss_expect (garch_euler_raw p mil dt v0) (v0 + v_mr p * (v_theta p - v0) * dt).
Proof.
  intros Hd. set (A := v0 + v_mr p * (v_theta p - v0) * dt). set (c := v_vov p ^ 2 / 2 * v0 * dt).
  destruct mil.
  - pose proof (gauss_poly4 (A - c) (v_vov p * v0 * sqrt dt) c 0 0) as G. replace (A - c + c + 3 * 0) with A in G by ring.
    eapply gauss_expect_ext; [|exact G]. intros z. cbv beta. unfold garch_euler_raw. fold A. fold c. ring.
  - pose proof (gauss_poly4 A (v_vov p * v0 * sqrt dt) 0 0 0) as G. replace (A + 0 + 3 * 0) with A in G by ring.
    eapply gauss_expect_ext; [|exact G]. intros z. cbv beta. unfold garch_euler_raw. fold A. ring.
Qed.
Lemma garch_euler_second p (mil : bool) dt v0 : 0 <= dt ->
  gauss_expect (fun z => garch_euler_raw p mil dt v0 z ^ 2)
    ((v0 + v_mr p * (v_theta p - v0) * dt) ^ 2 + v_vov p ^ 2 * v0 ^ 2 * dt + (if mil then v_vov p ^ 4 * v0 ^ 2 * dt ^ 2 / 2 else 0)).
Proof.
  intros Hd. set (A := v0 + v_mr p * (v_theta p - v0) * dt). set (c := v_vov p ^ 2 / 2 * v0 * dt). set (b := v_vov p * v0 * sqrt dt).
  assert (Eb : b ^ 2 = v_vov p ^ 2 * v0 ^ 2 * dt). { unfold b. rewrite !Rpow_mult_distr, pow2_sqrt by exact Hd. ring. }
  destruct mil.
  - pose proof (gauss_poly4 ((A - c) ^ 2) (2 * (A - c) * b) (b ^ 2 + 2 * (A - c) * c) (2 * b * c) (c ^ 2)) as G.
    match type of G with gauss_expect _ ?x => replace x with (A ^ 2 + v_vov p ^ 2 * v0 ^ 2 * dt + v_vov p ^ 4 * v0 ^ 2 * dt ^ 2 / 2) in G end.
    2: { rewrite Eb. unfold c. field. }
    eapply gauss_expect_ext; [|exact G]. intros z. cbv beta. unfold garch_euler_raw. fold A. fold c b. ring.
  - pose proof (gauss_poly4 (A ^ 2) (2 * A * b) (b ^ 2) 0 0) as G.
    match type of G with gauss_expect _ ?x => replace x with (A ^ 2 + v_vov p ^ 2 * v0 ^ 2 * dt + 0) in G by (rewrite Eb; ring) end.
    eapply gauss_expect_ext; [|exact G]. intros z. cbv beta. unfold garch_euler_raw. fold A. fold b. ring.
Qed.
Lemma garch_euler_nonneg p mil dt v0 z : 0 <= garch_euler p mil dt v0 z.
Proof. unfold garch_euler. cbv zeta. destruct (Rlt_dec _ 0); lra. Qed.
Lemma garch_milstein_pos p dt v0 z : 0 < v0 -> 0 < dt -> 0 < v_mr p -> 0 < v_theta p ->
  (v_vov p ^ 2 + 2 * v_mr p) * dt <= 1 -> 0 < garch_euler_raw p true dt v0 z.
Proof.
  intros Hv Hd Hm Ht Hc. unfold garch_euler_raw.
  assert (E : v0 + v_mr p * (v_theta p - v0) * dt + v_vov p * v0 * sqrt dt * z + v_vov p ^ 2 / 2 * v0 * dt * (z ^ 2 - 1)
    = v_mr p * v_theta p * dt + v0 / 2 * (1 - (v_vov p ^ 2 + 2 * v_mr p) * dt) + v0 / 2 * (1 + v_vov p * sqrt dt * z) ^ 2).
  { replace ((1 + v_vov p * sqrt dt * z) ^ 2) with (1 + 2 * (v_vov p * sqrt dt * z) + v_vov p ^ 2 * (sqrt dt ^ 2) * z ^ 2) by ring.
    rewrite pow2_sqrt by lra. field. }
  rewrite E. assert (0 < v_mr p * v_theta p * dt) by (repeat apply Rmult_lt_0_compat; assumption).
  assert (0 <= v0 / 2 * (1 - (v_vov p ^ 2 + 2 * v_mr p) * dt)) by (apply Rmult_le_pos; lra).
  assert (0 <= v0 / 2 * (1 + v_vov p * sqrt dt * z) ^ 2) by (apply Rmult_le_pos; [lra|apply pow2_ge_0]). lra.
Qed.
Lemma garch_milstein_floor p dt v0 z : 0 < v0 -> 0 < dt -> 0 < v_mr p -> 0 < v_theta p ->
  (v_vov p ^ 2 + 2 * v_mr p) * dt <= 1 -> garch_euler p true dt v0 z = garch_euler_raw p true dt v0 z.
Proof.
  intros. unfold garch_euler. cbv zeta. destruct (Rlt_dec _ 0) as [L|L]; [|reflexivity].
  pose proof (garch_milstein_pos p dt v0 z). lra.
Qed.
Lemma garch_milstein_unbiased p dt v0 : 0 < v0 -> 0 < dt -> 0 < v_mr p -> 0 < v_theta p ->
  (v_vov p ^ 2 + 2 * v_mr p) * dt <= 1 -> gauss_expect (garch_euler p true dt v0) (v0 + v_mr p * (v_theta p - v0) * dt).
Proof.
  intros. eapply gauss_expect_ext; [|apply (garch_euler_mean p true); lra]. intros z. symmetry. apply garch_milstein_floor; assumption.
Qed.
(** log scheme *)
Lemma garch_log_mean p dt v0 : 0 < v0 -> 0 <= dt ->
  gauss_expect (fun z => exp (garch_log_step p dt (ln v0) z)) (v0 * exp ((v_mr p * v_theta p / v0 - v_mr p) * dt)).
Proof.
  intros Hv Hd. pose proof (gauss_expect_scal _ _ (v0 * exp ((v_mr p * v_theta p / v0 - v_mr p - v_vov p ^ 2 / 2) * dt)) (gauss_mgf (v_vov p * sqrt dt))) as G.
  match type of G with gauss_expect _ ?x => replace x with (v0 * exp ((v_mr p * v_theta p / v0 - v_mr p) * dt)) in G end.
  - eapply gauss_expect_ext; [|exact G]. intros z. cbv beta. unfold garch_log_step. rewrite (exp_Ropp (ln v0)), !exp_plus, exp_ln by exact Hv. reflexivity.
  - rewrite Rmult_assoc, <- exp_plus. f_equal. f_equal.
    replace (v_vov p * sqrt dt * (v_vov p * sqrt dt)) with (v_vov p ^ 2 * sqrt dt ^ 2) by ring. rewrite pow2_sqrt by exact Hd. field. lra.
Qed.
Lemma garch_log_rate p v0 : 0 < v0 ->
  is_derive (fun dt => v0 * exp ((v_mr p * v_theta p / v0 - v_mr p) * dt)) 0 (v_mr p * (v_theta p - v0)).
Proof. intros Hv. auto_derive; [trivial|]. Req. rewrite Rmult_0_r, exp_0. field. lra. Qed.

(** ** the conditional spot *)
Definition garch_spot (xi rho k th v0 v j u w : R) : R :=
  exp (rho * (2 * (sqrt v - sqrt v0) / xi - k * th / xi * w + (k / xi + xi / 4) * u - rho / 2 * j)).
Lemma garch_spot_derive xi rho k th v0 v j u w : xi <> 0 -> 0 < v ->
  is_derive (fun y => garch_spot xi rho k th v0 y j u w) v (rho / (xi * sqrt v) * garch_spot xi rho k th v0 v j u w).
Proof.
  intros Hx Hv. pose proof (sqrt_lt_R0 v Hv). unfold garch_spot. auto_derive; [exact Hv|]. Req.
  match goal with |- context[exp ?a] => match goal with |- _ = _ * exp ?b => replace a with b by (unfold Rdiv; ring) end end.
  field. split; [lra|exact Hx].
Qed.
Lemma garch_spot_loading xi rho k th v0 : xi <> 0 -> garch_loading xi rho (garch_spot xi rho k th v0).
Proof.
  intros Hx v j u w Hv. exists (rho / (xi * sqrt v) * garch_spot xi rho k th v0 v j u w).
  split; [apply garch_spot_derive; assumption|]. pose proof (sqrt_lt_R0 v Hv).
  rewrite <- (sqrt_sqrt v) at 1 by lra. field. split; [lra|exact Hx].
Qed.
Lemma garch_spot_martingale xi rho k th v0 : xi <> 0 -> garch_martingale k th xi (garch_spot xi rho k th v0).
Proof.
  intros Hx. set (f := garch_spot xi rho k th v0).
  exists (fun v j u w => rho / (xi * sqrt v) * f v j u w), (fun v j u w => ((rho / (xi * sqrt v)) ^ 2 - rho / (2 * xi * (v * sqrt v))) * f v j u w),
    (fun v j u w => - rho ^ 2 / 2 * f v j u w), (fun v j u w => rho * (k / xi + xi / 4) * f v j u w), (fun v j u w => - rho * k * th / xi * f v j u w).
  intros v j u w Hv. pose proof (sqrt_lt_R0 v Hv) as Hs. pose proof (sqrt_sqrt v ltac:(lra)) as Hq.
  refine (conj _ (conj _ (conj _ (conj _ (conj _ _))))).
  - apply garch_spot_derive; assumption.
  - pose proof (garch_spot_derive xi rho k th v0 v j u w Hx Hv) as D. fold f in D.
    auto_derive.
    + split; [exact Hv|]. split; [apply Rmult_integral_contrapositive; split; [exact Hx|lra]|]. split; [exists (rho / (xi * sqrt v) * f v j u w); exact D|exact I].
    + replace (Derive (fun x => f x j u w) v) with (rho / (xi * sqrt v) * f v j u w) by (symmetry; exact (is_derive_unique _ _ _ D)). Req.
      generalize (f v j u w). intros F. set (s := sqrt v) in *. clearbody s. rewrite <- Hq. field. split; [lra|exact Hx].
  - unfold f, garch_spot. auto_derive; [trivial|]. Req.
    match goal with |- context[exp ?a] => match goal with |- _ = _ * exp ?b => replace a with b by (unfold Rdiv; ring) end end. field.
  - unfold f, garch_spot. auto_derive; [trivial|]. Req.
    match goal with |- context[exp ?a] => match goal with |- _ = _ * exp ?b => replace a with b by (unfold Rdiv; ring) end end. field. exact Hx.
  - unfold f, garch_spot. auto_derive; [trivial|]. Req.
    match goal with |- context[exp ?a] => match goal with |- _ = _ * exp ?b => replace a with b by (unfold Rdiv; ring) end end. field. exact Hx.
  - generalize (f v j u w). intros F. set (s := sqrt v) in *. clearbody s. rewrite <- Hq. field. split; [exact Hx|lra].
Qed.
Lemma garch_spot_start xi rho k th v0 : garch_spot xi rho k th v0 v0 0 0 0 = 1.
Proof. unfold garch_spot. rewrite <- exp_0. f_equal. unfold Rdiv. ring. Qed.

Lemma garch_spot_code p scheme z dts T v0 v j u w : T <> 0 ->
  garch_loop p scheme z 0 dts v0 0 0 (Some 0) = Some (v, j, u, Some w) ->
  garch_cond_spot_sigma p scheme z dts T v0 =
    Some (Some (garch_spot (v_vov p) (v_rho p) (v_mr p) (v_theta p) v0 v j u w), sqrt ((1 - v_rho p ^ 2) / v0 * (j / T))).
Proof.
  intros HT H. unfold garch_cond_spot_sigma. rewrite H. f_equal. f_equal. f_equal. unfold garch_spot. f_equal. f_equal.
  unfold Rdiv. replace ((- v_mr p * v_theta p * (w * / T) * / v_vov p + (v_mr p * / v_vov p + v_vov p * / 4) * (u * / T) - v_rho p * (j * / T) * / 2) * T)
    with ((- v_mr p * v_theta p * w * / v_vov p + (v_mr p * / v_vov p + v_vov p * / 4) * u - v_rho p * j * / 2) * (/ T * T)) by ring.
  rewrite Rinv_l by exact HT. ring.
Qed.
(** the three accumulated integrals are trapezoidal sums along the simulated variance path *)
Lemma last_cons' (l : list R) x d : last (x :: l) d = last l x.
Proof. revert x d. induction l as [|y l IH]; intros x d; [reflexivity|]. change (last (y :: l) d = last (y :: l) x). rewrite !IH. reflexivity. Qed.
Lemma garch_loop_inv p scheme z : (scheme <= 2)%nat -> forall dts i v j u w vt jt ut wt, 0 < v ->
  garch_loop p scheme z i dts v j u (Some w) = Some (vt, jt, ut, Some wt) ->
  exists vs, length vs = length dts /\ (forall x, In x vs -> 0 < x) /\ last vs v = vt /\
    (forall n, (n < length dts)%nat -> exists a b c, garch_step p scheme (z (i + n)%nat) (nth n dts 0) (nth n (v :: vs) 0) = Some (nth n vs 0, a, b, c)) /\
    jt = j + trap (fun x => x) dts vs v /\ ut = u + trap sqrt dts vs v /\ wt = w + trap (fun x => / sqrt x) dts vs v.
Proof.
  intros Hsc. induction dts as [|d t IH]; intros i v j u w vt jt ut wt Hv H; cbn [garch_loop] in H.
  - injection H as <- <- <- <-. exists nil. unfold trap. cbn. repeat split; try lra; try contradiction. intros n Hn. lia.
  - destruct (garch_step p scheme (z i) d v) as [[[[v' a] b] c]|] eqn:E; [|discriminate].
    destruct c as [c|]; cbn [omap2] in H.
    2: { exfalso. clear - H. revert H. generalize (S i) v' (j + a * d) (u + b * d). induction t as [|d' t' IH]; intros i' q y x H; cbn [garch_loop] in H; [discriminate|].
         destruct (garch_step p scheme (z i') d' q) as [[[[v1 a1] b1] c1]|]; [|discriminate]. cbn [omap2] in H. eapply IH. exact H. }
    assert (G : 0 < v' /\ a = (v + v') / 2 /\ b = (sqrt v + sqrt v') / 2 /\ c = (/ sqrt v + / sqrt v') / 2).
    { clear IH H. unfold garch_step in E. destruct (Nat.ltb scheme 2).
      - injection E as E1 E2 E3 E4. rewrite E1 in *. assert (0 <= v') by (rewrite <- E1; apply garch_euler_nonneg).
        unfold np_inv in E4. destruct (Req_EM_T (sqrt v) 0); [discriminate|]. destruct (Req_EM_T (sqrt v') 0) as [|N]; [discriminate|].
        cbn [omap2] in E4. injection E4 as <-. repeat split; auto. destruct (Rle_lt_or_eq_dec 0 v' H) as [L|L]; [exact L|]. exfalso. apply N. rewrite <- L. apply sqrt_0.
      - destruct (Nat.eqb scheme 2); [|discriminate]. set (q := exp (garch_log_step p d (ln v) (z i) / 2)) in *.
        injection E as E1 E2 E3 E4. assert (Q : 0 < q) by apply exp_pos. assert (S' : sqrt v' = q). { rewrite <- E1. replace (q * (q * 1)) with (q * q) by ring. apply sqrt_square. lra. }
        unfold np_inv in E4. destruct (Req_EM_T (sqrt v) 0); [discriminate|]. destruct (Req_EM_T q 0) as [|N]; [discriminate|]. cbn [omap2] in E4. injection E4 as <-.
        rewrite S'. subst a b. rewrite E1. repeat split; auto. rewrite <- E1. nra. }
    destruct G as (Hv' & -> & -> & ->).
    destruct (IH _ _ _ _ _ _ _ _ _ Hv' H) as (vs & L & P & La & St & A & B & C).
    exists (v' :: vs). split; [cbn; congruence|]. split; [intros x [<-|I]; auto|].
    split. { rewrite last_cons'. exact La. }
    split.
    { intros n Hn. destruct n as [|n]. - rewrite Nat.add_0_r. cbn [nth]. rewrite E. eauto.
      - cbn [nth]. destruct (St n ltac:(cbn in Hn; lia)) as (x & y & q & Q). replace (i + S n)%nat with (S i + n)%nat by lia. cbn [nth] in Q. eauto. }
    unfold trap in *. cbn [combine map lsum fold_right] in *. subst jt ut wt. unfold lsum. cbn [fold_right]. repeat split; ring.
Qed.
Lemma garch_loop_floor p scheme z dts i v j u : forall n d, garch_loop p scheme z i dts v j u None <> Some (n, d, d, Some d).
Proof.
  revert i v j u. induction dts as [|d t IH]; intros i v j u n y H; cbn [garch_loop] in H; [discriminate|].
  destruct (garch_step p scheme (z i) d v) as [[[[v1 a1] b1] c1]|]; [|discriminate]. cbn [omap2] in H. eapply IH. exact H.
Qed.
Lemma garch_loop_none p scheme z : (scheme <= 2)%nat -> forall dts i v j u, exists v' j' u', garch_loop p scheme z i dts v j u None = Some (v', j', u', None).
Proof.
  intros Hs. induction dts as [|d t IH]; intros i v j u; cbn [garch_loop]; [eauto|].
  assert (exists q, garch_step p scheme (z i) d v = Some q) as [[[[v1 a1] b1] c1] E].
  { unfold garch_step. destruct (Nat.ltb scheme 2) eqn:A; [eauto|]. apply Nat.ltb_ge in A. replace scheme with 2%nat by lia. cbn. eauto. }
  rewrite E. cbn [omap2]. apply IH.
Qed.
Lemma garch_floor_first p scheme z dts d T v0 : (scheme < 2)%nat -> 0 < v0 -> garch_euler_raw p (Nat.eqb scheme 1) d v0 (z 0%nat) <= 0 ->
  exists s, garch_cond_spot_sigma p scheme z (d :: dts) T v0 = Some (None, s).
Proof.
  intros Hs Hv H. unfold garch_cond_spot_sigma. cbn [garch_loop]. unfold garch_step. pose proof Hs as Hs'. apply Nat.ltb_lt in Hs'. rewrite Hs'.
  assert (E : garch_euler p (Nat.eqb scheme 1) d v0 (z 0%nat) = 0). { unfold garch_euler. cbv zeta. destruct (Rlt_dec _ 0); lra. }
  rewrite E, sqrt_0.
  assert (N : np_inv 0 = None). { unfold np_inv. destruct (Req_EM_T 0 0); [reflexivity|lra]. } rewrite N.
  replace (omap2 (fun a b : R => (a + b) / 2) (np_inv (sqrt v0)) None) with (@None R) by (destruct (np_inv (sqrt v0)); reflexivity).
  cbn [omap2]. destruct (garch_loop_none p scheme z ltac:(lia) dts 1%nat 0 (0 + (v0 + 0) / 2 * d) (0 + (sqrt v0 + 0) / 2 * d)) as (a & b & c & Q).
  rewrite Q. eauto.
Qed.
Lemma garch_bad_scheme p scheme z dts d T v0 : (2 < scheme)%nat -> garch_cond_spot_sigma p scheme z (d :: dts) T v0 = None.
Proof.
  intros H. unfold garch_cond_spot_sigma. cbn [garch_loop]. unfold garch_step.
  replace (Nat.ltb scheme 2) with false by (symmetry; apply Nat.ltb_ge; lia). replace (Nat.eqb scheme 2) with false by (symmetry; apply Nat.eqb_neq; lia). reflexivity.
Qed.

Lemma trap_cons g d t x vs v : trap g (d :: t) (x :: vs) v = (g v + g x) / 2 * d + trap g t vs x.
Proof. reflexivity. Qed.
Lemma trap_nonneg g : forall dts vs v, (forall d, In d dts -> 0 <= d) -> 0 <= g v -> (forall x, In x vs -> 0 <= g x) -> 0 <= trap g dts vs v.
Proof.
  induction dts as [|d t IH]; intros vs v Hd Hv Hs; [cbn; lra|]. destruct vs as [|x vs]; [cbn; lra|]. rewrite trap_cons.
  assert (0 <= g x) by (apply Hs; left; reflexivity).
  pose proof (IH vs x (fun d H => Hd d (or_intror H)) H (fun y Hy => Hs y (or_intror Hy))) as P.
  assert (0 <= (g v + g x) / 2 * d) by (apply Rmult_le_pos; [lra|apply Hd; left; reflexivity]). lra.
Qed.
Lemma garch_conditional p : v_vov p <> 0 -> v_rho p ^ 2 <= 1 -> forall v0, 0 < v0 -> exists f : R -> R -> R -> R -> R,
  garch_martingale (v_mr p) (v_theta p) (v_vov p) f /\ garch_loading (v_vov p) (v_rho p) f /\ f v0 0 0 0 = 1 /\
  forall scheme z dts T s sg, (scheme <= 2)%nat -> 0 < T -> (forall d, In d dts -> 0 <= d) ->
    garch_cond_spot_sigma p scheme z dts T v0 = Some (Some s, sg) ->
    exists vs, length vs = length dts /\ (forall x, In x vs -> 0 < x) /\
      (forall n, (n < length dts)%nat -> exists a b c, garch_step p scheme (z n) (nth n dts 0) (nth n (v0 :: vs) 0) = Some (nth n vs 0, a, b, c)) /\
      s = f (last vs v0) (trap (fun x => x) dts vs v0) (trap sqrt dts vs v0) (trap (fun x => / sqrt x) dts vs v0) /\
      v0 * sg ^ 2 * T = (1 - v_rho p ^ 2) * trap (fun x => x) dts vs v0.
Proof.
  intros Hx Hr v0 Hv. exists (garch_spot (v_vov p) (v_rho p) (v_mr p) (v_theta p) v0).
  split; [apply garch_spot_martingale; exact Hx|]. split; [apply garch_spot_loading; exact Hx|]. split; [apply garch_spot_start|].
  intros scheme z dts T s sg Hsc HT Hd H.
  destruct (garch_loop p scheme z 0 dts v0 0 0 (Some 0)) as [[[[vt jt] ut] wt]|] eqn:E; [|unfold garch_cond_spot_sigma in H; rewrite E in H; discriminate].
  destruct wt as [wt|]; [|unfold garch_cond_spot_sigma in H; rewrite E in H; discriminate].
  rewrite (garch_spot_code p scheme z dts T v0 vt jt ut wt ltac:(lra) E) in H. injection H as <- <-.
  destruct (garch_loop_inv p scheme z Hsc _ _ _ _ _ _ _ _ _ _ Hv E) as (vs & L & P & La & St & A & B & C).
  exists vs. split; [exact L|]. split; [exact P|]. split; [intros n Hn; destruct (St n Hn) as (a & b & c & Q); exists a, b, c; exact Q|].
  split. { rewrite La. rewrite A, B, C, !Rplus_0_l. reflexivity. }
  rewrite A, Rplus_0_l. pose proof (trap_nonneg (fun x => x) dts vs v0 Hd ltac:(lra) (fun x Hx => Rlt_le _ _ (P x Hx))) as TN.
  set (J := trap _ _ _ _) in *. rewrite pow2_sqrt.
  - field. lra.
  - pose proof (Rinv_0_lt_compat _ Hv). pose proof (Rinv_0_lt_compat _ HT). clearbody J. apply Rmult_le_pos; apply Rmult_le_pos; lra.
Qed.
