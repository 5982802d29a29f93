From Coq Require Import Reals List Lra Lia Psatz.
From Coquelicot Require Import Coquelicot.
From Verif Require Import Base Sums Spec_Cev M_Fd M_Rough Spec_Rough P_Half P_Gamma P_Gamma2 P_Cev5 P_Cev7.
Open Scope R_scope.

Lemma npow_1 x y : 0 < x -> npow x y = Rpower x y.
Proof. intros H. unfold npow. destruct (Req_EM_T y 0) as [->|_]; [symmetry; now apply Rpower_O|]. destruct (Req_EM_T x 0); [lra|reflexivity]. Qed.
Lemma npow_0 y : 0 < y -> npow 0 y = 0.
Proof. intros H. unfold npow. destruct (Req_EM_T y 0); [lra|]. destruct (Req_EM_T 0 0); [reflexivity|lra]. Qed.
Lemma npow_S x y : 0 <= x -> 0 < y -> npow x (y + 1) = x * npow x y.
Proof.
  intros [H| <-] Hy.
  - rewrite !npow_1 by exact H. rewrite Rpower_plus, Rpower_1 by exact H. ring.
  - rewrite !npow_0 by lra. ring.
Qed.
Lemma npow_mul x d y : 0 <= x -> 0 < d -> 0 < y -> npow (x * d) y = npow x y * Rpower d y.
Proof.
  intros [H| <-] Hd Hy.
  - rewrite !npow_1 by nra. now rewrite Rpower_mult_distr.
  - rewrite Rmult_0_l, !npow_0 by lra. ring.
Qed.

Section Pieces.
Variables (al t : R).
Hypothesis (Hal : 0 < al).
(** minus the antiderivative of (t-s)^(al-1) (A + B s) *)
Definition Gp (A B s : R) : R := npow (t - s) al / al * (A + B * s) + B * npow (t - s) (al + 1) / (al * (al + 1)).
Lemma Gp_derive A B s : s < t -> is_derive (fun s => - Gp A B s) s (Rpower (t - s) (al - 1) * (A + B * s)).
Proof.
  intros Hs. apply (is_derive_ext_loc (fun s => - (Rpower (t - s) al / al * (A + B * s) + B * Rpower (t - s) (al + 1) / (al * (al + 1))))).
  - apply (locally_interval _ s m_infty t); simpl; [exact I|lra|]. intros y _ Hy. simpl in Hy. unfold Gp. now rewrite !npow_1 by lra.
  - unfold Rpower. auto_derive; [repeat split; lra|]. Req.
    assert (E1 : exp ((al - 1) * ln (t - s)) = exp (al * ln (t - s)) / (t - s)).
    { replace ((al - 1) * ln (t - s)) with (al * ln (t - s) + - ln (t - s)) by ring. rewrite exp_plus, exp_Ropp, exp_ln by lra. reflexivity. }
    assert (E2 : exp ((al + 1) * ln (t - s)) = exp (al * ln (t - s)) * (t - s)).
    { replace ((al + 1) * ln (t - s)) with (al * ln (t - s) + ln (t - s)) by ring. rewrite exp_plus, exp_ln by lra. reflexivity. }
    replace (t + - s) with (t - s) by ring. rewrite E1, E2. field. repeat split; lra.
Qed.
Lemma Gp_cont A B s : s < t -> continuous (fun s => Rpower (t - s) (al - 1) * (A + B * s)) s.
Proof. intros Hs. apply (ex_derive_continuous (K := R_AbsRing) (V := R_NormedModule)). unfold Rpower. auto_derive. lra. Qed.
Lemma piece A B a b : a <= b -> b < t -> is_RInt (fun s => Rpower (t - s) (al - 1) * (A + B * s)) a b (Gp A B a - Gp A B b).
Proof.
  intros Hab Hb. replace (Gp A B a - Gp A B b) with (minus (- Gp A B b) (- Gp A B a)) by (unfold minus, plus, opp; cbn; ring).
  apply (is_RInt_derive (fun s => - Gp A B s)); intros x Hx; rewrite Rmin_left, Rmax_right in Hx by lra; [apply Gp_derive|apply Gp_cont]; lra.
Qed.
Lemma npow_lim y : 0 < y -> filterlim (fun s => npow (t - s) y) (at_left t) (locally 0).
Proof.
  intros Hy. apply (filterlim_ext_loc (fun s => Rpower (t - s) y)).
  - exists (mkposreal 1 Rlt_0_1). intros s _ Hs. now rewrite npow_1 by lra.
  - apply (filterlim_comp _ _ _ (fun s => t - s) (fun x => Rpower x y) (at_left t) (at_right 0) (locally 0)).
    + intros P [e He]. exists e. intros s Hs Hlt. apply He; [|lra]. unfold ball in *. cbn in *. unfold AbsRing_ball, abs, minus, plus, opp in *. cbn in *.
      replace (t - s + - 0) with (- (s + - t)) by ring. now rewrite Rabs_Ropp.
    + now apply pow_lim0.
Qed.
Lemma Gp_lim A B : filterlim (fun s => - Gp A B s) (at_left t) (locally 0).
Proof.
  assert (H1 : filterlim (fun s => npow (t - s) al * ((A + B * s) / al)) (at_left t) (locally 0)).
  { replace 0 with (0 * ((A + B * t) / al)) by ring.
    refine (filterlim_comp_2 _ _ Rmult (npow_lim al Hal) _ (filterlim_mult (K := R_AbsRing) 0 ((A + B * t) / al))).
    assert (Cn : filterlim (fun s => (A + B * s) / al) (locally t) (locally ((A + B * t) / al))).
    { apply (ex_derive_continuous (K := R_AbsRing) (V := R_NormedModule) (fun s => (A + B * s) / al)). auto_derive. lra. }
    intros Q HQ. destruct (Cn Q HQ) as [e He]. exists e. intros s Hs _. now apply He. }
  assert (H2 : filterlim (fun s => (B / (al * (al + 1))) * npow (t - s) (al + 1)) (at_left t) (locally 0)).
  { replace 0 with ((B / (al * (al + 1))) * 0) by ring. apply (filterlim_comp _ _ _ (fun s => npow (t - s) (al + 1)) (fun x => (B / (al * (al + 1))) * x) _ (locally 0)).
    - apply npow_lim. lra.
    - apply (filterlim_scal_r (K := R_AbsRing) (V := R_NormedModule)). }
  apply (filterlim_ext (fun s => - (npow (t - s) al * ((A + B * s) / al) + (B / (al * (al + 1))) * npow (t - s) (al + 1)))).
  - intros s. unfold Gp. field. lra.
  - replace 0 with (- (0 + 0)) by ring. apply (filterlim_comp _ _ _ (fun s => npow (t - s) al * ((A + B * s) / al) + (B / (al * (al + 1))) * npow (t - s) (al + 1)) Ropp _ (locally (0 + 0))).
    + exact (filterlim_comp_2 _ _ Rplus H1 H2 (filterlim_plus (V := R_NormedModule) 0 0)).
    + exact (filterlim_opp (V := R_NormedModule) (0 + 0)).
Qed.
Lemma last_piece A B a : a < t -> is_RInt_gen (V := R_NormedModule) (fun s => Rpower (t - s) (al - 1) * (A + B * s)) (at_point a) (at_left t) (Gp A B a).
Proof.
  intros Ha Q HQ.
  assert (L : filterlim (fun b => - Gp A B b + Gp A B a) (at_left t) (locally (Gp A B a))).
  { apply (filterlim_ext (fun b => Gp A B a + - Gp A B b)); [intros; ring|]. replace (locally (Gp A B a)) with (locally (Gp A B a + 0)) by (f_equal; ring).
    exact (filterlim_comp_2 _ _ Rplus (filterlim_const (F := at_left t) (Gp A B a)) (Gp_lim A B) (filterlim_plus (V := R_NormedModule) (Gp A B a) 0)). }
  apply (Filter_prod _ _ _ (fun x => x = a) (fun b => a <= b < t /\ Q (- Gp A B b + Gp A B a))).
  - reflexivity.
  - apply filter_and; [|exact (L Q HQ)]. assert (He : 0 < t - a) by lra. exists (mkposreal _ He). intros s Hs Hl. unfold ball in Hs. cbn in Hs. unfold AbsRing_ball, abs, minus, plus, opp in Hs. cbn in Hs.
    apply Rabs_def2 in Hs. lra.
  - intros x b -> [Hb HQb]. exists (- Gp A B b + Gp A B a). split; [|exact HQb]. cbn. replace (- Gp A B b + Gp A B a) with (Gp A B a - Gp A B b) by ring. apply piece; lra.
Qed.
End Pieces.

(** sum over pieces *)
Section Grid.
Variables (Gam : R -> R) (al delta : R).
Hypotheses (HG : gamma_function Gam) (Hal : 0 < al) (Hd : 0 < delta).
Variables (A B : nat -> R) (f : R -> R).
Hypothesis Hf : forall m s, INR m * delta < s < INR (S m) * delta -> f s = A m + B m * s.
Lemma grid_part (t : R) (n : nat) : INR n * delta < t ->
  is_RInt (fun s => Rpower (t - s) (al - 1) * f s) 0 (INR n * delta) (rsum n (fun m => Gp al t (A m) (B m) (INR m * delta) - Gp al t (A m) (B m) (INR (S m) * delta))).
Proof using Hal Hd Hf.
  induction n as [|n IH]; intros Ht; cbn [rsum].
  - cbn [INR]. rewrite Rmult_0_l. apply (is_RInt_point (V := R_NormedModule)).
  - assert (Hn : INR n * delta < INR (S n) * delta) by (rewrite S_INR; nra).
    apply (is_RInt_Chasles (V := R_NormedModule) _ 0 (INR n * delta) _ _ _); [apply IH; lra|].
    apply (is_RInt_ext (fun s => Rpower (t - s) (al - 1) * (A n + B n * s))).
    + intros s. rewrite Rmin_left, Rmax_right by lra. intros Hs. now rewrite (Hf n s Hs).
    + apply piece; [exact Hal|lra|exact Ht].
Qed.
Lemma grid_full (k : nat) (t : R) : t = INR (S k) * delta ->
  is_RInt_gen (V := R_NormedModule) (fun s => Rpower (t - s) (al - 1) * f s) (at_point 0) (at_left t)
    (rsum k (fun m => Gp al t (A m) (B m) (INR m * delta) - Gp al t (A m) (B m) (INR (S m) * delta)) + Gp al t (A k) (B k) (INR k * delta)).
Proof using Hal Hd Hf.
  intros Et. assert (Hk : INR k * delta < t) by (rewrite Et, S_INR; nra).
  apply (is_RInt_gen_Chasles (V := R_NormedModule) (Fa := at_point 0) (Fc := at_left t) _ (INR k * delta)).
  - rewrite is_RInt_gen_at_point. apply grid_part. exact Hk.
  - apply (is_RInt_gen_ext (V := R_NormedModule) (fun s => Rpower (t - s) (al - 1) * (A k + B k * s))); [|apply last_piece; assumption].
    apply (Filter_prod _ _ _ (fun x => x = INR k * delta) (fun b => INR k * delta < b < t)).
    + reflexivity.
    + assert (He : 0 < t - INR k * delta) by lra. exists (mkposreal _ He). intros s Hs Hl. unfold ball in Hs. cbn in Hs. unfold AbsRing_ball, abs, minus, plus, opp in Hs. cbn in Hs.
      apply Rabs_def2 in Hs. lra.
    + intros x b -> Hb s. cbn [fst snd]. rewrite Rmin_left, Rmax_right by lra. intros Hs. rewrite (Hf k s); [reflexivity|]. rewrite <- Et. lra.
Qed.
End Grid.

Lemma Gam_1 Gam al : gamma_function Gam -> 0 < al -> Gam (al + 1) = al * Gam al.
Proof. intros HG H. now apply Gam_succ. Qed.
Lemma Gam_2 Gam al : gamma_function Gam -> 0 < al -> Gam (al + 2) = (al + 1) * (al * Gam al).
Proof. intros HG H. replace (al + 2) with (al + 1 + 1) by ring. rewrite (Gam_succ Gam HG (al + 1)) by lra. now rewrite (Gam_succ Gam HG al H). Qed.

Lemma predictor Gam al delta (k : nat) (g : nat -> R) (f : R -> R) : gamma_function Gam -> 0 < al -> 0 < delta -> steps_of delta g f ->
  frac_integral Gam al (INR (S k) * delta) f (rsum (S k) (fun j => b_j_kp1 Gam al k delta j * g j)).
Proof.
  intros HG Hal Hd Hf. unfold frac_integral.
  assert (Hf' : forall m s, INR m * delta < s < INR (S m) * delta -> f s = g m + 0 * s) by (intros m s H; rewrite (Hf m s H); ring).
  pose proof (grid_full al delta Hal Hd g (fun _ => 0) f Hf' k _ eq_refl) as R0.
  match type of R0 with is_RInt_gen _ _ _ ?v => replace (Gam al * _) with v; [exact R0|] end.
  pose proof (Gam_pos Gam HG al Hal) as GP.
  cbn [rsum]. rewrite Rmult_plus_distr_l, <- rsum_scal. f_equal.
  - apply rsum_ext. intros m Hm. unfold Gp, b_j_kp1. rewrite (Gam_1 Gam al HG Hal).
    assert (Hm' : INR (S m) <= INR k) by (apply le_INR; lia). rewrite S_INR in Hm'; rewrite !S_INR.
    replace ((INR k + 1) * delta - INR m * delta) with ((INR k - INR m + 1) * delta) by ring.
    replace ((INR k + 1) * delta - (INR m + 1) * delta) with ((INR k - INR m) * delta) by ring.
    rewrite !npow_mul by lra. cbv beta. field. lra.
  - unfold Gp, b_j_kp1. rewrite (Gam_1 Gam al HG Hal). rewrite S_INR.
    replace ((INR k + 1) * delta - INR k * delta) with ((INR k - INR k + 1) * delta) by ring. replace (INR k - INR k) with 0 by ring. rewrite (npow_0 al) by lra.
    rewrite !npow_mul by lra. field. lra.
Qed.

(** weights of one linear piece, in units of delta^al / (al (al+1)) *)
Lemma collect (w0 w1 y : nat -> R) n : rsum (S n) (fun m => w0 m * y m + w1 m * y (S m))
  = w0 O * y O + rsum n (fun m => (w0 (S m) + w1 m) * y (S m)) + w1 n * y (S n).
Proof. induction n as [|n IH]; [cbn [rsum]; ring|]. cbn [rsum] in *. rewrite IH. ring. Qed.

Lemma corrector Gam al delta (k : nat) (g : nat -> R) (f : R -> R) : gamma_function Gam -> 0 < al -> 0 < delta -> lines_of delta g f ->
  frac_integral Gam al (INR (S k) * delta) f (rsum (S (S k)) (fun j => a_j_kp1 Gam al k delta j * g j)).
Proof.
  intros HG Hal Hd Hf. unfold frac_integral.
  set (B := fun m => (g (S m) - g m) / delta). set (A := fun m => g m - INR m * delta * B m).
  assert (Hf' : forall m s, INR m * delta < s < INR (S m) * delta -> f s = A m + B m * s).
  { intros m s H. rewrite (Hf m s H). unfold A, B. field. lra. }
  pose proof (grid_full al delta Hal Hd A B f Hf' k _ eq_refl) as R0.
  match type of R0 with is_RInt_gen _ _ _ ?v => replace (Gam al * _) with v; [exact R0|] end.
  pose proof (Gam_pos Gam HG al Hal) as GP. clear R0 Hf Hf'.
  set (P := fun m : nat => npow (INR k - INR m + 1) al). set (P1 := fun m : nat => npow (INR k - INR m + 1) (al + 1)).
  set (w0 := fun m => (al + 1) * P m - P1 m + P1 (S m)). set (w1 := fun m => P1 m - (al + 1) * P (S m) - P1 (S m)).
  set (c := Rpower delta al / (al * (al + 1))).
  assert (E : forall m, (m <= k)%nat -> Gp al (INR (S k) * delta) (A m) (B m) (INR m * delta) - (if Nat.eqb m k then 0 else Gp al (INR (S k) * delta) (A m) (B m) (INR (S m) * delta)) = c * (w0 m * g m + w1 m * g (S m))).
  { intros m Hm. apply le_INR in Hm as Hm'. unfold Gp, w0, w1, P, P1, A, B, c.
    replace (INR k - INR (S m) + 1) with (INR k - INR m) by (rewrite S_INR; ring).
    replace (INR (S k) * delta - INR m * delta) with ((INR k - INR m + 1) * delta) by (rewrite S_INR; ring).
    replace (INR (S k) * delta - INR (S m) * delta) with ((INR k - INR m) * delta) by (rewrite !S_INR; ring).
    rewrite !npow_mul by lra. rewrite Rpower_plus, Rpower_1 by lra.
    destruct (Nat.eqb_spec m k) as [->|_].
    - replace (INR k - INR k) with 0 by ring. rewrite (npow_0 al), (npow_0 (al + 1)) by lra. field. lra.
    - rewrite S_INR. field. lra. }
  assert (E0 : rsum (S k) (fun m => c * (w0 m * g m + w1 m * g (S m))) = Gam al * rsum (S (S k)) (fun j => a_j_kp1 Gam al k delta j * g j)).
  { rewrite rsum_scal, collect. rewrite rsum_shift. cbn [rsum]. rewrite <- !Rplus_assoc.
    pose proof (Gam_2 Gam al HG Hal) as G2. assert (Hk : 0 <= INR k) by apply pos_INR.
    assert (T0 : c * (w0 O) = Gam al * a_j_kp1 Gam al k delta 0).
    { unfold a_j_kp1, w0, c, P, P1. cbn [Nat.eqb]. rewrite G2. replace (INR k - INR 0 + 1) with (INR k + 1) by (cbn [INR]; ring).
      replace (INR k - INR 1 + 1) with (INR k) by (cbn [INR]; ring). rewrite (npow_S (INR k + 1) al) by lra. field. lra. }
    assert (T2 : c * (w1 k) = Gam al * a_j_kp1 Gam al k delta (S k)).
    { unfold a_j_kp1, w1, c, P, P1. replace (Nat.eqb (S k) 0) with false by reflexivity. replace (Nat.eqb (S k) (k + 1)) with true by (symmetry; apply Nat.eqb_eq; lia). rewrite G2.
      replace (INR k - INR k + 1) with 1 by ring. replace (INR k - INR (S k) + 1) with 0 by (rewrite S_INR; ring).
      rewrite (npow_0 al), (npow_0 (al + 1)) by lra. rewrite npow_1 by lra. unfold Rpower at 2. rewrite ln_1, Rmult_0_r, exp_0. field. lra. }
    assert (T1 : c * rsum k (fun m => (w0 (S m) + w1 m) * g (S m)) = Gam al * rsum k (fun m => a_j_kp1 Gam al k delta (S m) * g (S m))).
    { rewrite <- !rsum_scal. apply rsum_ext. intros m Hm. unfold a_j_kp1, w0, w1, c, P, P1.
      replace (Nat.eqb (S m) 0) with false by reflexivity. replace (Nat.eqb (S m) (k + 1)) with false by (symmetry; apply Nat.eqb_neq; lia). rewrite G2.
      replace (INR k - INR m + 1) with (INR k - INR (S m) + 2) by (rewrite S_INR; ring).
      replace (INR k - INR (S (S m)) + 1) with (INR k - INR (S m)) by (rewrite !S_INR; ring). field. lra. }
    rewrite !Rmult_plus_distr_l, <- !Rmult_assoc, T0, T2, T1. ring. }
  rewrite <- E0. cbn [rsum]. f_equal.
  - apply rsum_ext. intros m Hm. rewrite <- E by lia. replace (Nat.eqb m k) with false by (symmetry; apply Nat.eqb_neq; lia). reflexivity.
  - rewrite <- E by lia. rewrite Nat.eqb_refl. ring.
Qed.
