(** ModifiedEM and Fast of heston_rough_mc.py. *)
From Coq Require Import Reals List Lra Lia Psatz ZArith.
From Coquelicot Require Import Coquelicot.
From Verif Require Import Base Sums Spec_Cev P_Gamma P_Gamma2 M_Fd M_Opt M_Rough P_Rough M_RoughMc Spec_RoughMc.
Import ListNotations.
Open Scope R_scope.

Lemma cell_reg (h : R -> R) (t a b v : R) : a < b -> is_RInt (fun s => h (t - s)) a b v -> (forall s, a <= s <= b -> continuous (fun s => h (t - s)) s) -> cell_integral h t a b v.
Proof.
  intros Hab H C. unfold cell_integral. intros Q HQ.
  assert (Ex : forall y, a <= y <= b -> ex_RInt (fun s => h (t - s)) a y).
  { intros y Hy. apply (ex_RInt_continuous (V := R_CompleteNormedModule)). intros s Hs. rewrite Rmin_left, Rmax_right in Hs by lra. apply C. lra. }
  assert (L : filterlim (fun y => RInt (fun s => h (t - s)) a y) (at_left b) (locally v)).
  { (* continuity of the integral from the left *)
    intros P HP. destruct HP as [e He].
    assert (Bd : exists m, 0 < m /\ forall s, a <= s <= b -> Rabs (h (t - s)) <= m).
    { destruct (continuity_ab_maj (fun s => Rabs (h (t - s))) a b ltac:(lra)) as [M [HM _]].
      - intros s Hs. apply continuity_pt_filterlim. apply (continuous_comp (fun s => h (t - s)) Rabs); [apply C; exact Hs|]. apply (continuous_abs (K := R_AbsRing)).
      - exists (Rabs (h (t - M)) + 1). split; [pose proof (Rabs_pos (h (t - M))); lra|]. intros s Hs. specialize (HM s Hs). lra. }
    destruct Bd as [m [Pm Bm]]. assert (Pd : 0 < Rmin (e / m) (b - a)) by (apply Rmin_glb_lt; [apply Rdiv_lt_0_compat; [apply cond_pos|exact Pm]|lra]).
    exists (mkposreal _ Pd). intros y Hy Hlt. apply He. change (Rabs (y - b) < Rmin (e / m) (b - a)) in Hy. change (Rabs (RInt (fun s => h (t - s)) a y - v) < e).
    apply Rabs_def2 in Hy. pose proof (Rmin_l (e / m) (b - a)). pose proof (Rmin_r (e / m) (b - a)).
    assert (Hya : a <= y) by lra.
    assert (E : v = RInt (fun s => h (t - s)) a y + RInt (fun s => h (t - s)) y b).
    { rewrite <- (is_RInt_unique _ _ _ _ H). symmetry. apply (RInt_Chasles (V := R_CompleteNormedModule)); [apply Ex; lra|]. apply (ex_RInt_continuous (V := R_CompleteNormedModule)). intros s Hs. rewrite Rmin_left, Rmax_right in Hs by lra. apply C. lra. }
    replace (RInt (fun s => h (t - s)) a y - v) with (- RInt (fun s => h (t - s)) y b) by (rewrite E; ring). rewrite Rabs_Ropp.
    apply Rle_lt_trans with ((b - y) * m).
    - apply (abs_RInt_le_const (fun s => h (t - s)) y b m); [lra| |intros s Hs; apply Bm; lra]. apply (ex_RInt_continuous (V := R_CompleteNormedModule)). intros s Hs. rewrite Rmin_left, Rmax_right in Hs by lra. apply C. lra.
    - apply Rlt_le_trans with (e / m * m); [apply Rmult_lt_compat_r; lra|]. right. field. lra. }
  apply (Filter_prod _ _ _ (fun x => x = a) (fun y => a <= y < b /\ Q (RInt (fun s => h (t - s)) a y))).
  - reflexivity.
  - apply filter_and; [|exact (L Q HQ)]. assert (He : 0 < b - a) by lra. exists (mkposreal _ He). intros s Hs Hl. unfold ball in Hs. cbn in Hs. unfold AbsRing_ball, abs, minus, plus, opp in Hs. cbn in Hs.
    apply Rabs_def2 in Hs. lra.
  - intros x y -> [Hy HQy]. exists (RInt (fun s => h (t - s)) a y). split; [|exact HQy]. apply (RInt_correct (V := R_CompleteNormedModule)). apply Ex. lra.
Qed.
Lemma cell_scal (c : R) (h : R -> R) (t a b v : R) : cell_integral h t a b v -> cell_integral (fun u => c * h u) t a b (c * v).
Proof. intros H. exact (is_RInt_gen_scal (V := R_NormedModule) (Fa := at_point a) (Fb := at_left b) (fun s => h (t - s)) c v H). Qed.
(** powers *)
Lemma cell_pow (r t a b : R) : 0 < r -> a < b -> b <= t -> cell_integral (fun u => Rpower u (r - 1)) t a b (npow (t - a) r / r - npow (t - b) r / r).
Proof.
  intros Hr Hab [Hb| ->].
  - apply cell_reg; [exact Hab| |].
    + pose proof (piece r t Hr 1 0 a b ltac:(lra) Hb) as P. unfold Gp in P.
      replace (npow (t - a) r / r - npow (t - b) r / r) with (npow (t - a) r / r * (1 + 0 * a) + 0 * npow (t - a) (r + 1) / (r * (r + 1)) - (npow (t - b) r / r * (1 + 0 * b) + 0 * npow (t - b) (r + 1) / (r * (r + 1)))) by (field; lra).
      eapply is_RInt_ext; [|exact P]. intros s _. cbn. ring.
    + intros s Hs. apply (ex_derive_continuous (K := R_AbsRing) (V := R_NormedModule)). unfold Rpower. auto_derive. lra.
  - pose proof (last_piece r t Hr 1 0 a Hab) as P. unfold Gp in P. replace (t - t) with 0 by ring. rewrite npow_0 by exact Hr.
    replace (npow (t - a) r / r - 0 / r) with (npow (t - a) r / r * (1 + 0 * a) + 0 * npow (t - a) (r + 1) / (r * (r + 1))) by (field; lra).
    unfold cell_integral. apply (is_RInt_gen_ext (V := R_NormedModule) (fun s => Rpower (t - s) (r - 1) * (1 + 0 * s))); [|exact P].
    apply (Filter_prod _ _ _ (fun x => True) (fun x => True)); [exact I|apply filter_true|]. intros x y _ _ s _. Req. ring.
Qed.
Section EM.
Variable Gam : R -> R.
Hypothesis HG : gamma_function Gam.
Variables (p : rhp) (dt : R).
Hypothesis (Hdt : 0 < dt) (Hal : rh_alpha p < / 2).
Let al := rh_alpha p.
Lemma gam2 : Gam (2 - al) = (1 - al) * Gam (1 - al).
Proof. replace (2 - al) with (1 - al + 1) by ring. apply (Gam_succ Gam HG). unfold al. lra. Qed.
Lemma gam1_pos : 0 < Gam (1 - al). Proof. apply (Gam_pos Gam HG). unfold al. lra. Qed.
Lemma grid_sub n k : rm_grid dt n - rm_grid dt (S k) + dt = rm_grid dt n - rm_grid dt k.
Proof. unfold rm_grid. rewrite S_INR. ring. Qed.
Lemma term1_int n k : (k < n)%nat -> cell_integral (rough_kernel Gam al) (rm_grid dt n) (rm_grid dt k) (rm_grid dt (S k)) (1 / Gam (2 - al) * rm_term1 al dt (rm_grid dt n) (rm_grid dt (S k))).
Proof.
  intros Hk. unfold rm_term1. rewrite grid_sub, gam2. pose proof gam1_pos as PG. assert (H1 : 0 < 1 - al) by (unfold al; lra).
  assert (Hab : rm_grid dt k < rm_grid dt (S k)) by (unfold rm_grid; rewrite S_INR; lra).
  assert (Hb : rm_grid dt (S k) <= rm_grid dt n) by (unfold rm_grid; apply Rmult_le_compat_r; [lra|apply le_INR; lia]).
  pose proof (cell_scal (/ Gam (1 - al)) _ _ _ _ _ (cell_pow (1 - al) (rm_grid dt n) _ _ H1 Hab Hb)) as P.
  match goal with |- cell_integral _ _ _ _ ?q => replace q with (/ Gam (1 - al) * (npow (rm_grid dt n - rm_grid dt k) (1 - al) / (1 - al) - npow (rm_grid dt n - rm_grid dt (S k)) (1 - al) / (1 - al))) by (field; lra) end.
  unfold cell_integral in *. eapply is_RInt_gen_ext; [|exact P]. apply (Filter_prod _ _ _ (fun x => True) (fun x => True)); [exact I|apply filter_true|]. intros x y _ _ s _.
  unfold rough_kernel. Req. replace (1 - al - 1) with (- al) by ring. unfold Rdiv. ring.
Qed.
Lemma term2_int n k : (k < n)%nat -> exists w, rm_term2 al dt (rm_grid dt n) (rm_grid dt (S k)) = Some w /\ cell_std (rough_kernel Gam al) (rm_grid dt n) (rm_grid dt k) (rm_grid dt (S k)) (1 / Gam (1 - al) * w).
Proof.
  intros Hk. unfold rm_term2. destruct (Rlt_dec al (/ 2)) as [_|N]; [|contradiction]. eexists. split; [reflexivity|]. rewrite grid_sub. pose proof gam1_pos as PG. assert (H1 : 0 < 1 - 2 * al) by (unfold al; lra).
  assert (Hab : rm_grid dt k < rm_grid dt (S k)) by (unfold rm_grid; rewrite S_INR; lra).
  assert (Hb : rm_grid dt (S k) <= rm_grid dt n) by (unfold rm_grid; apply Rmult_le_compat_r; [lra|apply le_INR; lia]).
  set (q := (npow (rm_grid dt n - rm_grid dt k) (1 - 2 * al) - npow (rm_grid dt n - rm_grid dt (S k)) (1 - 2 * al)) / (1 - 2 * al)).
  assert (Hq : 0 <= q).
  { unfold q. apply Rmult_le_pos; [|left; now apply Rinv_0_lt_compat]. rewrite (npow_1 (rm_grid dt n - rm_grid dt k)) by lra. destruct Hb as [Hb| ->].
    - rewrite npow_1 by lra. apply Rge_le, Rge_minus, Rle_ge. unfold Rpower. apply exp_le. apply Rmult_le_compat_l; [lra|]. apply ln_le; lra.
    - replace (rm_grid dt n - rm_grid dt n) with 0 by ring. rewrite npow_0 by exact H1. unfold Rpower. pose proof (exp_pos ((1 - 2 * al) * ln (rm_grid dt n - rm_grid dt k))). lra. }
  split; [apply Rmult_le_pos; [apply Rlt_le, Rdiv_lt_0_compat; lra|apply sqrt_pos]|].
  rewrite Rpow_mult_distr. replace (sqrt q ^ 2) with q by (cbn [pow]; rewrite Rmult_1_r; symmetry; now apply sqrt_sqrt).
  pose proof (cell_scal ((1 / Gam (1 - al)) ^ 2) _ _ _ _ _ (cell_pow (1 - 2 * al) (rm_grid dt n) _ _ H1 Hab Hb)) as P.
  replace q with (npow (rm_grid dt n - rm_grid dt k) (1 - 2 * al) / (1 - 2 * al) - npow (rm_grid dt n - rm_grid dt (S k)) (1 - 2 * al) / (1 - 2 * al)) by (unfold q; field; lra).
  unfold cell_integral in *. eapply is_RInt_gen_ext; [|exact P]. apply (Filter_prod _ _ _ (fun x => True) (fun x => True)); [exact I|apply filter_true|]. intros x y _ _ s _.
  unfold rough_kernel. Req. replace (1 - 2 * al - 1) with (- al + - al) by ring. rewrite Rpower_plus. field. lra.
Qed.
Lemma osum_some (n : nat) (t : nat -> option R) (u : nat -> R) : (forall k, (k < n)%nat -> t k = Some (u k)) -> osum n t = Some (rsum n u).
Proof. induction n; intros H; [reflexivity|]. cbn [osum rsum]. rewrite IHn by (intros; apply H; lia). rewrite H by lia. reflexivity. Qed.
Lemma osum_all (n : nat) (t : nat -> option R) s : osum n t = Some s -> forall k, (k < n)%nat -> t k <> None.
Proof.
  revert s. induction n; intros s H k Hk; [lia|]. cbn [osum] in H. destruct (osum n t) as [a|] eqn:E; [|discriminate]. destruct (t n) eqn:E2; [|discriminate].
  destruct (Nat.eq_dec k n) as [->|N]; [congruence|]. apply (IHn a eq_refl). lia.
Qed.
Lemma root_ok_iff v : root_ok v = true <-> 0 <= v.
Proof. unfold root_ok. destruct (Rle_dec 0 v); split; intros; [assumption|reflexivity|discriminate|lra]. Qed.
Lemma em_next_spec i (V Z : nat -> R) v : em_next Gam p dt i V Z = Some v ->
  (forall k, (k < S i)%nat -> 0 <= V k) /\
  exists A B : nat -> R, (forall k, (k < S i)%nat -> cell_integral (rough_kernel Gam al) (INR (S i) * dt) (INR k * dt) (INR (S k) * dt) (A k) /\ cell_std (rough_kernel Gam al) (INR (S i) * dt) (INR k * dt) (INR (S k) * dt) (B k)) /\
    v = rh_sigma p + rsum (S i) (fun k => rm_f p (V k) * A k + rm_g p (V k) * B k * Z k).
Proof.
  unfold em_next. fold al. intros E. destruct (osum _ _) as [s|] eqn:O; [|discriminate]. assert (Ev := f_equal (fun o => match o with Some q => q | None => 0 end) E). cbv beta iota zeta in Ev. subst v. clear E.
  assert (N : forall k, (k < S i)%nat -> 0 <= V k).
  { intros k Hk. pose proof (osum_all _ _ _ O k Hk) as Q. cbv beta in Q. destruct (root_ok (V k)) eqn:R; [now apply root_ok_iff|congruence]. }
  split; [exact N|].
  pose (W := fun k => match rm_term2 al dt (rm_grid dt (S i)) (rm_grid dt (S k)) with Some w => w | None => 0 end).
  assert (O2 : osum (S i) (fun k => if root_ok (V k) then match rm_term2 al dt (rm_grid dt (S i)) (rm_grid dt (S k)) with Some w => Some (rm_g p (V k) * w * Z k) | None => None end else None) = Some (rsum (S i) (fun k => rm_g p (V k) * W k * Z k))).
  { apply osum_some. intros k Hk. rewrite (proj2 (root_ok_iff (V k)) (N k Hk)). destruct (term2_int (S i) k Hk) as [w [Ew _]]. unfold W. rewrite Ew. reflexivity. }
  rewrite O2 in O. assert (Es := f_equal (fun o => match o with Some q => q | None => 0 end) O). cbv beta iota in Es. subst s. clear O O2.
  exists (fun k => 1 / Gam (2 - al) * rm_term1 al dt (rm_grid dt (S i)) (rm_grid dt (S k))), (fun k => 1 / Gam (1 - al) * W k). split.
  - intros k Hk. split; [exact (term1_int (S i) k Hk)|]. destruct (term2_int (S i) k Hk) as [w [Ew C]]. unfold W. rewrite Ew. exact C.
  - rewrite <- !rsum_scal. rewrite Rplus_assoc. f_equal. rewrite <- rsum_plus. apply rsum_ext. intros k _. ring.
Qed.
Lemma em_path_spec n (Z : nat -> R) V : em_path Gam p dt Z n = Some V ->
  length V = S n /\ (forall m, (m < n)%nat -> 0 <= nth m V 0) /\
  forall m, (m <= n)%nat -> volterra_em (rough_kernel Gam al) dt (rh_sigma p) (fun k => rm_f p (nth k V 0)) (fun k => rm_g p (nth k V 0)) (fun k => nth k V 0) Z m.
Proof.
  revert V. induction n; intros V H.
  - cbn [em_path] in H. inversion H; subst V; clear H. split; [reflexivity|]. split; [intros; lia|]. intros m Hm. assert (m = 0%nat) as -> by lia. exists (fun _ => 0), (fun _ => 0). split; [intros; lia|]. cbn. ring.
  - cbn [em_path] in H. destruct (em_path Gam p dt Z n) as [V'|]; [|discriminate]. destruct (em_next Gam p dt n (fun k => nth k V' 0) Z) as [v|] eqn:E; [|discriminate].
    inversion H; subst V; clear H. destruct (IHn V' eq_refl) as (L & N & Q). destruct (em_next_spec n _ Z v E) as (N2 & A & B & C & Ev).
    assert (X : forall k, (k < S n)%nat -> nth k (V' ++ [v]) 0 = nth k V' 0) by (intros; apply app_nth1; lia).
    assert (Xn : nth (S n) (V' ++ [v]) 0 = v) by (rewrite app_nth2 by lia; replace (S n - length V')%nat with 0%nat by lia; reflexivity).
    split; [rewrite app_length; cbn; lia|]. split; [intros m Hm; rewrite X by exact Hm; now apply N2|].
    intros m Hm. destruct (Nat.eq_dec m (S n)) as [->|Nm].
    + exists A, B. split; [exact C|]. rewrite Xn. transitivity (rh_sigma p + rsum (S n) (fun k => rm_f p (nth k V' 0) * A k + rm_g p (nth k V' 0) * B k * Z k)); [exact Ev|]. f_equal. apply rsum_ext. intros k Hk. pose proof (X k Hk) as Xk. cbv beta. rewrite Xk. reflexivity.
    + destruct (Q m ltac:(lia)) as (A' & B' & C' & E'). exists A', B'. split; [exact C'|]. rewrite X by lia. rewrite E'. f_equal. apply rsum_ext. intros k Hk. pose proof (X k ltac:(lia)) as Xk. cbv beta. rewrite Xk. reflexivity.
Qed.
(** a path with non-negative entries is carried on *)
Lemma em_defined n (Z : nat -> R) V : em_path Gam p dt Z n = Some V -> 0 <= nth n V 0 -> exists v, em_path Gam p dt Z (S n) = Some (V ++ [v]).
Proof.
  intros E P. cbn [em_path]. rewrite E. destruct (em_path_spec n Z V E) as (L & N & _).
  unfold em_next. fold al.
  erewrite osum_some; [eexists; reflexivity|]. intros k Hk. cbv beta. instantiate (1 := fun k => rm_g p (nth k V 0) * match rm_term2 al dt (rm_grid dt (S n)) (rm_grid dt (S k)) with Some w => w | None => 0 end * Z k). cbv beta.
  assert (K : 0 <= nth k V 0) by (destruct (Nat.eq_dec k n) as [->|]; [exact P|apply N; lia]). rewrite (proj2 (root_ok_iff _) K).
  destruct (term2_int (S n) k Hk) as [w [Ew _]]. rewrite Ew. reflexivity.
Qed.
Lemma em_stops n (Z : nat -> R) V : em_path Gam p dt Z n = Some V -> nth n V 0 < 0 -> em_path Gam p dt Z (S n) = None.
Proof.
  intros E P. cbn [em_path]. rewrite E. destruct (em_next Gam p dt n (fun k => nth k V 0) Z) as [v|] eqn:F; [|reflexivity].
  destruct (em_next_spec n _ Z v F) as [N _]. specialize (N n ltac:(lia)). lra.
Qed.
End EM.
Lemma em_nan Gam p dt Z n : / 2 <= rh_alpha p -> 0 <= rh_sigma p -> em_path Gam p dt Z (S n) = None.
Proof.
  intros Ha Hs. induction n.
  - cbn [em_path]. unfold em_next. cbn [osum nth]. unfold rm_grid at 2. cbn [INR]. unfold root_ok. destruct (Rle_dec 0 (rh_sigma p)); [|reflexivity]. unfold rm_term2. destruct (Rlt_dec (rh_alpha p) (/ 2)); [lra|].
    destruct (Req_EM_T (rh_alpha p) (/ 2)); [reflexivity|]. unfold rm_grid. cbn [INR]. destruct (Req_EM_T (1 * dt) (1 * dt)); [reflexivity|lra].
  - cbn [em_path] in *. rewrite IHn. reflexivity.
Qed.
(** some draw makes the variance negative after one step *)
Lemma em_negative Gam p dt : gamma_function Gam -> 0 < dt -> rh_alpha p < / 2 -> 0 < rh_sigma p -> 0 < rh_vov p ->
  exists Z, em_path Gam p dt Z 2 = None.
Proof.
  intros HG Hdt Ha Hs Hv. pose proof (gam1_pos Gam HG p Ha) as PG. cbv zeta in PG.
  destruct (term2_int Gam HG p dt Hdt Ha 1 0 ltac:(lia)) as [w [Ew _]].
  assert (Pw : 0 < w).
  { unfold rm_term2 in Ew. destruct (Rlt_dec (rh_alpha p) (/ 2)); [|lra]. inversion Ew. apply sqrt_lt_R0. unfold rm_grid. cbn [INR]. replace (1 * dt - 1 * dt) with 0 by ring. rewrite npow_0 by lra. rewrite npow_1 by lra.
    apply Rdiv_lt_0_compat; [|lra]. unfold Rpower. pose proof (exp_pos ((1 - 2 * rh_alpha p) * ln (0 + dt))). lra. }
  set (a := rh_sigma p + 1 / Gam (2 - rh_alpha p) * (0 + rm_f p (rh_sigma p) * rm_term1 (rh_alpha p) dt (rm_grid dt 1) (rm_grid dt 1))).
  set (b := 1 / Gam (1 - rh_alpha p) * (rm_g p (rh_sigma p) * w)).
  assert (Pb : 0 < b). { unfold b, rm_g. apply Rmult_lt_0_compat; [apply Rdiv_lt_0_compat; lra|]. apply Rmult_lt_0_compat; [apply Rmult_lt_0_compat; [exact Hv|now apply sqrt_lt_R0]|exact Pw]. }
  exists (fun _ => - (a + 1) / b). apply (em_stops Gam HG p dt Hdt Ha 1 _ [rh_sigma p; -1]); [|cbn; lra].
  cbn [em_path]. unfold em_next. cbn [osum nth rsum]. rewrite (proj2 (root_ok_iff _) (Rlt_le _ _ Hs)). rewrite Ew. cbn [app]. f_equal. f_equal. f_equal.
  transitivity (a + b * (- (a + 1) / b)); [unfold a, b; ring|]. field. lra.
Qed.
