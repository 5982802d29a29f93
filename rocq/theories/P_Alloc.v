(** Risk parity by cyclical coordinate descent: each update is exact, the objective decreases, the loop terminates. *)
From Coq Require Import Reals Lra Lia Psatz List Arith.
From Verif Require Import Base Sums M_Params Spec_Alloc M_Alloc.
Import ListNotations.
Open Scope R_scope.

Lemma quad_port n c w : quad_form n c w = port_var n c w.
Proof. unfold quad_form, port_var, matvec. apply rsum_ext. intros i _. rewrite rsum_scal. reflexivity. Qed.
Lemma setv_eq w i x : setv w i x i = x. Proof. unfold setv. now rewrite Nat.eqb_refl. Qed.
Lemma setv_neq w i x j : j <> i -> setv w i x j = w j. Proof. unfold setv. intros H. now destruct (Nat.eqb_spec j i). Qed.
Lemma rsum_setv n (f : nat -> R) w i x : (i < n)%nat -> rsum n (fun j => f j * setv w i x j) = rsum n (fun j => f j * w j) + f i * (x - w i).
Proof.
  intros Hi. transitivity (rsum n (fun j => f j * w j + kd i j * (f j * (x - w i)))).
  - apply rsum_ext. intros j _. unfold setv, kd. destruct (Nat.eqb_spec j i), (Nat.eq_dec i j); subst; try congruence; ring.
  - rewrite rsum_plus, rsum_kd by exact Hi. reflexivity.
Qed.
Lemma matvec_setv n c w i x k : (i < n)%nat -> matvec n c (setv w i x) k = matvec n c w k + c k i * (x - w i).
Proof. intros. unfold matvec. now rewrite rsum_setv. Qed.
Lemma port_setv n c w i x : (forall j k, (j < n)%nat -> (k < n)%nat -> c j k = c k j) -> (i < n)%nat ->
  port_var n c (setv w i x) = port_var n c w + 2 * (x - w i) * matvec n c w i + c i i * (x - w i) ^ 2.
Proof.
  intros Hs Hi. rewrite <- !quad_port. unfold quad_form.
  transitivity (rsum n (fun j => matvec n c w j * setv w i x j + (x - w i) * (c j i * setv w i x j))).
  { apply rsum_ext. intros j Hj. rewrite matvec_setv by exact Hi. ring. }
  rewrite rsum_plus, rsum_scal, !rsum_setv by exact Hi.
  replace (rsum n (fun j => c j i * w j)) with (matvec n c w i).
  2:{ unfold matvec. apply rsum_ext. intros j Hj. now rewrite Hs. }
  replace (rsum n (fun j => matvec n c w j * w j)) with (rsum n (fun j => w j * matvec n c w j)) by (apply rsum_ext; intros; ring). ring.
Qed.

Lemma vmax_lt n f t : 0 < t -> (vmax n f < t <-> forall i, (i < n)%nat -> Rabs (f i) < t).
Proof.
  intros Ht. unfold vmax. split.
  - intros H i Hi. assert (HI : In i (seq 0 n)) by (apply in_seq; lia). revert H HI. generalize (seq 0 n). induction l as [|k l IH]; [intros _ []|].
    cbn. intros H [->|HI]; [|apply IH; [|exact HI]]; eapply Rle_lt_trans; try exact H; [apply Rmax_l|apply Rmax_r].
  - intros H. assert (HI : forall i, In i (seq 0 n) -> Rabs (f i) < t) by (intros i Hi; apply H; apply in_seq in Hi; lia).
    revert HI. generalize (seq 0 n). induction l as [|k l IH]; cbn; intros HI; [exact Ht|]. apply Rmax_lub_lt; [apply HI; now left|apply IH; intros; apply HI; now right].
Qed.

Lemma ln_le_sub1 (x : R) : 0 < x -> ln x <= x - 1.
Proof.
  intros Hx. destruct (Req_dec x 1) as [->|N]; [rewrite ln_1; lra|].
  pose proof (exp_ineq1 (ln x)) as E. rewrite exp_ln in E by exact Hx. assert (ln x <> 0); [|specialize (E H); lra].
  intros H. apply N. rewrite <- (exp_ln x Hx), H. apply exp_0.
Qed.

Lemma INR_archimed (g A : R) : 0 < g -> exists N, INR N * g > A.
Proof.
  intros G. destruct (archimed (A / g)) as [H _]. exists (Z.to_nat (up (A / g))). rewrite INR_IZR_INZ.
  assert (A / g < IZR (Z.of_nat (Z.to_nat (up (A / g))))) by (eapply Rlt_le_trans; [exact H|]; apply IZR_le; lia).
  apply (Rmult_lt_compat_r g) in H0; [|exact G]. unfold Rdiv in H0. rewrite Rmult_assoc, Rinv_l in H0 by lra. unfold Rdiv. lra.
Qed.

Section Ccd.
  Variables (n : nat) (c : mat) (b ls : vec).
  Hypotheses (Hc : correlation_matrix n c) (Hb : budgets n b) (Hl : long_short n ls).
  Let f := budget_objective n c b.
  Let sym : forall i j, (i < n)%nat -> (j < n)%nat -> c i j = c j i. Proof using Hc. apply Hc. Qed.
  Let diag : forall i, (i < n)%nat -> c i i = 1. Proof using Hc. apply Hc. Qed.
  Let bpos : forall i, (i < n)%nat -> 0 < b i. Proof using Hb. apply Hb. Qed.

  (** the exact coordinate update *)
  Lemma ls_sq i : (i < n)%nat -> ls i * ls i = 1. Proof using Hl. intros Hi. destruct (Hl i Hi) as [-> | ->]; ring. Qed.
  Lemma root_eq (i : nat) (a : R) : (i < n)%nat -> let x := ls i * sqrt (a * a + b i) - a in x * (x + 2 * a) = b i /\ 0 < ls i * x.
  Proof using Hl Hb.
    intros Hi x. pose proof (bpos i Hi) as B. assert (P : 0 < a * a + b i) by nra.
    set (q := sqrt (a * a + b i)) in *. assert (Q : q * q = a * a + b i) by (apply sqrt_sqrt; lra). assert (Q0 : 0 < q) by (apply sqrt_lt_R0; exact P).
    assert (E : x * (x + 2 * a) = b i).
    { unfold x. replace ((ls i * q - a) * (ls i * q - a + 2 * a)) with (ls i * ls i * (q * q) - a * a) by ring. rewrite ls_sq by exact Hi. lra. }
    split; [exact E|]. assert (Aq : Rabs a < q).
    { destruct (Rlt_le_dec (Rabs a) q) as [|L]; [assumption|exfalso]. pose proof (Rabs_pos a). assert (q * q <= Rabs a * Rabs a) by (apply Rmult_le_compat; lra).
      rewrite <- Rabs_mult, Rabs_right in H0 by (apply Rle_ge; nra). lra. }
    unfold x. replace (ls i * (ls i * q - a)) with (ls i * ls i * q - ls i * a) by ring. rewrite ls_sq by exact Hi.
    apply Rabs_def2 in Aq. destruct (Hl i Hi) as [-> | ->]; lra.
  Qed.
  Lemma step_exact w i : (i < n)%nat -> let w' := ccd_step n c b ls w i in
    w' i * matvec n c w' i = b i /\ 0 < ls i * w' i /\ (forall j, j <> i -> w' j = w j).
  Proof using Hl Hb Hc.
    intros Hi w'. unfold w', ccd_step. cbv zeta. set (a := (matvec n c w i - w i) / 2). destruct (root_eq i a Hi) as [E S]. set (x := ls i * sqrt (a * a + b i) - a) in *.
    split; [|split]; [|rewrite setv_eq; exact S|intros; now apply setv_neq].
    rewrite setv_eq, matvec_setv by exact Hi. rewrite diag by exact Hi. rewrite <- E. unfold a. field.
  Qed.
  Lemma lnabs_diff (x y s : R) : 0 < s * x -> 0 < s * y -> ln (Rabs y) - ln (Rabs x) <= y / x - 1.
  Proof using.
    intros Hx Hy. assert (Nx : x <> 0) by (intros ->; lra). assert (Ny : y <> 0) by (intros ->; lra).
    assert (P : 0 < y / x). { destruct (Rlt_le_dec 0 s) as [S|S].
      - assert (0 < x) by nra. assert (0 < y) by nra. now apply Rdiv_lt_0_compat.
      - assert (x < 0) by nra. assert (y < 0) by nra. replace (y / x) with ((- y) / (- x)) by (field; exact Nx). apply Rdiv_lt_0_compat; lra. }
    replace (ln (Rabs y) - ln (Rabs x)) with (ln (y / x)); [now apply ln_le_sub1|].
    rewrite <- (Rabs_right (y / x)) by lra. unfold Rdiv. rewrite Rabs_mult, Rabs_inv. rewrite ln_mult, ln_Rinv; [ring|now apply Rabs_pos_lt|now apply Rabs_pos_lt|apply Rinv_0_lt_compat; now apply Rabs_pos_lt].
  Qed.
  (** objective as a function of one coordinate; descent *)
  Lemma obj_setv w i x : (i < n)%nat -> f (setv w i x) = f w + (x - w i) * matvec n c w i + (x - w i) ^ 2 / 2 - b i * (ln (Rabs x) - ln (Rabs (w i))).
  Proof using Hc.
    intros Hi. unfold f, budget_objective. rewrite port_setv by (try exact sym; exact Hi). rewrite diag by exact Hi.
    replace (rsum n (fun j => b j * ln (Rabs (setv w i x j)))) with (rsum n (fun j => b j * ln (Rabs (w j))) + b i * (ln (Rabs x) - ln (Rabs (w i)))).
    - field.
    - rewrite <- (rsum_kd n i (fun j => b j * (ln (Rabs x) - ln (Rabs (w i))))) by exact Hi. rewrite <- rsum_plus. apply rsum_ext. intros j _. unfold setv, kd.
      destruct (Nat.eqb_spec j i), (Nat.eq_dec i j); subst; try congruence; ring.
  Qed.
  (** any other value y of the same sign has objective larger by at least (y - x)^2 / 2 *)
  Lemma step_min w i y : (i < n)%nat -> 0 < ls i * y -> let w' := ccd_step n c b ls w i in f w' + (y - w' i) ^ 2 / 2 <= f (setv w i y).
  Proof using Hl Hb Hc.
    intros Hi Hy w'. destruct (step_exact w i Hi) as (E & S & _). fold w' in E, S. unfold w', ccd_step in *. cbv zeta in *. set (a := (matvec n c w i - w i) / 2) in *.
    set (x := ls i * sqrt (a * a + b i) - a) in *. rewrite setv_eq in *. rewrite matvec_setv, diag in E by exact Hi. rewrite !obj_setv by exact Hi.
    pose proof (lnabs_diff x y (ls i) S Hy) as L. pose proof (bpos i Hi) as B. assert (Nx : x <> 0) by (intros Z; rewrite Z in S; lra).
    assert (L' : b i * (ln (Rabs y) - ln (Rabs x)) <= (matvec n c w i + 1 * (x - w i)) * (y - x)).
    { apply Rle_trans with (b i * (y / x - 1)); [apply Rmult_le_compat_l; lra|]. right. rewrite <- E. field. exact Nx. }
    clearbody x a. nra.
  Qed.

  (** partial sweeps *)
  Definition psweep (k : nat) (w : vec) : vec := fold_left (ccd_step n c b ls) (seq 0 k) w.
  Lemma psweep_S k w : psweep (S k) w = ccd_step n c b ls (psweep k w) k.
  Proof using. unfold psweep. rewrite seq_S, fold_left_app. reflexivity. Qed.
  Lemma psweep_old k w j : (k <= n)%nat -> (k <= j)%nat -> psweep k w j = w j.
  Proof using Hl Hb Hc.
    induction k; intros Hk Hj; [reflexivity|]. rewrite psweep_S. destruct (step_exact (psweep k w) k ltac:(lia)) as (_ & _ & H). rewrite H by lia. apply IHk; lia.
  Qed.
  Lemma psweep_new k w j : (k <= n)%nat -> (j < k)%nat -> psweep k w j = psweep (S j) w j.
  Proof using Hl Hb Hc.
    induction k; intros Hk Hj; [lia|]. destruct (Nat.eq_dec j k) as [->|]; [reflexivity|]. rewrite psweep_S.
    destruct (step_exact (psweep k w) k ltac:(lia)) as (_ & _ & H). rewrite H by lia. apply IHk; lia.
  Qed.
  Lemma psweep_sign k w j : (k <= n)%nat -> (j < k)%nat -> 0 < ls j * psweep k w j.
  Proof using Hl Hb Hc. intros Hk Hj. rewrite psweep_new by lia. rewrite psweep_S. apply step_exact. lia. Qed.
  Lemma psweep_keeps_sign k w : (k <= n)%nat -> (forall j, (j < n)%nat -> 0 < ls j * w j) -> forall j, (j < n)%nat -> 0 < ls j * psweep k w j.
  Proof using Hl Hb Hc. intros Hk Hw j Hj. destruct (Nat.lt_ge_cases j k); [now apply psweep_sign|]. rewrite psweep_old by lia. now apply Hw. Qed.
  Lemma step_descent w i : (i < n)%nat -> 0 < ls i * w i -> let w' := ccd_step n c b ls w i in f w' + (w i - w' i) ^ 2 / 2 <= f w.
  Proof using Hl Hb Hc.
    intros Hi Hw w'. pose proof (step_min w i (w i) Hi Hw) as H. cbv zeta in H. fold w' in H. eapply Rle_trans; [exact H|]. right.
    rewrite obj_setv by exact Hi. field.
  Qed.
  Lemma psweep_descent k w : (k <= n)%nat -> (forall j, (j < n)%nat -> 0 < ls j * w j) ->
    f (psweep k w) + rsum k (fun j => (w j - psweep n w j) ^ 2) / 2 <= f w.
  Proof using Hl Hb Hc.
    intros Hk Hw. induction k; [cbn; lra|]. cbn [rsum].
    pose proof (step_descent (psweep k w) k ltac:(lia) (psweep_keeps_sign k w ltac:(lia) Hw k ltac:(lia))) as H. cbv zeta in H. rewrite <- psweep_S in H.
    rewrite psweep_old in H by lia. rewrite <- (psweep_new n w k) in H by lia. specialize (IHk ltac:(lia)). lra.
  Qed.

  (** positivity of the variance *)
  Lemma var_pos w : (exists i, (i < n)%nat /\ w i <> 0) -> 0 < port_var n c w.
  Proof using Hc.
    intros (i & Hi & Hw). destruct Hc as (_ & _ & lam & L0 & L). apply Rlt_le_trans with (2 := L w). apply Rmult_lt_0_compat; [exact L0|].
    apply Rlt_le_trans with (w i ^ 2); [nra|]. rewrite <- (rsum_kd n i (fun j => w j ^ 2)) by exact Hi. apply rsum_le. intros k _. unfold kd. destruct Nat.eq_dec; nra.
  Qed.
  Lemma coef_le i j : (i < n)%nat -> (j < n)%nat -> Rabs (c i j) <= 1.
  Proof using Hc.
    intros Hi Hj. destruct (Nat.eq_dec i j) as [->|Nij]; [rewrite diag by exact Hj; rewrite Rabs_R1; lra|].
    destruct Hc as (_ & _ & lam & L0 & L).
    assert (Q : forall s, 0 <= port_var n c (fun k => kd i k + s * kd j k)).
    { intros s. apply Rle_trans with (2 := L _). apply Rmult_le_pos; [lra|]. apply rsum_nonneg. intros. apply pow2_ge_0. }
    assert (E : forall s, port_var n c (fun k => kd i k + s * kd j k) = 1 + 2 * s * c i j + s ^ 2).
    { intros s. unfold port_var. transitivity (rsum n (fun k => (kd i k + s * kd j k) * (c k i + s * c k j))).
      - apply rsum_ext. intros k Hk. rewrite rsum_scal. f_equal. transitivity (rsum n (fun l => kd i l * c k l + s * (kd j l * c k l))); [apply rsum_ext; intros; ring|].
        rewrite rsum_plus, rsum_scal, !rsum_kd by assumption. reflexivity.
      - transitivity (rsum n (fun k => kd i k * (c k i + s * c k j) + s * (kd j k * (c k i + s * c k j)))); [apply rsum_ext; intros; ring|].
        rewrite rsum_plus, rsum_scal, !rsum_kd by assumption. rewrite !diag by assumption. rewrite (sym j i) by assumption. ring. }
    pose proof (Q 1) as Q1. pose proof (Q (-1)) as Q2. rewrite E in Q1, Q2. apply Rabs_le. lra.
  Qed.

  Lemma n_pos : (0 < n)%nat.
  Proof using Hb. apply Nat.neq_0_lt_0. intros Z. destruct Hb as [_ S]. rewrite Z in S. exact (R1_neq_R0 (eq_sym S)). Qed.
  Lemma sweep_eq w : ccd_sweep n c b ls w = psweep n w. Proof using. reflexivity. Qed.
  Lemma sweep_sign w j : (j < n)%nat -> 0 < ls j * ccd_sweep n c b ls w j.
  Proof using Hl Hb Hc. intros. rewrite sweep_eq. now apply psweep_sign. Qed.
  Lemma sweep_var w : 0 < port_var n c (ccd_sweep n c b ls w).
  Proof using Hl Hb Hc.
    apply var_pos. exists 0%nat. pose proof n_pos. split; [assumption|]. pose proof (sweep_sign w 0 ltac:(assumption)). intros Z. rewrite Z in *. lra.
  Qed.
  (** rescaling *)
  Lemma scale_pos w : let w1 := ccd_sweep n c b ls w in 0 < ccd_scale n c w1 /\ ccd_scale n c w1 * ccd_scale n c w1 = port_var n c w1.
  Proof using Hl Hb Hc. intros w1. unfold ccd_scale. rewrite quad_port. pose proof (sweep_var w). split; [now apply sqrt_lt_R0|apply sqrt_sqrt; unfold w1; lra]. Qed.
  Lemma port_scal (w : vec) (t : R) : port_var n c (fun i => w i / t) = port_var n c w / (t * t).
  Proof using.
    unfold port_var, Rdiv. rewrite Rinv_mult. rewrite <- rsum_scal_r. apply rsum_ext. intros i _. rewrite <- rsum_scal_r. apply rsum_ext. intros j _. ring.
  Qed.
  Lemma next_var w : port_var n c (ccd_next n c b ls w) = 1.
  Proof using Hl Hb Hc. unfold ccd_next. cbv zeta. rewrite port_scal. destruct (scale_pos w) as [P E]. cbv zeta in E. rewrite E. field. rewrite <- E. nra. Qed.
  Lemma next_sign w j : (j < n)%nat -> 0 < ls j * ccd_next n c b ls w j.
  Proof using Hl Hb Hc.
    intros Hj. unfold ccd_next. cbv zeta. destruct (scale_pos w) as [P E]. pose proof (sweep_sign w j Hj). unfold Rdiv. rewrite <- Rmult_assoc.
    apply Rmult_lt_0_compat; [assumption|now apply Rinv_0_lt_compat].
  Qed.
  Lemma obj_scale (w : vec) (t : R) : 0 < t -> t * t = port_var n c w -> (forall j, (j < n)%nat -> w j <> 0) -> f (fun i => w i / t) <= f w.
  Proof using Hb.
    intros Ht E Hw. unfold f, budget_objective. rewrite port_scal, <- E. replace (t * t / (t * t)) with 1 by (field; lra).
    rewrite (rsum_ext n (fun i => b i * ln (Rabs (w i / t))) (fun i => b i * ln (Rabs (w i)) - b i * ln t)).
    - rewrite rsum_minus, rsum_scal_r. destruct Hb as [_ ->]. pose proof (ln_le_sub1 (t * t) ltac:(nra)) as L. rewrite ln_mult in L by exact Ht. lra.
    - intros i Hi. unfold Rdiv. rewrite Rabs_mult, Rabs_inv, (Rabs_right t) by lra. rewrite ln_mult, ln_Rinv; [ring|exact Ht|apply Rabs_pos_lt; auto|now apply Rinv_0_lt_compat].
  Qed.
  (** one iteration of the loop *)
  Lemma next_descent w : (forall j, (j < n)%nat -> 0 < ls j * w j) ->
    f (ccd_next n c b ls w) + rsum n (fun j => (w j - ccd_sweep n c b ls w j) ^ 2) / 2 <= f w.
  Proof using Hl Hb Hc.
    intros Hw. rewrite sweep_eq. pose proof (psweep_descent n w (le_n n) Hw) as H. unfold ccd_next. cbv zeta. rewrite sweep_eq.
    destruct (scale_pos w) as [P E]. cbv zeta in P, E. rewrite sweep_eq in P, E.
    pose proof (obj_scale (psweep n w) (ccd_scale n c (psweep n w)) P E) as S. assert (S' := S ltac:(intros j Hj Z; pose proof (psweep_sign n w j (le_n n) Hj); rewrite Z in *; lra)). lra.
  Qed.
  (** residual after a sweep *)
  Lemma sweep_resid w i : (i < n)%nat -> let w1 := ccd_sweep n c b ls w in
    Rabs (w1 i * matvec n c w1 i - b i) <= Rabs (w1 i) * rsum n (fun j => Rabs (w j - w1 j)).
  Proof using Hl Hb Hc.
    intros Hi w1. unfold w1. rewrite sweep_eq. set (v := psweep n w).
    assert (E : b i = v i * matvec n c (psweep (S i) w) i).
    { unfold v. rewrite (psweep_new n w i) by lia. rewrite psweep_S. destruct (step_exact (psweep i w) i Hi) as (E & _). symmetry. exact E. }
    rewrite E, <- Rmult_minus_distr_l, Rabs_mult. apply Rmult_le_compat_l; [apply Rabs_pos|].
    unfold matvec. rewrite <- rsum_minus.
    assert (T : forall m (g : nat -> R), Rabs (rsum m g) <= rsum m (fun j => Rabs (g j))).
    { induction m; intros g; cbn [rsum]; [rewrite Rabs_R0; lra|]. eapply Rle_trans; [apply Rabs_triang|]. apply Rplus_le_compat_r, IHm. }
    eapply Rle_trans; [apply T|]. apply rsum_le. intros j Hj. rewrite <- Rmult_minus_distr_l, Rabs_mult.
    destruct (Nat.lt_ge_cases j (S i)) as [L|L].
    - rewrite (psweep_new (S i) w j) by lia. unfold v. rewrite (psweep_new n w j) by lia. rewrite Rminus_eq_0, Rabs_R0, Rmult_0_r. apply Rabs_pos.
    - rewrite (psweep_old (S i) w j) by lia. rewrite (Rabs_minus_sym (w j)). pose proof (coef_le i j Hi Hj). pose proof (Rabs_pos (v j - w j)). pose proof (Rabs_pos (c i j)).
      apply Rle_trans with (1 * Rabs (v j - w j)); [|lra]. apply Rmult_le_compat_r; assumption.
  Qed.
  Lemma rsum_abs_sq m (g : nat -> R) : rsum m (fun j => Rabs (g j)) ^ 2 <= INR m * rsum m (fun j => g j ^ 2).
  Proof using.
    induction m; [cbn; lra|]. cbn [rsum]. rewrite S_INR. set (A := rsum m (fun j => Rabs (g j))) in *. set (Q := rsum m (fun j => g j ^ 2)) in *.
    set (x := Rabs (g m)). assert (X : g m ^ 2 = x ^ 2) by (unfold x; rewrite pow2_abs; reflexivity). rewrite X.
    assert (A0 : 0 <= A) by (apply rsum_nonneg; intros; apply Rabs_pos). assert (Q0 : 0 <= Q) by (apply rsum_nonneg; intros; apply pow2_ge_0).
    assert (M0 : 0 <= INR m) by apply pos_INR. 
    destruct m as [|m'].
    - unfold A, Q. cbn. nra.
    - assert (M1 : 0 < INR (S m')) by (apply lt_0_INR; lia). set (M := INR (S m')) in *.
      assert (2 * A * x <= A ^ 2 / M + M * x ^ 2).
      { replace (A ^ 2 / M + M * x ^ 2) with (2 * A * x + (A - M * x) ^ 2 / M) by (field; lra). assert (0 <= (A - M * x) ^ 2 / M); [|lra].
        apply Rmult_le_pos; [apply pow2_ge_0|left; now apply Rinv_0_lt_compat]. }
      assert (A ^ 2 / M <= Q). { apply Rmult_le_reg_r with M; [exact M1|]. unfold Rdiv. rewrite Rmult_assoc, Rinv_l by lra. lra. }
      nra.
  Qed.

  Lemma rsum_abs m (g : nat -> R) : Rabs (rsum m g) <= rsum m (fun j => Rabs (g j)).
  Proof using. induction m; cbn [rsum]; [rewrite Rabs_R0; apply Rle_refl|]. eapply Rle_trans; [apply Rabs_triang|]. apply Rplus_le_compat_r, IHm. Qed.
  Lemma rsum_term m (g : nat -> R) i : (i < m)%nat -> (forall j, (j < m)%nat -> 0 <= g j) -> g i <= rsum m g.
  Proof using. intros Hi Hg. rewrite <- (rsum_kd m i g) at 1 by exact Hi. apply rsum_le. intros k Hk. unfold kd. pose proof (Hg k Hk). destruct Nat.eq_dec; lra. Qed.
  Section Rate.
    Variable lam : R.
    Hypotheses (L0 : 0 < lam) (L : forall w, lam * rsum n (fun i => w i ^ 2) <= port_var n c w).
    Definition obj_floor : R := rsum n (fun i => b i / 2 * (1 - ln (b i / lam))).
    Lemma obj_lower w : (forall j, (j < n)%nat -> w j <> 0) -> obj_floor <= f w.
    Proof using L0 L Hb.
      intros Hw. unfold f, budget_objective. pose proof (L w) as Lw.
      assert (rsum n (fun i => b i * ln (Rabs (w i))) + obj_floor <= rsum n (fun i => lam / 2 * w i ^ 2)).
      { unfold obj_floor. rewrite <- rsum_plus. apply rsum_le. intros i Hi. pose proof (bpos i Hi) as B. pose proof (Hw i Hi) as W.
        assert (W2 : 0 < w i ^ 2) by nra. assert (Bl : 0 < b i / lam) by (now apply Rdiv_lt_0_compat). set (t := w i ^ 2 / (b i / lam)). assert (T0 : 0 < t) by (apply Rdiv_lt_0_compat; assumption).
        assert (E2 : 2 * ln (Rabs (w i)) = ln (b i / lam) + ln t).
        { rewrite <- ln_mult by assumption. replace (b i / lam * t) with (Rabs (w i) * Rabs (w i)); [rewrite ln_mult by (now apply Rabs_pos_lt); ring|].
          unfold t. rewrite <- Rabs_mult, Rabs_right by (apply Rle_ge; nra). field. lra. }
        pose proof (ln_le_sub1 t T0) as LT. assert (Et : b i * t = lam * w i ^ 2) by (unfold t; field; lra).
        replace (b i * ln (Rabs (w i))) with (b i / 2 * (2 * ln (Rabs (w i)))) by field. rewrite E2.
        assert (b i / 2 * ln t <= b i / 2 * (t - 1)) by (apply Rmult_le_compat_l; lra). nra. }
      rewrite rsum_scal in H. lra.
    Qed.
    Lemma size_le w i : (i < n)%nat -> 0 < port_var n c w -> Rabs (w i) <= sqrt (port_var n c w) / sqrt lam.
    Proof using L0 L.
      intros Hi P. pose proof (L w) as Lw. assert (Sl : 0 < sqrt lam) by (now apply sqrt_lt_R0).
      apply Rmult_le_reg_r with (sqrt lam); [exact Sl|]. unfold Rdiv. rewrite Rmult_assoc, Rinv_l, Rmult_1_r by lra.
      rewrite <- (sqrt_square (Rabs (w i))) by apply Rabs_pos. rewrite <- sqrt_mult_alt by (rewrite <- Rabs_mult; apply Rabs_pos). apply sqrt_le_1_alt.
      pose proof (rsum_term n (fun j => w j ^ 2) i Hi ltac:(intros; apply pow2_ge_0)) as T. cbv beta in T.
      rewrite <- Rabs_mult, Rabs_right by (apply Rle_ge; nra). nra.
    Qed.
    Lemma scale_low w F : (forall j, (j < n)%nat -> w j <> 0) -> f w <= F -> exp (- F) <= sqrt (port_var n c w) / sqrt lam.
    Proof using L0 L Hb Hc.
      intros Hw HF. assert (P : 0 < port_var n c w) by (apply var_pos; exists 0%nat; split; [exact n_pos|apply Hw, n_pos]).
      assert (Sl : 0 < sqrt lam) by (now apply sqrt_lt_R0). assert (Sv : 0 < sqrt (port_var n c w)) by (now apply sqrt_lt_R0).
      set (q := sqrt (port_var n c w) / sqrt lam). assert (Q : 0 < q) by (now apply Rdiv_lt_0_compat).
      assert (rsum n (fun i => b i * ln (Rabs (w i))) <= rsum n (fun i => b i * ln q)).
      { apply rsum_le. intros i Hi. pose proof (bpos i Hi). apply Rmult_le_compat_l; [lra|]. pose proof (size_le w i Hi P) as S. fold q in S.
        destruct S as [S|S]; [left; apply ln_increasing; [apply Rabs_pos_lt; auto|exact S]|right; now rewrite S]. }
      rewrite rsum_scal_r in H. destruct Hb as [_ E1]. rewrite E1 in H.
      assert (- F <= ln q). { unfold f, budget_objective in HF. lra. }
      apply exp_le in H0. rewrite exp_ln in H0 by exact Q. exact H0.
    Qed.
    Lemma err_bound w F i : (forall j, (j < n)%nat -> 0 < ls j * w j) -> f w <= F -> (i < n)%nat ->
      let w1 := ccd_sweep n c b ls w in let v := ccd_scale n c w1 in
      Rabs (w1 i / v * (matvec n c w1 i / v) - b i) <= (1 + INR n) * rsum n (fun j => Rabs (w j - w1 j)) * (exp F / lam).
    Proof using L0 L Hl Hb Hc.
      intros Hw HF Hi w1 v. destruct (scale_pos w) as [V0 V2]. fold w1 in V0, V2. fold v in V0, V2.
      assert (Hw1 : forall j, (j < n)%nat -> w1 j <> 0) by (intros j Hj Z; pose proof (sweep_sign w j Hj) as S; fold w1 in S; rewrite Z in S; lra).
      assert (HF1 : f w1 <= F).
      { pose proof (psweep_descent n w (le_n n) Hw) as D. assert (0 <= rsum n (fun j => (w j - psweep n w j) ^ 2)) by (apply rsum_nonneg; intros; apply pow2_ge_0).
        unfold w1. rewrite sweep_eq. lra. }
      pose proof (scale_low w1 F Hw1 HF1) as Sc. assert (Ev : sqrt (port_var n c w1) = v) by (unfold v, ccd_scale; now rewrite quad_port). rewrite Ev in Sc.
      assert (Pw : 0 < port_var n c w1) by (rewrite <- V2; nra).
      set (D := rsum n (fun j => Rabs (w j - w1 j))). assert (D0 : 0 <= D) by (apply rsum_nonneg; intros; apply Rabs_pos).
      assert (Sl : 0 < sqrt lam) by (now apply sqrt_lt_R0). assert (Sq : sqrt lam * sqrt lam = lam) by (apply sqrt_sqrt; lra).
      set (r := fun j => w1 j * matvec n c w1 j - b j).
      assert (R1 : forall j, (j < n)%nat -> Rabs (r j) <= v / sqrt lam * D).
      { intros j Hj. eapply Rle_trans; [apply (sweep_resid w j Hj)|]. apply Rmult_le_compat_r; [exact D0|]. pose proof (size_le w1 j Hj Pw) as S. rewrite Ev in S. exact S. }
      assert (Sv : v * v = 1 + rsum n r). { rewrite V2, <- quad_port. unfold quad_form, r. rewrite rsum_minus. destruct Hb as [_ ->]. ring. }
      replace (w1 i / v * (matvec n c w1 i / v) - b i) with ((r i - b i * rsum n r) / (v * v)).
      2:{ assert (E : rsum n r = v * v - 1) by lra. rewrite E. unfold r. field. lra. }
      unfold Rdiv. rewrite Rabs_mult, (Rabs_right (/ (v * v))) by (left; apply Rinv_0_lt_compat; nra).
      assert (Bi : 0 < b i <= 1). { split; [now apply bpos|]. destruct Hb as [_ <-]. apply (rsum_term n b i Hi). intros; left; now apply bpos. }
      assert (N : Rabs (r i - b i * rsum n r) <= (1 + INR n) * (v / sqrt lam * D)).
      { unfold Rminus. eapply Rle_trans; [apply Rabs_triang|]. rewrite Rabs_Ropp, Rabs_mult, (Rabs_right (b i)) by lra.
        assert (Rabs (rsum n r) <= INR n * (v / sqrt lam * D)). { eapply Rle_trans; [apply rsum_abs|]. rewrite <- rsum_const. now apply rsum_le. }
        pose proof (R1 i Hi). pose proof (Rabs_pos (rsum n r)). nra. }
      apply Rle_trans with ((1 + INR n) * (v / sqrt lam * D) * / (v * v)); [apply Rmult_le_compat_r; [left; apply Rinv_0_lt_compat; nra|exact N]|].
      replace ((1 + INR n) * (v / sqrt lam * D) * / (v * v)) with ((1 + INR n) * D * / (sqrt lam * v)) by (field; lra).
      apply Rmult_le_compat_l; [apply Rmult_le_pos; [pose proof (pos_INR n); lra|exact D0]|].
      replace (/ (sqrt lam * v)) with (/ (v / sqrt lam) * / lam) by (rewrite <- Sq at 2; field; lra).
      apply Rmult_le_compat_r; [left; now apply Rinv_0_lt_compat|].
      replace (exp F) with (/ exp (- F)) by (rewrite exp_Ropp, Rinv_inv; reflexivity). apply Rinv_le_contravar; [apply exp_pos|exact Sc].
    Qed.
    (** each iteration that does not pass the test lowers the objective by at least this much *)
    Definition ccd_gain (F tol : R) : R := (tol * lam * exp (- F) / (1 + INR n)) ^ 2 / (2 * INR n).
    Lemma gain_pos F tol : 0 < tol -> 0 < ccd_gain F tol.
    Proof using L0 Hb.
      intros Ht. unfold ccd_gain. assert (0 < INR n) by (apply lt_0_INR, n_pos). apply Rdiv_lt_0_compat; [|lra]. apply pow_lt. apply Rdiv_lt_0_compat; [|lra].
      apply Rmult_lt_0_compat; [now apply Rmult_lt_0_compat|apply exp_pos].
    Qed.
    Lemma iter_gain w F tol : (forall j, (j < n)%nat -> 0 < ls j * w j) -> f w <= F -> 0 < tol -> tol <= ccd_err n c b ls w ->
      f (ccd_next n c b ls w) <= f w - ccd_gain F tol.
    Proof using L0 L Hl Hb Hc.
      intros Hw HF Ht He. pose proof (next_descent w Hw) as ND. set (w1 := ccd_sweep n c b ls w) in *. set (D := rsum n (fun j => Rabs (w j - w1 j))).
      assert (Nn : 0 < INR n) by (apply lt_0_INR, n_pos). assert (D0 : 0 <= D) by (apply rsum_nonneg; intros; apply Rabs_pos).
      assert (HD : tol * lam * exp (- F) / (1 + INR n) <= D).
      { destruct (Rle_lt_dec (tol * lam * exp (- F) / (1 + INR n)) D) as [|C]; [assumption|exfalso].
        apply (Rle_not_lt _ _ He). unfold ccd_err. cbv zeta. fold w1. apply vmax_lt; [exact Ht|]. intros i Hi.
        eapply Rle_lt_trans; [apply (err_bound w F i Hw HF Hi)|]. fold w1 D.
        apply (Rmult_lt_compat_r ((1 + INR n) * (exp F / lam))) in C; [|apply Rmult_lt_0_compat; [lra|apply Rdiv_lt_0_compat; [apply exp_pos|exact L0]]].
        replace (tol * lam * exp (- F) / (1 + INR n) * ((1 + INR n) * (exp F / lam))) with (tol * (exp (- F) * exp F)) in C by (field; lra).
        rewrite <- exp_plus in C. replace (- F + F) with 0 in C by ring. rewrite exp_0 in C. lra. }
      assert (DQ : D ^ 2 <= INR n * rsum n (fun j => (w j - w1 j) ^ 2)) by (apply (rsum_abs_sq n (fun j => w j - w1 j))).
      set (d := tol * lam * exp (- F) / (1 + INR n)) in *. assert (d0 : 0 <= d) by (left; apply Rdiv_lt_0_compat; [apply Rmult_lt_0_compat; [now apply Rmult_lt_0_compat|apply exp_pos]|lra]).
      assert (d2 : d ^ 2 <= D ^ 2) by (apply pow_incr; lra). set (Q := rsum n (fun j => (w j - w1 j) ^ 2)) in *.
      assert (ccd_gain F tol <= Q / 2); [|lra]. unfold ccd_gain. fold d. apply Rmult_le_reg_r with (2 * INR n); [lra|]. unfold Rdiv at 1. rewrite Rmult_assoc, Rinv_l by lra. lra.
    Qed.
    Lemma loop_terminates sigma tol F : 0 < tol -> forall m w, (forall j, (j < n)%nat -> 0 < ls j * w j) -> f w <= F ->
      f w - obj_floor < INR m * ccd_gain F tol -> exists r, ccd_loop m n c b ls sigma tol w = Some r.
    Proof using L0 L Hl Hb Hc.
      intros Ht. pose proof (gain_pos F tol Ht) as G0. induction m as [|m IH]; intros w Hw HF HG.
      - pose proof (obj_lower w ltac:(intros j Hj Z; pose proof (Hw j Hj) as S; rewrite Z in S; lra)). cbn in HG. lra.
      - cbn [ccd_loop]. cbv zeta. destruct (Rlt_dec (ccd_err n c b ls w) tol) as [_|C]; [eexists; reflexivity|].
        pose proof (iter_gain w F tol Hw HF Ht ltac:(lra)) as IG. apply IH; [intros; now apply next_sign|lra|rewrite S_INR in HG; lra].
    Qed.
  End Rate.
  Lemma ccd_converges sigma tol w0 : 0 < tol -> exists N, forall fuel, (N <= fuel)%nat -> exists r, ccd_loop fuel n c b ls sigma tol w0 = Some r.
  Proof using Hl Hb Hc.
    intros Ht. destruct Hc as (Hs & Hd & lam & L0 & L). set (w1 := ccd_next n c b ls w0).
    assert (S1 : forall j, (j < n)%nat -> 0 < ls j * w1 j) by (intros; now apply next_sign).
    pose proof (gain_pos lam L0 (f w1) tol Ht) as G0. set (g := ccd_gain lam (f w1) tol) in *.
    destruct (INR_archimed g (f w1 - obj_floor lam) G0) as [N HN]. exists (S N). intros fuel Hf. destruct fuel as [|m]; [lia|].
    cbn [ccd_loop]. cbv zeta. destruct (Rlt_dec (ccd_err n c b ls w0) tol); [eexists; reflexivity|]. fold w1.
    apply (loop_terminates lam L0 L sigma tol (f w1) Ht); [exact S1|lra|]. fold g.
    apply Rlt_le_trans with (INR N * g). 
    - lra.
    - apply Rmult_le_compat_r; [lra|]. apply le_INR. lia.
  Qed.
End Ccd.
