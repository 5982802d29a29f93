(** RiskParitySCA.fit_sca: feasibility of every iterate, descent, termination, and the gradient that is coded. *)
From Coq Require Import Reals Lra Lia Psatz List Arith FunctionalExtensionality.
From Coquelicot Require Import Coquelicot.
From Verif Require Import Base Sums M_Params Spec_Alloc M_Alloc P_Alloc P_Alloc2 P_Alloc3.
Import ListNotations.
Open Scope R_scope.

Lemma list_vec l : list_of (length l) (vec_of l) = l.
Proof.
  unfold list_of, vec_of. induction l as [|x l IH]; [reflexivity|]. cbn [length seq map nth]. f_equal. rewrite <- seq_shift, map_map. exact IH.
Qed.
Lemma list_of_len n f : length (list_of n f) = n.
Proof. unfold list_of. now rewrite map_length, seq_length. Qed.
Lemma vec_of_in l i : (i < length l)%nat -> In (vec_of l i) l.
Proof. intros H. now apply nth_In. Qed.
Lemma vec_sum l : rsum (length l) (vec_of l) = lsum l.
Proof. rewrite <- (list_vec l) at 3. unfold list_of. now rewrite lsum_seq. Qed.
Lemma in_list_of n f x : In x (list_of n f) <-> exists i, (i < n)%nat /\ f i = x.
Proof. unfold list_of. rewrite in_map_iff. split; intros (i & A & B); exists i; [apply in_seq in B|rewrite in_seq]; intuition lia. Qed.
Lemma vec_list n f i : (i < n)%nat -> vec_of (list_of n f) i = f i.
Proof. intros H. unfold vec_of, list_of. rewrite (nth_indep _ 0 (f 0%nat)) by now rewrite map_length, seq_length. rewrite map_nth, seq_nth by exact H. reflexivity. Qed.

Definition in_box (n : nat) (u : R) (w : vec) : Prop := forall i, (i < n)%nat -> 0 <= w i <= u.
Lemma proj_vec n f u c : project_simplex_box (list_of n f) u = Some c ->
  length c = n /\ in_box n u (vec_of c) /\ Rabs (rsum n (vec_of c) - 1) <= proj_err (list_of n f) u.
Proof.
  intros H. destruct (proj_box _ _ _ H) as (L & B & T). rewrite list_of_len in L. split; [exact L|]. split.
  - intros i Hi. apply B, vec_of_in. now rewrite L.
  - rewrite <- L at 1. now rewrite vec_sum.
Qed.
Lemma proj_feasible n f u : 0 < u -> 1 - / 10 ^ 12 <= u * INR n -> exists c, project_simplex_box (list_of n f) u = Some c.
Proof.
  intros Hu Hn. destruct (project_simplex_box (list_of n f) u) as [c|] eqn:E; [now exists c|]. apply proj_none in E. rewrite list_of_len in E. lra.
Qed.
Lemma lmax_le v m : v <> [] -> (forall x, In x v -> x <= m) -> lmax v <= m.
Proof.
  destruct v as [|a v]; [easy|]. intros _ H. cbn [lmax]. induction v as [|b v IH]; cbn; [apply H; now left|]. apply Rmax_lub; [apply H; right; now left|].
  apply IH. intros x [->|Hx]; apply H; [now left|right; now right].
Qed.
Lemma lmin_ge v m : v <> [] -> (forall x, In x v -> m <= x) -> m <= lmin v.
Proof.
  destruct v as [|a v]; [easy|]. intros _ H. cbn [lmin]. induction v as [|b v IH]; cbn; [apply H; now left|]. apply Rmin_glb; [apply H; right; now left|].
  apply IH. intros x [->|Hx]; apply H; [now left|right; now right].
Qed.
Lemma list_of_ne n f : (0 < n)%nat -> list_of n f <> [].
Proof. intros H E. apply (f_equal (@length R)) in E. rewrite list_of_len in E. cbn in E. lia. Qed.
Lemma proj_err_le n f u a b : (0 < n)%nat -> (forall i, (i < n)%nat -> a <= f i <= b) -> proj_err (list_of n f) u <= / 10 ^ 12 + INR n * ((b - a + u) / 2 ^ 101).
Proof.
  intros Hn H. unfold proj_err. rewrite list_of_len. apply Rplus_le_compat_l, Rmult_le_compat_l; [apply pos_INR|]. unfold Rdiv. apply Rmult_le_compat_r; [left; apply Rinv_0_lt_compat, pow_lt; lra|].
  assert (lmax (list_of n f) <= b) by (apply lmax_le; [now apply list_of_ne|]; intros x Hx; apply in_list_of in Hx as (i & Hi & <-); now apply H).
  assert (a <= lmin (list_of n f)) by (apply lmin_ge; [now apply list_of_ne|]; intros x Hx; apply in_list_of in Hx as (i & Hi & <-); now apply H). lra.
Qed.

(** ** bounds *)
Definition gbound (n : nat) (M u : R) : R := 8 * INR n ^ 2 * M ^ 2 * u ^ 3.
Definition slack (n : nat) (M u : R) : R := / 10 ^ 12 + INR n * ((2 * u + 2 * gbound n M u) / 2 ^ 101).
Lemma matvec_bound n cov M B f : (forall i j, (i < n)%nat -> (j < n)%nat -> Rabs (cov i j) <= M) -> (forall j, (j < n)%nat -> Rabs (f j) <= B) ->
  forall i, (i < n)%nat -> Rabs (matvec n cov f i) <= INR n * (M * B).
Proof.
  intros HM HB i Hi. unfold matvec. eapply Rle_trans; [apply rsum_abs|]. rewrite <- rsum_const. apply rsum_le. intros j Hj. rewrite Rabs_mult.
  apply Rmult_le_compat; try apply Rabs_pos; auto.
Qed.
Lemma grad_bound n cov M u w : (0 < n)%nat -> 0 <= u -> (forall i j, (i < n)%nat -> (j < n)%nat -> Rabs (cov i j) <= M) -> in_box n u w ->
  forall i, (i < n)%nat -> Rabs (sca_grad n cov w i) <= gbound n M u.
Proof.
  intros Hn Hu HM Hw i Hi.
  assert (M0 : 0 <= M) by (eapply Rle_trans; [apply Rabs_pos|apply (HM i i); assumption]).
  assert (W : forall j, (j < n)%nat -> Rabs (w j) <= u) by (intros j Hj; pose proof (Hw j Hj); rewrite Rabs_right; lra).
  assert (SW := matvec_bound n cov M u w HM W).
  set (sw := matvec n cov w) in *. set (rc := fun k => w k * sw k).
  assert (RC : forall j, (j < n)%nat -> Rabs (rc j) <= INR n * M * u ^ 2).
  { intros j Hj. unfold rc. rewrite Rabs_mult. replace (INR n * M * u ^ 2) with (u * (INR n * (M * u))) by ring. apply Rmult_le_compat; try apply Rabs_pos; auto. }
  assert (MN : Rabs (vmean n rc) <= INR n * M * u ^ 2).
  { assert (Np : 0 < INR n) by (now apply lt_0_INR). unfold vmean, Rdiv. rewrite Rabs_mult, (Rabs_right (/ INR n)) by (left; now apply Rinv_0_lt_compat).
    apply Rmult_le_reg_r with (INR n); [exact Np|]. rewrite Rmult_assoc, Rinv_l, Rmult_1_r by lra. eapply Rle_trans; [apply rsum_abs|].
    rewrite Rmult_comm, <- rsum_const. now apply rsum_le. }
  set (resid := fun k => rc k - vmean n rc).
  assert (RS : forall j, (j < n)%nat -> Rabs (resid j) <= 2 * (INR n * M * u ^ 2)).
  { intros j Hj. unfold resid, Rminus. eapply Rle_trans; [apply Rabs_triang|]. rewrite Rabs_Ropp. pose proof (RC j Hj). lra. }
  pose proof (matvec_bound n cov M (2 * (INR n * M * u ^ 2)) resid HM RS i Hi) as MR.
  change (sca_grad n cov w i) with (2 * (sw i * resid i + w i * matvec n cov resid i)).
  rewrite Rabs_mult, (Rabs_right 2) by lra. unfold gbound.
  replace (8 * INR n ^ 2 * M ^ 2 * u ^ 3) with (2 * ((INR n * (M * u)) * (2 * (INR n * M * u ^ 2)) + u * (INR n * (M * (2 * (INR n * M * u ^ 2)))))) by ring.
  apply Rmult_le_compat_l; [lra|]. eapply Rle_trans; [apply Rabs_triang|]. rewrite !Rabs_mult. apply Rplus_le_compat; apply Rmult_le_compat; try apply Rabs_pos; auto.
Qed.
Lemma gbound_nonneg n M u : 0 <= u -> 0 <= gbound n M u.
Proof. intros H. unfold gbound. apply Rmult_le_pos; [|now apply pow_le]. apply Rmult_le_pos; [|apply pow2_ge_0]. apply Rmult_le_pos; [lra|apply pow2_ge_0]. Qed.

(** ** line search *)
Lemma search_sound n cov u w grad cur : forall fuel step cand obj st, 0 < step -> sca_search fuel n cov u w grad cur step = Some (cand, obj, st) ->
  exists c, project_simplex_box (list_of n (fun i => w i - st * grad i)) u = Some c /\ cand = vec_of c /\ obj = sca_objective n cov cand /\
    0 < st <= step /\ (/ 10 ^ 12 <= cur - obj \/ st <= / 10 ^ 12).
Proof.
  induction fuel as [|f IH]; intros step cand obj st Hs; cbn [sca_search]; destruct (project_simplex_box (list_of n (fun i => w i - step * grad i)) u) as [c|] eqn:E; try discriminate; cbv zeta.
  - destruct (Rle_dec (/ 10 ^ 12) (cur - sca_objective n cov (vec_of c))) as [L|L].
    + intros H. apply Some_inj in H. inversion H; subst. exists c. repeat split; auto; lra.
    + destruct (Rle_dec step (/ 10 ^ 12)) as [L2|L2]; [|discriminate]. intros H. apply Some_inj in H. inversion H; subst. exists c. repeat split; auto; lra.
  - destruct (Rle_dec (/ 10 ^ 12) (cur - sca_objective n cov (vec_of c))) as [L|L].
    + intros H. apply Some_inj in H. inversion H; subst. exists c. repeat split; auto; lra.
    + destruct (Rle_dec step (/ 10 ^ 12)) as [L2|L2].
      * intros H. apply Some_inj in H. inversion H; subst. exists c. repeat split; auto; lra.
      * intros H. destruct (IH (step * / 2) cand obj st ltac:(lra) H) as (c' & A1 & A2 & A3 & A4 & A5). exists c'. repeat split; auto; lra.
Qed.
Lemma search_total n cov u w grad cur : 0 < u -> 1 - / 10 ^ 12 <= u * INR n -> forall fuel step, step <= 2 ^ fuel * / 10 ^ 12 ->
  sca_search fuel n cov u w grad cur step <> None.
Proof.
  intros Hu Hn. induction fuel as [|f IH]; intros step Hs; cbn [sca_search]; destruct (proj_feasible n (fun i => w i - step * grad i) u Hu Hn) as [c ->]; cbv zeta.
  - destruct Rle_dec; [discriminate|]. destruct Rle_dec as [L|L]; [discriminate|]. exfalso. apply L. rewrite pow_O, Rmult_1_l in Hs. exact Hs.
  - destruct Rle_dec; [discriminate|]. destruct Rle_dec as [L|L]; [discriminate|]. apply IH. rewrite <- tech_pow_Rmult in Hs. lra.
Qed.
Lemma forty : 1 <= 2 ^ 40 * / 10 ^ 12.
Proof. apply Rmult_le_reg_r with (10 ^ 12); [apply pow_lt; lra|]. rewrite Rmult_assoc, Rinv_l by (apply pow_nonzero; lra). lra. Qed.

(** ** a step that hits the floor hardly moves the weights *)
Lemma proj_near_point n u (v w : vec) t d e : 0 <= u -> 0 <= d -> 0 <= e -> in_box n u w -> (forall i, (i < n)%nat -> Rabs (v i - w i) <= d) ->
  Rabs (rsum n (fun i => clip u (v i - t)) - rsum n w) <= e -> forall i, (i < n)%nat -> Rabs (clip u (v i - t) - w i) <= Rmax (2 * d) e.
Proof.
  intros Hu Hd He Hw Hv HS i Hi. assert (CW : forall j, (j < n)%nat -> clip u (w j) = w j) by (intros j Hj; pose proof (Hw j Hj); unfold clip, Rmin, Rmax; repeat destruct Rle_dec; lra).
  destruct (Rle_dec d t) as [L|L].
  - assert (A : forall j, (j < n)%nat -> 0 <= w j - clip u (v j - t)).
    { intros j Hj. rewrite <- (CW j Hj) at 1. pose proof (Hv j Hj) as V. apply Rabs_le_between in V. pose proof (clip_mono u (v j - t) (w j) ltac:(lra)). lra. }
    pose proof (rsum_term n (fun j => w j - clip u (v j - t)) i Hi A) as T. cbv beta in T. rewrite rsum_minus in T. apply Rabs_le_between in HS.
    rewrite Rabs_left1 by (pose proof (A i Hi); lra). pose proof (Rmax_r (2 * d) e). unfold vec in *. lra.
  - destruct (Rle_dec t (- d)) as [L'|L'].
    + assert (A : forall j, (j < n)%nat -> 0 <= clip u (v j - t) - w j).
      { intros j Hj. rewrite <- (CW j Hj) at 1. pose proof (Hv j Hj) as V. apply Rabs_le_between in V. pose proof (clip_mono u (w j) (v j - t) ltac:(lra)). lra. }
      pose proof (rsum_term n (fun j => clip u (v j - t) - w j) i Hi A) as T. cbv beta in T. rewrite rsum_minus in T. apply Rabs_le_between in HS.
      rewrite Rabs_right by (pose proof (A i Hi); lra). pose proof (Rmax_r (2 * d) e). unfold vec in *. lra.
    + pose proof (Hv i Hi) as V. apply Rabs_le_between in V. pose proof (Rmax_l (2 * d) e). eapply Rle_trans; [|exact H]. rewrite <- (CW i Hi) at 1.
      apply Rabs_le. destruct (Rle_dec (v i - t) (w i)) as [K|K].
      * pose proof (clip_mono u _ _ K). pose proof (clip_lip u _ _ K). lra.
      * assert (K' : w i <= v i - t) by lra. pose proof (clip_mono u _ _ K'). pose proof (clip_lip u _ _ K'). lra.
Qed.
Lemma obj_nonneg n cov w : 0 <= sca_objective n cov w.
Proof. unfold sca_objective. cbv zeta. apply rsum_nonneg. intros; apply pow2_ge_0. Qed.

Section Sca.
Variables (n : nat) (cov : mat) (u M : R).
Hypotheses (Hn : (0 < n)%nat) (Hu : 0 < u) (Hf : 1 - / 10 ^ 12 <= u * INR n) (HM : forall i j, (i < n)%nat -> (j < n)%nat -> Rabs (cov i j) <= M).
Definition good (w : vec) : Prop := in_box n u w /\ Rabs (rsum n w - 1) <= slack n M u.
Lemma step_good w st c : in_box n u w -> 0 < st <= 1 -> project_simplex_box (list_of n (fun i => w i - st * sca_grad n cov w i)) u = Some c -> good (vec_of c).
Proof using Hn Hu HM.
  intros Hw Hs H. destruct (proj_vec _ _ _ _ H) as (_ & B & T). split; [exact B|]. eapply Rle_trans; [exact T|]. unfold slack.
  replace (2 * u + 2 * gbound n M u) with ((u + gbound n M u) - - gbound n M u + u) by ring. apply proj_err_le; [exact Hn|]. intros i Hi.
  pose proof (grad_bound n cov M u w Hn ltac:(lra) HM Hw i Hi) as G. apply Rabs_le_between in G. pose proof (Hw i Hi). pose proof (gbound_nonneg n M u ltac:(lra)). set (g := sca_grad n cov w i) in *. set (GB := gbound n M u) in *. clearbody g GB.
  assert (- GB <= st * g <= GB) by (split; nra). lra.
Qed.
Lemma floor_move w st c : good w -> 0 < st <= 1 -> st <= / 10 ^ 12 -> project_simplex_box (list_of n (fun i => w i - st * sca_grad n cov w i)) u = Some c ->
  forall i, (i < n)%nat -> Rabs (vec_of c i - w i) <= Rmax (2 * (/ 10 ^ 12 * gbound n M u)) (2 * slack n M u).
Proof using Hn Hu HM.
  intros [Hw Sw] Hs Hs2 H i Hi. pose proof (step_good w st c Hw Hs H) as [Hc Sc]. destruct (proj_some _ _ _ H) as (_ & _ & E).
  destruct (proj_loop_form (list_of n (fun i => w i - st * sca_grad n cov w i)) u 100 (lmin (list_of n (fun i => w i - st * sca_grad n cov w i)) - u) (lmax (list_of n (fun i => w i - st * sca_grad n cov w i)))) as [t Et].
  rewrite Et in E. set (v := fun i => w i - st * sca_grad n cov w i) in *.
  assert (CV : forall j, (j < n)%nat -> vec_of c j = clip u (v j - t)).
  { intros j Hj. rewrite E. unfold clip_at, list_of. rewrite map_map. change (map (fun x => clip u (v x - t)) (seq 0 n)) with (list_of n (fun x => clip u (v x - t))). now apply vec_list. }
  pose proof (gbound_nonneg n M u ltac:(lra)) as G0. assert (T0 : 0 < / 10 ^ 12) by (apply Rinv_0_lt_compat, pow_lt; lra).
  rewrite CV by exact Hi. apply (proj_near_point n u v w t (/ 10 ^ 12 * gbound n M u) (2 * slack n M u)); try exact Hw; try exact Hi; try lra.
  - pose proof (Rabs_pos (rsum n w - 1)). lra.
  - intros j Hj. unfold v. replace (w j - st * sca_grad n cov w j - w j) with (- (st * sca_grad n cov w j)) by ring. rewrite Rabs_Ropp, Rabs_mult, (Rabs_right st) by lra.
    apply Rmult_le_compat; [lra|apply Rabs_pos|exact Hs2|]. apply (grad_bound n cov M u w Hn); auto; lra.
  - rewrite <- (rsum_ext n (vec_of c)) by exact CV. replace (rsum n (vec_of c) - rsum n w) with ((rsum n (vec_of c) - 1) + - (rsum n w - 1)) by ring.
    eapply Rle_trans; [apply Rabs_triang|]. rewrite Rabs_Ropp. lra.
Qed.
Variable tol : R.
Hypothesis Ht : Rmax (2 * (/ 10 ^ 12 * gbound n M u)) (2 * slack n M u) < tol.
Lemma tol_pos : 0 < tol.
Proof using Hu Ht. pose proof (Rmax_l (2 * (/ 10 ^ 12 * gbound n M u)) (2 * slack n M u)). pose proof (gbound_nonneg n M u ltac:(lra)).
  assert (T0 : 0 < / 10 ^ 12) by (apply Rinv_0_lt_compat, pow_lt; lra). assert (0 <= / 10 ^ 12 * gbound n M u) by (apply Rmult_le_pos; lra). lra. Qed.
Lemma loop_sound : forall fuel w cur step r obj, good w -> cur = sca_objective n cov w -> 0 < step <= 1 -> sca_loop fuel n cov u tol w cur step = Some (r, obj) ->
  good r /\ obj = sca_objective n cov r /\ exists w', good w' /\ sca_objective n cov w' <= cur /\ forall i, (i < n)%nat -> Rabs (r i - w' i) < tol.
Proof using Hn Hu Hf HM Ht.
  induction fuel as [|f IH]; intros w cur step r obj Hw Hc Hs; cbn [sca_loop]; [discriminate|].
  destruct (sca_search 40 n cov u w (sca_grad n cov w) cur step) as [[[cand ob] st]|] eqn:E; [|discriminate].
  destruct (search_sound _ _ _ _ _ _ _ _ _ _ _ (proj1 Hs) E) as (c & P & -> & -> & S1 & S2).
  pose proof (step_good w st c (proj1 Hw) ltac:(lra) P) as Gc.
  destruct (Rlt_dec (vmax n (fun i => vec_of c i - w i)) tol) as [L|L].
  - intros H. apply Some_inj in H. inversion H; subst. split; [exact Gc|]. split; [reflexivity|]. exists w. split; [exact Hw|]. split; [lra|].
    intros i Hi. rewrite (vmax_lt n _ tol tol_pos) in L. exact (L i Hi).
  - intros H. assert (RS : 0 < Rmin (st * (3 / 2)) 1 <= 1) by (unfold Rmin; destruct Rle_dec; lra). destruct (IH _ _ _ _ _ Gc eq_refl RS H) as (A & B & w' & G' & O' & D'). split; [exact A|]. split; [exact B|]. exists w'. split; [exact G'|]. split; [|exact D'].
    destruct S2 as [S2|S2]; [assert (0 < / 10 ^ 12) by (apply Rinv_0_lt_compat, pow_lt; lra); lra|]. exfalso. apply L. apply (vmax_lt n _ tol tol_pos). intros i Hi.
    eapply Rle_lt_trans; [apply (floor_move w st c Hw ltac:(lra) S2 P i Hi)|exact Ht].
Qed.
Lemma loop_ends : forall fuel w cur step, good w -> cur = sca_objective n cov w -> 0 < step <= 1 -> cur * 10 ^ 12 < INR fuel -> sca_loop fuel n cov u tol w cur step <> None.
Proof using Hn Hu Hf HM Ht.
  assert (T0 : 0 < 10 ^ 12) by (apply pow_lt; lra). assert (T1 : / 10 ^ 12 * 10 ^ 12 = 1) by (apply Rinv_l; lra).
  induction fuel as [|f IH]; intros w cur step Hw Hc Hs Hfu; cbn [sca_loop].
  - exfalso. cbn in Hfu. pose proof (obj_nonneg n cov w). rewrite <- Hc in H. nra.
  - destruct (sca_search 40 n cov u w (sca_grad n cov w) cur step) as [[[cand ob] st]|] eqn:E.
    2:{ exfalso. apply (search_total n cov u w (sca_grad n cov w) cur Hu Hf 40 step); [|exact E]. pose proof forty. lra. }
    destruct (search_sound _ _ _ _ _ _ _ _ _ _ _ (proj1 Hs) E) as (c & P & -> & -> & S1 & S2).
    destruct (Rlt_dec (vmax n (fun i => vec_of c i - w i)) tol) as [L|L]; [discriminate|].
    apply IH; [now apply (step_good w st c (proj1 Hw) ltac:(lra) P)|reflexivity|unfold Rmin; destruct Rle_dec; lra|].
    destruct S2 as [S2|S2].
    + rewrite S_INR in Hfu. apply Rmult_le_compat_r with (r := 10 ^ 12) in S2; [|lra]. rewrite T1 in S2. lra.
    + exfalso. apply L. apply (vmax_lt n _ tol tol_pos). intros i Hi. eapply Rle_lt_trans; [apply (floor_move w st c Hw ltac:(lra) S2 P i Hi)|exact Ht].
Qed.
Lemma start_good w0 w : project_simplex_box (list_of n (fun i => clip u (w0 i))) u = Some w -> good (vec_of w).
Proof using Hn Hu HM.
  intros H. destruct (proj_vec _ _ _ _ H) as (_ & B & T). split; [exact B|]. eapply Rle_trans; [exact T|]. unfold slack.
  pose proof (gbound_nonneg n M u ltac:(lra)).
  replace (2 * u + 2 * gbound n M u) with ((u + gbound n M u) - - gbound n M u + u) by ring. apply proj_err_le; [exact Hn|]. intros i Hi. pose proof (clip_box u (w0 i) ltac:(lra)). lra.
Qed.
Lemma fit_sca_sound max_iter w0 r obj : fit_sca max_iter n cov u tol w0 = Some (r, obj) ->
  good r /\ obj = sca_objective n cov r /\
  exists w1 w', project_simplex_box (list_of n (fun i => clip u (w0 i))) u = Some w1 /\ good w' /\ sca_objective n cov w' <= sca_objective n cov (vec_of w1) /\ forall i, (i < n)%nat -> Rabs (r i - w' i) < tol.
Proof using Hn Hu Hf HM Ht.
  unfold fit_sca. destruct (project_simplex_box (list_of n (fun i => clip u (w0 i))) u) as [w1|] eqn:E; [|discriminate]. intros H.
  destruct (loop_sound _ _ _ _ _ _ (start_good w0 w1 E) eq_refl (conj Rlt_0_1 (Rle_refl 1)) H) as (A & B & w' & G & O & D). split; [exact A|]. split; [exact B|]. exists w1, w'. split; [reflexivity|]. split; [exact G|]. split; [exact O|exact D].
Qed.
Lemma fit_sca_ends w0 : exists N, forall max_iter, (N <= max_iter)%nat -> fit_sca max_iter n cov u tol w0 <> None.
Proof using Hn Hu Hf HM Ht.
  destruct (proj_feasible n (fun i => clip u (w0 i)) u Hu Hf) as [w1 E].
  destruct (INR_archimed 1 (sca_objective n cov (vec_of w1) * 10 ^ 12) Rlt_0_1) as [N HN]. rewrite Rmult_1_r in HN. exists N. intros m Hm. unfold fit_sca. rewrite E.
  apply loop_ends; [exact (start_good w0 w1 E)|reflexivity|lra|]. eapply Rlt_le_trans; [exact HN|]. now apply le_INR.
Qed.
End Sca.

(** ** the gradient *)
Definition true_grad (n : nat) (cov : mat) (w : vec) : vec :=
  let rc := risk_contrib n cov w in let resid := fun i => rc i - vmean n rc in
  fun k => 2 * (matvec n cov w k * resid k + rsum n (fun i => w i * resid i * cov i k)).
Lemma obj_derive n cov w k : (k < n)%nat -> is_derive (fun x => sca_objective n cov (setv w k x)) (w k) (true_grad n cov w k).
Proof.
  intros Hk. set (rc := risk_contrib n cov w). set (d := fun i => (if Nat.eqb i k then matvec n cov w k else 0) + w i * cov i k).
  assert (S0 : setv w k (w k) = w) by (apply functional_extensionality; intros j; unfold setv; destruct (Nat.eqb_spec j k); subst; reflexivity).
  assert (DR : forall i, is_derive (fun x => risk_contrib n cov (setv w k x) i) (w k) (d i)).
  { intros i. unfold risk_contrib, d. apply (is_derive_ext (fun x => setv w k x i * (matvec n cov w i + cov i k * (x - w k)))); [intros x; now rewrite matvec_setv|].
    destruct (Nat.eqb_spec i k) as [->|N].
    - apply (is_derive_ext (fun x => x * (matvec n cov w k + cov k k * (x - w k)))); [intros x; now rewrite setv_eq|]. auto_derive; [exact I|]. ring.
    - apply (is_derive_ext (fun x => w i * (matvec n cov w i + cov i k * (x - w k)))); [intros x; now rewrite setv_neq|]. auto_derive; [exact I|]. ring. }
  assert (DM : is_derive (fun x => vmean n (risk_contrib n cov (setv w k x))) (w k) (rsum n d / INR n)).
  { unfold vmean. apply (is_derive_ext (fun x => rsum n (fun i => risk_contrib n cov (setv w k x) i) * / INR n)); [reflexivity|].
    evar_last. apply (is_derive_scal_l (fun x => rsum n (fun i => risk_contrib n cov (setv w k x) i)) (w k) (rsum n d) (/ INR n)). apply rsum_derive. intros; apply DR. reflexivity. }
  evar_last.
  - unfold sca_objective. cbv zeta. apply (rsum_derive n (fun i x => (risk_contrib n cov (setv w k x) i - vmean n (risk_contrib n cov (setv w k x))) ^ 2) (fun i => 2 * (rc i - vmean n rc) * (d i - rsum n d / INR n))).
    intros i Hi. evar_last.
    + apply (is_derive_pow (fun x => risk_contrib n cov (setv w k x) i - vmean n (risk_contrib n cov (setv w k x))) 2 (w k) (d i - rsum n d / INR n)).
      apply (is_derive_minus (fun x => risk_contrib n cov (setv w k x) i)); [apply DR|exact DM].
    + rewrite S0. fold rc. cbn. ring.
  - assert (Np : INR n <> 0) by (apply not_0_INR; lia).
    assert (Z : rsum n (fun i => rc i - vmean n rc) = 0). { rewrite rsum_minus, rsum_const. unfold vmean. field. exact Np. }
    rewrite (rsum_ext n _ (fun i => 2 * ((rc i - vmean n rc) * d i) - 2 * (rsum n d / INR n) * (rc i - vmean n rc))) by (intros; ring).
    rewrite rsum_minus, !rsum_scal, Z. unfold true_grad. fold rc. cbv zeta. unfold d.
    rewrite (rsum_ext n (fun i => (rc i - vmean n rc) * ((if Nat.eqb i k then matvec n cov w k else 0) + w i * cov i k)) (fun i => (if Nat.eqb i k then (rc k - vmean n rc) * matvec n cov w k else 0) + w i * (rc i - vmean n rc) * cov i k)).
    2:{ intros i _. destruct (Nat.eqb_spec i k) as [->|N]; ring. }
    rewrite rsum_plus. rewrite (rsum_ext n (fun i => if Nat.eqb i k then (rc k - vmean n rc) * matvec n cov w k else 0) (fun i => kd k i * ((rc k - vmean n rc) * matvec n cov w k))).
    2:{ intros i _. destruct (Nat.eqb_spec i k) as [->|N]; [rewrite kd_refl; ring|rewrite kd_neq by congruence; ring]. }
    rewrite (rsum_kd n k (fun _ => (rc k - vmean n rc) * matvec n cov w k) Hk). ring.
Qed.
