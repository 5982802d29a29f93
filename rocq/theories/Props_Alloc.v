(** Property theorems C46 (risk parity), C47 (projection on the capped simplex) and C68 (constrained risk parity, SCA). *)
From Coq Require Import Reals Lra Lia List Arith.
From Coquelicot Require Import Coquelicot.
From Verif Require Import Base Sums M_Params Spec_Alloc M_Alloc P_Alloc P_Alloc2 P_Alloc3 P_Alloc4 P_Alloc5.
Import ListNotations.
Open Scope R_scope.

(** *** C46 *)
(** One coordinate update meets the budget of its own asset exactly, with the requested sign, touches nothing else, and is
    the best value of that coordinate for the risk-budgeting objective. *)
Theorem C46_ccd_update : forall n cor bud ls, correlation_matrix n cor -> budgets n bud -> long_short n ls ->
  forall w i, (i < n)%nat -> let w' := ccd_step n cor bud ls w i in
  rsum n (fun j => w' i * (cor i j * w' j)) = bud i /\ 0 < ls i * w' i /\ (forall j, j <> i -> w' j = w j) /\
  forall y, 0 < ls i * y -> budget_objective n cor bud w' + (y - w' i) ^ 2 / 2 <= budget_objective n cor bud (replace_at w i y).
Proof.
  intros n cor bud ls Hc Hb Hl w i Hi w'. destruct (step_exact n cor bud ls Hc Hb Hl w i Hi) as (E & S & O). split; [rewrite rsum_scal; exact E|]. split; [exact S|]. split; [exact O|].
  intros y Hy. exact (step_min n cor bud ls Hc Hb Hl w i y Hi Hy).
Qed.
Print Assumptions C46_ccd_update.
(** Every pass keeps unit variance and the requested signs and never increases the objective. *)
Theorem C46_ccd_descent : forall n cor bud ls, correlation_matrix n cor -> budgets n bud -> long_short n ls ->
  forall w, port_var n cor (ccd_next n cor bud ls w) = 1 /\ (forall j, (j < n)%nat -> 0 < ls j * ccd_next n cor bud ls w j) /\
  ((forall j, (j < n)%nat -> 0 < ls j * w j) -> budget_objective n cor bud (ccd_next n cor bud ls w) <= budget_objective n cor bud w).
Proof.
  intros n cor bud ls Hc Hb Hl w. split; [now apply next_var|]. split; [intros; now apply next_sign|]. intros Hw. pose proof (next_descent n cor bud ls Hc Hb Hl w Hw) as H.
  assert (0 <= rsum n (fun j => (w j - ccd_sweep n cor bud ls w j) ^ 2)) by (apply rsum_nonneg; intros; apply pow2_ge_0). lra.
Qed.
Print Assumptions C46_ccd_descent.
(** The iteration converges from every starting point, for every positive tolerance. *)
Theorem C46_ccd_converges : forall n cor bud ls, correlation_matrix n cor -> budgets n bud -> long_short n ls ->
  forall sigma tol w0, 0 < tol -> exists N, forall max_iter, (N <= max_iter)%nat -> exists r, ccd_loop max_iter n cor bud ls sigma tol w0 = Some r.
Proof. exact ccd_converges. Qed.
Print Assumptions C46_ccd_converges.
(** What a successful fit means (general long/short): weights summing to one whose risk shares match the budgets. *)
Theorem C46_ccd_result : forall n cor bud ls sigma tol r, correlation_matrix n cor -> budgets n bud -> long_short n ls ->
  (forall j, (j < n)%nat -> 0 < sigma j) -> 0 < tol -> fit_ccd n cor bud ls sigma tol = Some r -> rsum n r <> 0 ->
  rsum n r = 1 /\ (forall i, (i < n)%nat -> Rabs (risk_share n (fun i j => sigma i * cor i j * sigma j) r i - bud i) < tol) /\
  exists e, (e = 1 \/ e = -1) /\ forall i, (i < n)%nat -> 0 < e * ls i * r i.
Proof. intros n cor bud ls sigma tol r Hc Hb Hl Hs Ht H N. exact (fit_correct n cor bud ls sigma tol _ _ r Hc Hb Hl Hs Ht H N). Qed.
Print Assumptions C46_ccd_result.
(** Long-only: positive weights, no side condition. *)
Theorem C46_ccd_long_only : forall n cor bud sigma tol r, correlation_matrix n cor -> budgets n bud -> (forall j, (j < n)%nat -> 0 < sigma j) -> 0 < tol ->
  fit_ccd n cor bud (fun _ => 1) sigma tol = Some r ->
  rsum n r = 1 /\ (forall i, (i < n)%nat -> 0 < r i) /\ forall i, (i < n)%nat -> Rabs (risk_share n (fun i j => sigma i * cor i j * sigma j) r i - bud i) < tol.
Proof. intros n cor bud sigma tol r Hc Hb Hs Ht H. exact (fit_long n cor bud sigma tol _ _ r Hc Hb Hs Ht H). Qed.
Print Assumptions C46_ccd_long_only.
(** The exact long-only risk-budgeting portfolio is unique. *)
Theorem C46_unique : forall n cor sigma bud x y, correlation_matrix n cor -> budgets n bud -> (forall i, (i < n)%nat -> 0 < sigma i) ->
  (forall i, (i < n)%nat -> 0 < x i) -> (forall i, (i < n)%nat -> 0 < y i) -> rsum n x = 1 -> rsum n y = 1 ->
  (forall i, (i < n)%nat -> risk_share n (fun i j => sigma i * cor i j * sigma j) x i = bud i) ->
  (forall i, (i < n)%nat -> risk_share n (fun i j => sigma i * cor i j * sigma j) y i = bud i) ->
  forall i, (i < n)%nat -> x i = y i.
Proof. exact parity_unique. Qed.
Print Assumptions C46_unique.
(** "long and short signs as requested" is false: asking for all short positions always returns all positive weights. *)
Theorem C46_short_sign_refuted :
  (forall n cor bud sigma tol r, correlation_matrix n cor -> budgets n bud -> (forall j, (j < n)%nat -> 0 < sigma j) -> 0 < tol ->
    fit_ccd n cor bud (fun _ => -1) sigma tol = Some r -> forall i, (i < n)%nat -> 0 < r i) /\
  exists n cor bud sigma tol r, correlation_matrix n cor /\ budgets n bud /\ (forall j, (j < n)%nat -> 0 < sigma j) /\ 0 < tol /\
    fit_ccd n cor bud (fun _ => -1) sigma tol = Some r.
Proof.
  split; [intros n cor bud sigma tol r Hc Hb Hs Ht H; exact (fit_short n cor bud sigma tol _ _ r Hc Hb Hs Ht H)|].
  destruct (ccd_id2 (-1) (/ 1000000) (fun i => if Nat.eqb i 0 then / 5 else 2 / 5) ltac:(now right) ltac:(lra) ltac:(intros [|i] _; cbn; lra)) as (r & E & _).
  exists 2%nat, id2, (fun _ => / 2), (fun i => if Nat.eqb i 0 then / 5 else 2 / 5), (/ 1000000), r.
  split; [exact id2_ok|]. split; [exact half_ok|]. split; [intros [|i] _; cbn; lra|]. split; [lra|exact E].
Qed.
Print Assumptions C46_short_sign_refuted.
(** The original method: each update solves its quadratic, and a successful fit meets the budgets up to an explicit multiple of tol. *)
Theorem C46_original_update : forall n cov bud ls w cw vv i, (i < n)%nat -> (forall j, (j < n)%nat -> cw j = rsum n (fun k => cov j k * w k)) ->
  vv = sqrt (port_var n cov w) -> 0 < cov i i -> 0 < vv -> 0 < bud i -> (ls i = 1 \/ ls i = -1) ->
  let '(w', cw', vv') := occ_step n cov bud ls (w, cw, vv) i in
  rsum n (fun j => w' i * (cov i j * w' j)) = vv * bud i /\ 0 < ls i * w' i /\ (forall j, j <> i -> w' j = w j) /\
  (forall j, (j < n)%nat -> cw' j = rsum n (fun k => cov j k * w' k)) /\ vv' = sqrt (port_var n cov w').
Proof.
  intros n cov bud ls w cw vv i Hi H1 H2 Hc Hv Hb Hl. 
  assert (E : let '(w', cw', vv') := occ_step n cov bud ls (w, cw, vv) i in w' i * matvec n cov w' i = vv * bud i /\ 0 < ls i * w' i /\ forall j, j <> i -> w' j = w j)
    by exact (occ_step_exact n cov bud ls w cw vv i Hi (conj H1 H2) Hc Hv Hb Hl).
  assert (V : occ_inv n cov (occ_step n cov bud ls (w, cw, vv) i)) by exact (occ_step_inv n cov bud ls (w, cw, vv) i Hi (conj H1 H2)). destruct (occ_step n cov bud ls (w, cw, vv) i) as [[w' cw'] vv']. destruct E as (E1 & E2 & E3), V as [V1 V2].
  split; [rewrite rsum_scal; exact E1|]. split; [exact E2|]. split; [exact E3|]. split; [exact V1|exact V2].
Qed.
Print Assumptions C46_original_update.
Theorem C46_original_result : forall n cov bud ls sigma tol r, (0 < n)%nat -> 0 < tol -> INR n * tol < 1 -> rsum n bud = 1 -> (forall i, (i < n)%nat -> 0 <= bud i) ->
  fit_ccd_original n cov bud ls sigma tol = Some r -> rsum n r <> 0 ->
  rsum n r = 1 /\ forall i, (i < n)%nat -> Rabs (risk_share n cov r i - bud i) <= (1 + INR n) * tol / (1 - INR n * tol).
Proof. exact occ_correct. Qed.
Print Assumptions C46_original_result.
(** Newton: the supplied Jacobian is the derivative of the residual, and any positive root gives the exact portfolio. *)
Theorem C46_newton : forall n cor bud,
  (forall w i j, (i < n)%nat -> (j < n)%nat -> w i <> 0 -> is_derive (fun x => newton_val n cor bud (replace_at w j x) i) (w j) (newton_jac cor bud w i j)) /\
  forall solve ls sigma, budgets n bud -> (forall i, (i < n)%nat -> 0 < sigma i) ->
  let u := solve (newton_val n cor bud) (newton_jac cor bud) (newton_init n cor bud) in
  (forall i, (i < n)%nat -> 0 < u i) -> (forall i, (i < n)%nat -> newton_val n cor bud u i = 0) ->
  rsum n (fit_newton solve n cor bud ls sigma) = 1 /\
  forall i, (i < n)%nat -> risk_share n (fun i j => sigma i * cor i j * sigma j) (fit_newton solve n cor bud ls sigma) i = bud i.
Proof.
  intros n cor bud. split; [intros; now apply newton_jac_derive|]. intros solve ls sigma Hb Hs u Hu Hz. exact (newton_root n cor bud sigma u Hb Hs Hu Hz).
Qed.
Print Assumptions C46_newton.
(** The search starts from positive weights; each one solves its own budget equation exactly when the other assets hold the equal weights of a unit-variance portfolio. *)
Theorem C46_newton_start : forall n cor bud, correlation_matrix n cor -> budgets n bud ->
  exists w0, 0 < w0 /\ port_var n cor (fun _ => w0) = 1 /\
  forall i, (i < n)%nat -> 0 < newton_init n cor bud i /\ newton_val n cor bud (replace_at (fun _ => w0) i (newton_init n cor bud i)) i = 0.
Proof. exact newton_init_ok. Qed.
Print Assumptions C46_newton_start.
(** fit_newton ignores the requested signs. *)
Theorem C46_newton_longshort_refuted : forall solve n cor bud ls ls' sigma, fit_newton solve n cor bud ls sigma = fit_newton solve n cor bud ls' sigma.
Proof. reflexivity. Qed.
Print Assumptions C46_newton_longshort_refuted.

(** Construction: the default budget is equal and sums to one; a given budget is kept unchanged, and accepted exactly when it
    has one entry per asset and sums to one within 1.001e-5. *)
Theorem C46_budget_default : forall n, (0 < n)%nat -> exists b, rp_budget n None = Some b /\ length b = n /\ lsum b = 1 /\ forall x, In x b -> x = 1 / INR n.
Proof. exact rp_budget_default. Qed.
Print Assumptions C46_budget_default.
Theorem C46_budget_given : forall n b b', rp_budget n (Some b) = Some b' <-> b' = b /\ length b = n /\ Rabs (lsum b - 1) <= / 10 ^ 8 + / 10 ^ 5.
Proof. exact rp_budget_given. Qed.
Print Assumptions C46_budget_given.
(** Long/short flags: an array is reduced to its signs, a scalar is first truncated to an integer, so a scalar strictly between
    -1 and 1 gives flag 0 for every asset. *)
Theorem C46_longshort_array : forall n l s, rp_longshort n (Some (inr l)) = Some s <->
  length l = n /\ length s = n /\ forall i, (i < n)%nat -> (0 < nth i l 0 -> nth i s 0 = 1) /\ (nth i l 0 < 0 -> nth i s 0 = -1) /\ (nth i l 0 = 0 -> nth i s 0 = 0).
Proof.
  intros n l s. rewrite rp_longshort_array. assert (N0 : np_sign 0 = 0) by (apply np_sign_val; reflexivity). split.
  - intros [H ->]. split; [exact H|]. split; [now rewrite map_length|]. intros i Hi. replace (nth i (map np_sign l) 0) with (np_sign (nth i l 0)) by (rewrite <- (map_nth np_sign l 0 i), N0; reflexivity). apply np_sign_val.
  - intros [H [H2 H3]]. split; [exact H|]. apply (nth_ext _ _ 0 0); [now rewrite map_length, H2|]. intros i Hi. rewrite H2 in Hi. specialize (H3 i Hi). replace (nth i (map np_sign l) 0) with (np_sign (nth i l 0)) by (rewrite <- (map_nth np_sign l 0 i), N0; reflexivity).
    pose proof (np_sign_val (nth i l 0)). destruct (Rtotal_order (nth i l 0) 0) as [L|[L|L]]; [rewrite (proj1 (proj2 H3) L)|rewrite (proj2 (proj2 H3) L)|rewrite (proj1 H3 L)]; symmetry; apply H0; lra.
Qed.
Print Assumptions C46_longshort_array.
Theorem C46_longshort_scalar : forall n x, exists s, rp_longshort n (Some (inl x)) = Some s /\ length s = n /\
  forall y, In y s -> (1 <= x -> y = 1) /\ (x <= -1 -> y = -1) /\ (-1 < x < 1 -> y = 0).
Proof. exact rp_longshort_scalar. Qed.
Print Assumptions C46_longshort_scalar.
Example C46_ex : correlation_matrix 2 cor2 /\ budgets 2 (fun i => if Nat.eqb i 0 then / 3 else 2 / 3) /\ long_short 2 (fun i => if Nat.eqb i 0 then 1 else -1) /\ correlation_matrix 2 id2.
Proof.
  split; [exact cor2_ok|]. split; [split; [intros [|i] _; cbn; lra|cbn; lra]|]. split; [intros [|i] _; cbn; auto|exact id2_ok].
Qed.
Example C46_ex_fit : exists r, fit_ccd 2 id2 (fun _ => / 2) (fun _ => 1) (fun i => if Nat.eqb i 0 then / 5 else 2 / 5) (/ 1000000) = Some r /\ r 0%nat = 2 / 3.
Proof.
  destruct (ccd_id2 1 (/ 1000000) (fun i => if Nat.eqb i 0 then / 5 else 2 / 5) ltac:(now left) ltac:(lra) ltac:(intros [|i] _; cbn; lra)) as (r & E & V).
  exists r. split; [exact E|]. rewrite V. cbn. field.
Qed.

(** *** C47 *)
Theorem C47_box : forall v u w, project_simplex_box v u = Some w ->
  length w = length v /\ (forall x, In x w -> 0 <= x <= u) /\
  Rabs (lsum w - 1) <= / 10 ^ 12 + INR (length v) * ((lmax v - lmin v + u) / 2 ^ 101).
Proof. exact proj_box. Qed.
Print Assumptions C47_box.
(** Exact optimality: no point of the box with the same total is closer to v. *)
Theorem C47_closest : forall v u w y, project_simplex_box v u = Some w -> length y = length v -> (forall x, In x y -> 0 <= x <= u) -> lsum y = lsum w ->
  sqdist v w + sqdist w y <= sqdist v y.
Proof. exact proj_closest. Qed.
Print Assumptions C47_closest.
(** The capped simplex has a closest point to v (unique, by the strict inequality), and the result is within an explicit distance of it. *)
Theorem C47_near_projection : forall v u w, project_simplex_box v u = Some w -> 1 <= u * INR (length v) ->
  exists p, capped_simplex (length v) u p /\ (forall y, capped_simplex (length v) u y -> sqdist v p + sqdist p y <= sqdist v y) /\
    l1dist w p <= / 10 ^ 12 + INR (length v) * ((lmax v - lmin v + u) / 2 ^ 101).
Proof.
  intros v u w H H1. destruct (proj_near v u w H H1) as (p & L & B & S & O & D). exists p. split; [split; [exact L|split; [exact B|exact S]]|]. split; [|exact D].
  intros y (Ly & By & Sy). now apply O.
Qed.
Print Assumptions C47_near_projection.
(** It raises exactly when the cap is not positive or the box cannot hold a total of one (up to 1e-12). *)
Theorem C47_raises : forall v u, project_simplex_box v u = None <-> u <= 0 \/ u * INR (length v) < 1 - / 10 ^ 12.
Proof. exact proj_none. Qed.
Print Assumptions C47_raises.
Example C47_ex : exists w, project_simplex_box [3; -1; / 5] (/ 2) = Some w /\ capped_simplex 3 (/ 2) [/ 2; 0; / 2] /\ 1 <= / 2 * INR 3.
Proof.
  destruct (project_simplex_box [3; -1; / 5] (/ 2)) as [w|] eqn:E.
  - exists w. split; [reflexivity|]. split; [|cbn; lra]. split; [reflexivity|]. split; [intros x [<-|[<-|[<-|[]]]]; lra|cbn; lra].
  - exfalso. apply proj_none in E. cbn in E. lra.
Qed.

(** *** C68 *)
Definition sca_slack (n : nat) (M u : R) : R := / 10 ^ 12 + INR n * ((2 * u + 2 * (8 * INR n ^ 2 * M ^ 2 * u ^ 3)) / 2 ^ 101).
Definition sca_tol_ok (n : nat) (M u tol : R) : Prop := Rmax (2 * (/ 10 ^ 12 * (8 * INR n ^ 2 * M ^ 2 * u ^ 3))) (2 * sca_slack n M u) < tol.
(** The returned weights satisfy the constraints, the reported objective is their dispersion, and they are within tol of a
    feasible point at least as good as the starting point. *)
Theorem C68_result : forall n cov u M, (0 < n)%nat -> 0 < u -> 1 - / 10 ^ 12 <= u * INR n -> (forall i j, (i < n)%nat -> (j < n)%nat -> Rabs (cov i j) <= M) ->
  forall tol, sca_tol_ok n M u tol -> forall max_iter w0 r obj, fit_sca max_iter n cov u tol w0 = Some (r, obj) ->
  near_simplex n u (sca_slack n M u) r /\ obj = dispersion n cov r /\
  exists start w', project_simplex_box (list_of n (fun i => clip u (w0 i))) u = Some start /\ near_simplex n u (sca_slack n M u) w' /\
    dispersion n cov w' <= dispersion n cov (vec_of start) /\ forall i, (i < n)%nat -> Rabs (r i - w' i) < tol.
Proof.
  intros n cov u M Hn Hu Hf HM tol Ht mi w0 r obj H. destruct (fit_sca_sound n cov u M Hn Hu Hf HM tol Ht mi w0 r obj H) as (G & O & w1 & w' & S & G' & O' & D).
  split; [exact G|]. split; [now rewrite dispersion_eq|]. exists w1, w'. split; [exact S|]. split; [exact G'|]. split; [now rewrite !dispersion_eq|exact D].
Qed.
Print Assumptions C68_result.
(** The search always ends, without error, once enough iterations are allowed. *)
Theorem C68_terminates : forall n cov u M, (0 < n)%nat -> 0 < u -> 1 - / 10 ^ 12 <= u * INR n -> (forall i j, (i < n)%nat -> (j < n)%nat -> Rabs (cov i j) <= M) ->
  forall tol, sca_tol_ok n M u tol -> forall w0, exists N, forall max_iter, (N <= max_iter)%nat -> fit_sca max_iter n cov u tol w0 <> None.
Proof. intros n cov u M Hn Hu Hf HM tol Ht w0. exact (fit_sca_ends n cov u M Hn Hu Hf HM tol Ht w0). Qed.
Print Assumptions C68_terminates.
(** Backtracking never needs more than 40 halvings and ends with a decrease of at least 1e-12 or at the step floor. *)
Theorem C68_line_search : forall n cov u w grad cur step, 0 < u -> 1 - / 10 ^ 12 <= u * INR n -> 0 < step <= 1 ->
  exists cand obj st, sca_search 40 n cov u w grad cur step = Some (cand, obj, st) /\ obj = dispersion n cov cand /\ 0 < st <= step /\
    (forall i, (i < n)%nat -> 0 <= cand i <= u) /\ (/ 10 ^ 12 <= cur - obj \/ st <= / 10 ^ 12).
Proof.
  intros n cov u w grad cur step Hu Hf Hs. pose proof (search_total n cov u w grad cur Hu Hf 40 step ltac:(pose proof forty; lra)) as T.
  destruct (sca_search 40 n cov u w grad cur step) as [[[cand obj] st]|] eqn:E; [|contradiction]. exists cand, obj, st. split; [reflexivity|].
  destruct (search_sound _ _ _ _ _ _ _ _ _ _ _ (proj1 Hs) E) as (c & P & -> & -> & S1 & S2). split; [now rewrite dispersion_eq|]. split; [exact S1|]. split; [|exact S2]. apply (proj_vec _ _ _ _ P).
Qed.
Print Assumptions C68_line_search.
(** The gradient of the dispersion. *)
Theorem C68_gradient : forall n cov w k, (k < n)%nat ->
  let sw := fun i => rsum n (fun j => cov i j * w j) in let rc := fun i => w i * sw i in let resid := fun i => rc i - rsum n rc / INR n in
  is_derive (fun x => dispersion n cov (replace_at w k x)) (w k) (2 * (sw k * resid k + rsum n (fun i => w i * resid i * cov i k))).
Proof.
  intros n cov w k Hk sw rc resid. apply (is_derive_ext (fun x => sca_objective n cov (setv w k x))); [intros x; symmetry; apply dispersion_eq|]. exact (obj_derive n cov w k Hk).
Qed.
Print Assumptions C68_gradient.
(** "the search direction is the gradient of the objective" is false: the code uses w_k (cov resid)_k for (cov (w resid))_k. *)
Theorem C68_gradient_refuted : exists cov w, correlation_matrix 2 cov /\ (forall i, (i < 2)%nat -> 0 < w i) /\ rsum 2 w = 1 /\
  ~ is_derive (fun x => dispersion 2 cov (replace_at w 0 x)) (w 0%nat) (sca_grad 2 cov w 0%nat).
Proof.
  exists cor2, wbad. split; [exact cor2_ok|]. split; [intros [|i] _; unfold wbad; cbn; lra|]. split; [unfold wbad; cbn; lra|]. intros D. apply grad_refuted.
  pose proof (C68_gradient 2 cor2 wbad 0%nat ltac:(lia)) as T. apply is_derive_unique in D, T. rewrite <- D. exact T.
Qed.
Print Assumptions C68_gradient_refuted.
Example C68_ex : 1 - / 10 ^ 12 <= 1 * INR 2 /\ (forall i j, (i < 2)%nat -> (j < 2)%nat -> Rabs (cor2 i j) <= 1) /\ sca_tol_ok 2 1 1 (/ 1000000).
Proof.
  split; [assert (0 < / 10 ^ 12) by (apply Rinv_0_lt_compat, pow_lt; lra); cbn; cbn in H; lra|]. split; [|exact slack_ex].
  intros i j _ _. unfold cor2. destruct Nat.eqb; rewrite Rabs_right; lra.
Qed.
